(** The visitor option apply_empty_slots: normalize/visitor.py:34-82, 155-247, 280-283, 383-479,
    591-708.  Options, filters, [reduce], [aggregate], [collect] and [produce] are those of VisitModel;
    the descent is written here a second time, because with this option it goes on where there is no
    value: an exception object takes the place of the value.  So values are [option pyv], and None is
    that exception object: AttributeError for visit, KeyError for cast.  It is an object with an empty
    [__dict__], of no record type, and neither a sequence nor a mapping. *)
From Coq Require Import String List NArith ZArith Arith Bool.
From Verif Require Import Prelude SelPathModel MFSModel GenModel PickleModel AutoModel JsonModel VisitModel.
Import ListNotations.
Local Open Scope string_scope.
Local Open Scope list_scope.

Section Visitor.
Variable W : world.
Variable o : vopts.
(** The option apply_empty_slots *)
Variable empty : bool.
(** The hook [apply] or [reverse] (visitor.py:249-283, 449-458). *)
Variable apply : list elem -> option prop -> option pyv -> out pyv.

(** [cls.map] of a value as a given class at a given position, visitor.py:591-639 *)
Definition descent : Type := option pyv -> nat -> list elem -> out pyv.

(** visitor.py:692-708, map_prop: the type of an exception object is no record type. *)
Definition map_prop_e (go : descent) (cue : list elem) (p : prop) (x : option pyv) : out pyv :=
  match q_type p, x with
  | TCls c _, _ => go x c cue
  | TAny, Some (PObj c _) => go x c cue
  | _, _ => apply cue (Some p) x
  end.

(** visitor.py:642-675, map_record; [get] the value of a property. *)
Fixpoint map_record_e (go : descent) (cue : list elem) (ps : list prop) (get : str -> option pyv)
  : out (list (str * pyv)) :=
  match ps with
  | [] => Val []
  | p :: t =>
      if is_filtered o cue p then map_record_e go cue t get
      else if empty || match get (q_name p) with Some _ => true | None => false end then
        let* m := map_prop_e go (cue ++ [EStr (q_name p)]) p (get (q_name p)) in
        let* r := map_record_e go cue t get in
        Val (if ignored o m then r else (q_name p, m) :: r)
      else map_record_e go cue t get
  end.

(** visitor.py:678-689, map_collection; for a type that is no record type visitor.py:632-635 *)
Fixpoint map_collection_e (go : descent) (cue : list elem) (t : vtype) (l : list (elem * pyv))
  : out (list (elem * pyv)) :=
  match l with
  | [] => Val []
  | (k, x) :: r =>
      let* m := match t with
                | TCls c _ => go (Some x) c (cue ++ [k])
                | _ => apply (cue ++ [k]) None (Some x)
                end in
      let* ms := map_collection_e go cue t r in
      Val (if ignored o m then ms else (k, m) :: ms)
  end.

(** visitor.py:195-247, unpack: the items of a collection; None: VisitorUnpackError. *)
Definition unpack_items (v : option pyv) (c : nat) : option (list (elem * pyv)) :=
  match v with
  | Some (PObj _ sl) => match find_name items_name sl with
                        | Some (PList l) => Some (indexed 0 l)
                        | Some (PDict l) => Some (keyed l)
                        | _ => None
                        end
  | Some (PList l) => if is_list_kind (w_kind W c) then Some (indexed 0 l) else None
  | Some (PDict l) => if is_list_kind (w_kind W c) then None else Some (keyed l)
  | _ => None
  end.
(** visitor.py:241-243, [prop.__get__(value)]: property/__init__.py:280-288 *)
Definition unpack_slot (v : option pyv) (n : str) : option pyv :=
  match v with Some (PObj _ sl) => find_name n sl | _ => None end.

(** visitor.py:591-639, map, for visit.  [fuel] is what is left of Python's stack. *)
Fixpoint visit_e (fuel : nat) (v : option pyv) (c : nat) (cue : list elem) : out pyv :=
  match fuel with
  | O => Exc [] RecursionErr
  | S n =>
      match v with
      | Some PNone => Exc [] NotModelled
      | _ =>
          let* coll :=
            (if is_coll W c then
               match unpack_items v c with
               | Some l => let* ms := map_collection_e (visit_e n) cue (w_item W c) l in
                           let* a := aggregate W c ms in Val (Some a)
               | None => Exc [] VisitorUnpack
               end
             else Val None) in
          let* props := map_record_e (visit_e n) cue (w_props W c) (unpack_slot v) in
          reduce W o cue c props coll
      end
  end.

(** ** Casting *)

Variable rec : nat -> pyv -> out pyv.
Variable by_key : list (str * pyv) -> list (str * pyv).

(** visitor.py:423-444, grok, and coll_to_tuples (coll.py:217-241, 309-338): the items of the value
    under the key "values" or of the value itself. *)
Definition grok_items (listk : bool) (v : option pyv) : out (list (elem * pyv)) :=
  match v with
  | Some (PList l) | Some (PTuple l) =>
      if listk then Val (indexed 0 l) else match l with [] => Val [] | _ => Exc [] (OtherErr 72) end
  | Some (PDict l) => Val (if listk then zero_indexed l else keyed l)
  | Some (PStr _) => Exc [] CollCoerceErr
  | _ => Exc [] GrokCollErr
  end.
Definition grok_values (isrec : bool) (v : option pyv) : option pyv :=
  match v with
  | Some (PDict l) => if isrec then match find_name values_name l with Some x => Some x | None => v end else v
  | _ => v
  end.
Definition is_dict (v : option pyv) : bool := match v with Some (PDict _) => true | _ => false end.
Definition grok_slot (v : option pyv) (n : str) : option pyv :=
  match v with Some (PDict l) => find_name n l | _ => None end.

(** visitor.py:591-639, map, for cast *)
Fixpoint cast_e (fuel : nat) (v : option pyv) (c : nat) (cue : list elem) : out pyv :=
  match fuel with
  | O => Exc [] RecursionErr
  | S n =>
      let isrec := is_record W o cue c in
      if isrec && negb (is_dict v) then Exc [] GrokRecordErr
      else
        let* coll :=
          (if is_coll W c then
             let* l := grok_items (is_list_kind (w_kind W c)) (grok_values isrec v) in
             let* ms := map_collection_e (cast_e n) cue (w_item W c) l in
             let* a := collect W rec c ms in Val (Some a)
           else Val None) in
        if isrec || is_coll W c then
          let* props := (if isrec then map_record_e (cast_e n) cue (w_props W c) (grok_slot v) else Val []) in
          produce W rec by_key c props coll
        else apply cue None v
  end.
End Visitor.

(** The default hooks, visitor.py:280-283, 455-458 *)
Definition default_apply_e : list elem -> option prop -> option pyv -> out pyv :=
  fun _ _ x => Val match x with Some v => v | None => PNone end.
