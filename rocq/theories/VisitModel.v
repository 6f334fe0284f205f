(** Visiting records and casting data back: normalize/visitor.py:29-119, 155-479, 591-708, with the
    default hooks [unpack], [aggregate], [reduce] and [grok], [collect], [produce].  The hooks [apply]
    and [reverse] are parameters. *)
From Coq Require Import String List NArith ZArith Arith Bool.
From Verif Require Import Prelude SelPathModel MFSModel GenModel PickleModel AutoModel JsonModel.
Import ListNotations.
Local Open Scope string_scope.
Local Open Scope list_scope.

(** Options of a Visitor, visitor.py:34-82.  apply_empty_slots is False here (the default); see EmptySlotModel. *)
Record vopts := {
  v_extraneous : bool;
  v_ignore_none : bool;
  v_ignore_empty : bool;
  v_filter : option mfs
}.
(** visitor.py:34-37 *)
Definition default_opts : vopts :=
  {| v_extraneous := false; v_ignore_none := true; v_ignore_empty := false; v_filter := None |}.

(** exc.VisitorTooSimple, VisitorUnpackError, VisitorGrokRecordError, VisitorGrokCollectionError *)
Definition VisitorTooSimple : exn := OtherErr 80.
Definition VisitorUnpack : exn := OtherErr 81.
Definition GrokRecordErr : exn := OtherErr 82.
Definition GrokCollErr : exn := OtherErr 83.
(** What is not modelled: a record is expected and the value is None (Property.__get__ then gives the
    property itself, property/__init__.py:283-284). *)
Definition NotModelled : exn := OtherErr 84.

Definition values_name : str := s2l "values".
Definition items_name : str := s2l "_values".

Definition is_coll_kind (k : kind) : bool := match k with KRecord | KJson => false | _ => true end.

(** truth of a value *)
Definition py_true (v : pyv) : bool :=
  match v with
  | PNone | PBool false | PStr [] | PList [] | PTuple [] | PDict [] | PNum 0 | PInt 0%Z => false
  | PObj _ sl => match find_name items_name sl with
                 | Some (PList []) | Some (PDict []) => false
                 | _ => true
                 end
  | _ => true
  end.

(** enumerate *)
Fixpoint indexed (i : nat) {A} (l : list A) : list (elem * A) :=
  match l with [] => [] | x :: t => (EInt (Z.of_nat i), x) :: indexed (S i) t end.

(** Items of a mapping by sorted keys, each with index 0: [i] is never counted up
    (coll.py:325-328). *)
Fixpoint str_leb (a b : str) : bool :=
  match a, b with
  | [], _ => true
  | _ :: _, [] => false
  | x :: a', y :: b' => if N.eqb x y then str_leb a' b' else N.ltb x y
  end.
Fixpoint insert {A} (e : str * A) (l : list (str * A)) : list (str * A) :=
  match l with
  | [] => [e]
  | e' :: t => if str_leb (fst e) (fst e') then e :: l else e' :: insert e t
  end.
Definition sort_keys {A} (l : list (str * A)) : list (str * A) := fold_right insert [] l.
Definition zero_indexed {A} (l : list (str * A)) : list (elem * A) :=
  map (fun kv => (EInt 0%Z, snd kv)) (sort_keys l).
Definition keyed {A} (l : list (str * A)) : list (elem * A) := map (fun kv => (EStr (fst kv), snd kv)) l.

Section Visitor.
Variable W : world.
Variable o : vopts.
(** The hook [apply] (visitor.py:249-283) or [reverse] (visitor.py:449-458): given the position
    [visitor.cue], the property if any, and the value.  The default returns the value. *)
Variable apply : list elem -> option prop -> pyv -> out pyv.

Definition is_coll (c : nat) : bool := is_coll_kind (w_kind W c).

(** visitor.py:88-91, is_filtered; [MultiFieldSelector.__bool__] is selector.py:643-644 *)
Definition mfs_true (m : mfs) : bool := match heads m with [] => false | _ => true end.
Definition is_filtered (cue : list elem) (p : prop) : bool :=
  (negb (v_extraneous o) && q_extraneous p) ||
  match v_filter o with
  | None => false
  | Some m => mfs_true m &&
              negb (match getitem_path m (cue ++ [EStr (q_name p)]) with
                    | Some m' => mfs_true m'
                    | None => false
                    end)
  end.

(** visitor.py:668-673, 684-689 *)
Definition ignored (m : pyv) : bool :=
  match m with
  | PNone => v_ignore_none o
  | PStr [] => v_ignore_empty o
  | _ => false
  end.

(** A value together with [cls.map] of it as a given class at a given position. *)
Definition mapper : Type := (pyv * (nat -> list elem -> out pyv))%type.

(** visitor.py:692-708, map_prop; without type unions, a property without [isa] goes by the type of the
    value. *)
Definition map_prop (cue : list elem) (p : prop) (x : mapper) : out pyv :=
  match q_type p, fst x with
  | TCls c _, _ => snd x c cue
  | TAny, PObj c _ => snd x c cue
  | _, v => apply cue (Some p) v
  end.

(** visitor.py:642-675, map_record; [get] the value of a property, None for AttributeError or
    KeyError. *)
Fixpoint map_record (cue : list elem) (ps : list prop) (get : str -> option mapper)
  : out (list (str * pyv)) :=
  match ps with
  | [] => Val []
  | p :: t =>
      if is_filtered cue p then map_record cue t get
      else match get (q_name p) with
           | None => map_record cue t get
           | Some x =>
               let* m := map_prop (cue ++ [EStr (q_name p)]) p x in
               let* r := map_record cue t get in
               Val (if ignored m then r else (q_name p, m) :: r)
           end
  end.

(** [cls.map] for an item: visitor.py:682, and 609-639 for a type that is no record type *)
Definition map_item (cue : list elem) (t : vtype) (x : mapper) : out pyv :=
  match t with
  | TCls c _ => snd x c cue
  | _ => apply cue None (fst x)
  end.

(** visitor.py:678-689, map_collection *)
Fixpoint map_collection (cue : list elem) (t : vtype) (l : list (elem * mapper))
  : out (list (elem * pyv)) :=
  match l with
  | [] => Val []
  | (k, x) :: r =>
      let* m := map_item (cue ++ [k]) t x in
      let* ms := map_collection cue t r in
      Val (if ignored m then ms else (k, m) :: ms)
  end.

(** tuples_to_coll with coerce=False (coll.py:211-215, 303-307).  Keys of dicts which are no text are
    not modelled. *)
Definition to_list (ms : list (elem * pyv)) : out pyv := Val (PList (map snd ms)).
Definition to_dict (ms : list (elem * pyv)) : out pyv :=
  let* l := omap (fun km => match fst km with
                            | EStr k => Val (k, snd km)
                            | _ => Exc [] (OtherErr 72)
                            end) ms in
  Val (PDict l).
Definition aggregate (c : nat) (ms : list (elem * pyv)) : out pyv :=
  if is_list_kind (w_kind W c) then to_list ms else to_dict ms.

(** visitor.py:311-359, reduce *)
Definition reduce (cue : list elem) (c : nat) (props : list (str * pyv)) (coll : option pyv) : out pyv :=
  match coll with
  | None => Val (PDict props)
  | Some a =>
      if forallb (is_filtered cue) (w_props W c) then Val a
      else match find_name values_name props with
           | Some v => if py_true v then Exc [] VisitorTooSimple
                       else Val (PDict (dset values_name a props))
           | None => Val (PDict (dset values_name a props))
           end
  end.

(** visitor.py:591-639, map, for visit: unpack (visitor.py:195-247) gives the entries of the record's
    [__dict__] and, for a collection, its items (coll.py:206, 393), or those of a list or dict standing
    for it; other values have no entries. *)
Fixpoint visit (v : pyv) (c : nat) (cue : list elem) {struct v} : out pyv :=
  let all l := let* ms := map_collection cue (w_item W c) l in
               let* a := aggregate c ms in Val (Some a) in
  match v with
  | PObj _ sl =>
      let* coll :=
        (if is_coll c then
           match find_name items_name (map (fun kv => (fst kv,
                   match snd kv with
                   | PList l => Some (indexed 0 (map (fun x => (x, visit x)) l))
                   | PDict l => Some (keyed (map (fun e => (fst e, (snd e, visit (snd e)))) l))
                   | _ => None
                   end)) sl) with
           | Some (Some l) => all l
           | _ => Exc [] VisitorUnpack
           end
         else Val None) in
      let get n := find_name n (map (fun kv => (fst kv, (snd kv, visit (snd kv)))) sl) in
      let* props := map_record cue (w_props W c) get in
      reduce cue c props coll
  | PNone => Exc [] NotModelled
  | PList l =>
      if is_coll c then
        if is_list_kind (w_kind W c) then
          let* coll := all (indexed 0 (map (fun x => (x, visit x)) l)) in reduce cue c [] coll
        else Exc [] VisitorUnpack
      else reduce cue c [] None
  | PDict l =>
      if is_coll c then
        if is_list_kind (w_kind W c) then Exc [] VisitorUnpack
        else let* coll := all (keyed (map (fun e => (fst e, (snd e, visit (snd e)))) l)) in
             reduce cue c [] coll
      else reduce cue c [] None
  | _ => if is_coll c then Exc [] VisitorUnpack else reduce cue c [] None
  end.

(** visitor.py:155-193: the type is that of the value. *)
Definition visit_top (v : pyv) : out pyv :=
  match v with PObj c _ => visit v c [] | _ => Exc [] TypeErr end.

(** ** Casting *)

(** A class called with one positional argument ([JsonModel.call]). *)
Variable rec : nat -> pyv -> out pyv.
Variable by_key : list (str * pyv) -> list (str * pyv).

(** visitor.py:395-447, grok: is there a property to read? *)
Definition is_record (cue : list elem) (c : nat) : bool :=
  existsb (fun p => negb (is_filtered cue p)) (w_props W c).

(** visitor.py:460-466, collect: tuples_to_coll with coercion (coll.py:152-161, 210, 302) *)
Definition collect (c : nat) (ms : list (elem * pyv)) : out pyv :=
  let* ms' := omap (fun km => let* x := coerce_item W rec c (snd km) in Val (fst km, x)) ms in
  aggregate c ms'.

(** visitor.py:468-479, produce *)
Definition produce (c : nat) (props : list (str * pyv)) (coll : option pyv) : out pyv :=
  match coll with
  | Some a => coll_init W by_key rec c a
                (filter (fun kv => negb (str_eqb (fst kv) values_name)) props)
  | None => record_init W rec c [] props
  end.

(** visitor.py:591-639, map, for cast.  [data l] are the items under the key "values" or the value
    itself (coll.py:217-241, 309-338; text is a sequence and refused when iterated). *)
Fixpoint cast (j : pyv) (c : nat) (cue : list elem) {struct j} : out pyv :=
  let all l := let* ms := map_collection cue (w_item W c) l in
               let* a := collect c ms in Val (Some a) in
  let listk := is_list_kind (w_kind W c) in
  let finish get coll :=
    (let* props := (if is_record cue c then map_record cue (w_props W c) get else Val []) in
     produce c props coll) in
  match j with
  | PDict l =>
      if is_coll c then
        let own := if listk then zero_indexed (map (fun e => (fst e, (snd e, cast (snd e)))) l)
                   else keyed (map (fun e => (fst e, (snd e, cast (snd e)))) l) in
        let* coll :=
          (if is_record cue c then
             match find_name values_name (map (fun kv => (fst kv,
                     match snd kv with
                     | PList l => if listk then Val (indexed 0 (map (fun x => (x, cast x)) l))
                                  else match l with [] => Val [] | _ => Exc [] (OtherErr 72) end
                     | PTuple l => if listk then Val (indexed 0 (map (fun x => (x, cast x)) l))
                                   else match l with [] => Val [] | _ => Exc [] (OtherErr 72) end
                     | PDict l =>
                         if listk then Val (zero_indexed (map (fun e => (fst e, (snd e, cast (snd e)))) l))
                         else Val (keyed (map (fun e => (fst e, (snd e, cast (snd e)))) l))
                     | PStr _ => Exc [] CollCoerceErr
                     | _ => Exc [] GrokCollErr
                     end)) l) with
             | Some r => let* l' := r in all l'
             | None => all own
             end
           else all own) in
        finish (fun n => find_name n (map (fun kv => (fst kv, (snd kv, cast (snd kv)))) l)) coll
      else if is_record cue c then
        finish (fun n => find_name n (map (fun kv => (fst kv, (snd kv, cast (snd kv)))) l)) None
      else apply cue None j
  | _ =>
      if is_record cue c then Exc [] GrokRecordErr
      else if is_coll c then
        match j with
        | PList l | PTuple l =>
            if listk then let* coll := all (indexed 0 (map (fun x => (x, cast x)) l)) in
                          finish (fun _ => None) coll
            else match l with
                 | [] => let* coll := all [] in finish (fun _ => None) coll
                 | _ => Exc [] (OtherErr 72)
                 end
        | PStr _ => Exc [] CollCoerceErr
        | _ => Exc [] GrokCollErr
        end
      else apply cue None j
  end.
End Visitor.

(** The default hooks, visitor.py:280-283, 455-458 *)
Definition default_apply : list elem -> option prop -> pyv -> out pyv := fun _ _ v => Val v.
