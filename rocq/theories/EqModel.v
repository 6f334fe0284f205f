(** Equality and identity of records: Record.__eq__ (record/__init__.py:119-136),
    Collection.__eq__ (coll.py:115-128), record_id (identity.py:23-112), Record.__pk__ and
    __hash__ (record/__init__.py:138-150). *)
From Coq Require Import List Arith NArith ZArith Bool Lia.
From Verif Require Import Prelude SelPathModel FSModel PySeq MFSModel ValModel.
Import ListNotations.

Section Eq.
Context {A C H : Type}.
Variable W : classes A C.
(** == of opaque values, of classes, and of the item types of two collection classes *)
Variable aeqb : A -> A -> bool.
Variable ceqb : C -> C -> bool.
Variable same_item : C -> C -> bool.

Notation val := (val A C).
Notation prop := (prop A C).

Section Loops.
Variable eq : val -> val -> res bool.

(** The common loop of list and tuple comparison; [short] is the answer if one runs out. *)
Fixpoint eq_items (l m : list val) : res bool :=
  match l, m with
  | [], [] => Ok true
  | x :: l, y :: m => do b <- eq x y; if b then eq_items l m else Ok false
  | _, _ => Ok false
  end.
(** lists compare their lengths first *)
Definition eq_list (l m : list val) : res bool :=
  if Nat.eqb (length l) (length m) then eq_items l m else Ok false.

(** dict == dict *)
Fixpoint eq_entries (l m : list (elem * val)) : res bool :=
  match l with
  | [] => Ok true
  | (k, x) :: l =>
      match dict_get elem_eqb m k with
      | None => Ok false
      | Some y => do b <- eq x y; if b then eq_entries l m else Ok false
      end
  end.
Definition eq_dict (l m : list (elem * val)) : res bool :=
  if Nat.eqb (length l) (length m) then eq_entries l m else Ok false.

(** The loop of Record.__eq__ (record/__init__.py:126-132); [_Unset] for what cannot be read. *)
Fixpoint eq_slots (ps : list prop) (x y : val) : res bool :=
  match ps with
  | [] => Ok true
  | p :: ps =>
      if p_extraneous p then eq_slots ps x y
      else do b <- match slot x (p_name p), slot y (p_name p) with
                   | None, None => Ok true
                   | Some u, Some v => eq u v
                   | _, _ => Ok false
                   end;
           if b then eq_slots ps x y else Ok false
  end.
End Loops.

(** [type(self)(other)] for a plain list or dict (coll.py:119-121) *)
Definition coerce_list (c : C) (l : list val) : res (list val) := mapM (coerce W c) l.
Definition coerce_dict (c : C) (l : list (elem * val)) : res (list (elem * val)) :=
  mapM (fun kv => do v <- coerce W c (snd kv); Ok (fst kv, v)) l.

(** x == y.  Fuel, since comparing a collection with a plain list coerces the list. *)
Fixpoint veq (n : nat) (x y : val) : res bool :=
  match n with
  | O => Err RecursionErr
  | S n =>
      match x, y with
      | VNothing, VNothing | VNone, VNone => Ok true
      | VText s, VText t => Ok (str_eqb s t)
      | VAtom a, VAtom b => Ok (aeqb a b)
      | VSeq false l, VSeq false m => eq_list (veq n) l m
      | VSeq true l, VSeq true m => eq_items (veq n) l m
      | VMap l, VMap m => eq_dict (veq n) l m
      | VRec c _, VRec d _ => if ceqb c d then eq_slots (veq n) (props W c) x y else Ok false
      | VLC c _ l, VLC d _ m => if same_item c d then eq_list (veq n) l m else Ok false
      | VLC c _ l, VSeq false m => do m' <- coerce_list c m; eq_list (veq n) l m'
      | VSeq false l, VLC d _ m => do l' <- coerce_list d l; eq_list (veq n) m l'
      | VDC c _ l, VDC d _ m => if same_item c d then eq_dict (veq n) l m else Ok false
      | VDC c _ l, VMap m => do m' <- coerce_dict c m; eq_dict (veq n) l m'
      | VMap l, VDC d _ m => do l' <- coerce_dict d l; eq_dict (veq n) m l'
      | _, _ => Ok false
      end
  end.

(** x != y (record/__init__.py:134-136, coll.py:126-128) *)
Definition vne (n : nat) (x y : val) : res bool := do b <- veq n x y; Ok (negb b).

(** ** record_id *)

(** truth of a selector (selector.py:643-644) *)
Definition sel_true (s : option mfs) : bool :=
  match s with Some m => negb (Nat.eqb (length (heads m)) 0) | None => false end.
(** [selector[(k,)]], [selector[k]] *)
Definition sel_path (s : option mfs) (k : elem) : option mfs :=
  match s with Some m => getitem_path m [k] | None => None end.
Definition sel_item (s : option mfs) (k : elem) : option mfs :=
  match s with Some m => getitem m k | None => None end.

(** [_sorted_properties] (record/meta.py:83-86) *)
Fixpoint insert_prop (p : prop) (l : list prop) : list prop :=
  match l with
  | [] => [p]
  | q :: t => if str_ltb (p_name p) (p_name q) then p :: l else q :: insert_prop p t
  end.
Definition sorted_properties (c : C) : list prop :=
  fold_left (fun acc p => insert_prop p acc) (filter (fun p => negb (p_extraneous p)) (props W c)) [].

(** [type_.coll_to_tuples(object_)] for an object without [itertuples] (coll.py:218-240,
    310-340).  For ListCollection the keys of a mapping would be visited in sorted order,
    all under the index 0; [sort_items] gives them. *)
Variable sort_items : list (elem * val) -> list (elem * val).
(** the same for an opaque value, which may be iterable *)
Variable alien_atom : C -> A -> res (list (elem * val)).
Definition alien_tuples (c : C) (v : val) : res (list (elem * val)) :=
  match kind W c, v with
  | _, VText _ => Err CollCoerceErr
  | _, VAtom a => alien_atom c a
  | _, VSeq _ l => Ok (number l)
  | KDict, VMap l => Ok l
  | _, VMap l => Ok (map (fun kv => (EInt 0, snd kv)) (sort_items l))
  | KDict, _ => Ok []
  | _, VNone => Ok []
  | _, _ => Err CollCoerceErr
  end.

(** The [type_] argument: None or a tuple; a Record class; another class. *)
Inductive rtype : Type := RAuto | RClass (c : C) | RPlain.
Definition item_rtype (c : C) : rtype :=
  match item W c with ITuple => RAuto | IRec d => RClass d | IPlain => RPlain end.

(** The classes derived from TypeError (exc.py:82, 159-172, 426-453) *)
Definition is_type_error (e : exn) : bool :=
  match e with
  | TypeErr | CoerceErr | ValueCoercionErr | CollItemCoerceErr | CollCoerceErr
  | SubtypeCoerceErr | SubtypeNoCoerce => true
  | _ => false
  end.

(** hash() of opaque values; [a_hash] false if the type has no [__hash__] *)
Variable a_hash : A -> bool.
Variable ahash : A -> res H.
Variables hnothing hnone : H.
Variable htext : str -> H.
Variable htuple : list H -> H.

(** [v.__hash__] is not None.  Collection defines __eq__ without __hash__, which in Python 3
    makes it None (coll.py:115). *)
Definition has_hash (v : val) : bool :=
  match v with
  | VSeq false _ | VMap _ | VLC _ _ _ | VDC _ _ _ => false
  | VAtom a => a_hash a
  | _ => true
  end.

Definition not_none (v : val) : bool := match v with VNone => false | _ => true end.
(** [x is y] as far as None and _nothing are concerned; anything else is taken to be a
    different object. *)
Definition is_same (x y : val) : bool :=
  match x, y with VNone, VNone | VNothing, VNothing => true | _, _ => false end.

(** [normalize_object_slot] (diff.py:269-282), or none: a function of value, property and object *)
Definition normalizer : Type := option (val -> prop -> val -> val).
Definition normal (f : normalizer) (v : val) (p : prop) (o : val) : val :=
  match f with Some f => f v p o | None => v end.

(** record_id (identity.py:23-112) and hash().  The union of value types: the loop
    identity.py:82-96. *)
Fixpoint rid (n : nat) (f : normalizer) (ty : rtype) (sel : option mfs) (v : val) {struct n} : res val :=
  match n with
  | O => Err RecursionErr
  | S n =>
      match (match ty with
             | RAuto => match class_of v with Some c => RClass c | None => RPlain end
             | _ => ty
             end) with
      | RAuto | RPlain => if has_hash v then Ok v else Err IdentityCrisis
      | RClass c =>
          let pk0 := pkey W c in
          let pk := if sel_true sel && negb (forallb (fun p => sel_true (sel_path sel (EStr (p_name p)))) pk0)
                    then [] else pk0 in
          match pk, kind W c with
          | [], KList | [], KDict =>
              do gen <- match tuples v with Some l => Ok l | None => alien_tuples c v end;
              do ids <- (if sel_true sel then
                           mapM (fun kv => rid n f (item_rtype c) (sel_item sel (fst kv)) (snd kv))
                                (filter (fun kv => sel_true (sel_path sel (fst kv))) gen)
                         else mapM (fun kv => rid n f (item_rtype c) None (snd kv)) gen);
              Ok (VSeq true ids)
          | _, _ =>
              let ps := match pk with
                        | [] => if sel_true sel
                                then filter (fun p => sel_true (sel_path sel (EStr (p_name p)))) (sorted_properties c)
                                else sorted_properties c
                        | _ => pk
                        end in
              do ids <- mapM (fun p =>
                  let u := normal f (match slot v (p_name p) with Some u => u | None => VNone end) p v in
                  let u0 := normal f VNone p v in
                  match p_valuetype p with
                  | Some vts =>
                      if is_same u u0 then Ok u
                      else
                        do best <- fold_left (fun acc vt =>
                            do (vp, cnt) <- acc;
                            match vt with
                            | None => Ok (vp, cnt)
                            | Some d =>
                                do i <- rid n f (RClass d) (if sel_true sel then sel_item sel (EStr (p_name p)) else None) u;
                                match i with
                                | VSeq _ l =>
                                    let k := length (filter not_none l) in
                                    if Nat.eqb (length vp) 0 || Nat.ltb cnt k then Ok (l, k) else Ok (vp, cnt)
                                | _ => Err TypeErr
                                end
                            end) vts (Ok ([], 0));
                        let i := match fst best with [] => u | l => VSeq true l end in
                        match hash n i with
                        | Ok _ => Ok i
                        | Err e => Err (if is_type_error e then KeyHashError else e)
                        end
                  | None => Ok u
                  end) ps;
              Ok (VSeq true ids)
          end
      end
  end
with hash (n : nat) (v : val) {struct n} : res H :=
  match n with
  | O => Err RecursionErr
  | S n =>
      match v with
      | VNothing => Ok hnothing
      | VNone => Ok hnone
      | VText s => Ok (htext s)
      | VAtom a => if a_hash a then ahash a else Err TypeErr
      | VSeq true l => do hs <- mapM (hash n) l; Ok (htuple hs)
      | VRec c _ => do i <- rid n None (RClass c) None v; hash n i
      | VSeq false _ | VMap _ | VLC _ _ _ | VDC _ _ _ => Err TypeErr
      end
  end.

End Eq.
Arguments rtype : clear implicits.
