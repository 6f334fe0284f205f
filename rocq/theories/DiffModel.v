(** Comparing objects: diff_iter, _diff_iter, compare_record_iter, compare_collection_iter,
    compare_list_iter and compare_dict_iter on typed values, with all options.
    normalize/diff.py:119-483, 486-530, 539-545, 593-1018. *)
From Coq Require Import List Arith NArith ZArith Bool.
From Verif Require Import Prelude SelPathModel FSModel PySeq MFSModel ValModel EqModel SeqDiffModel FuzzyModel.
Import ListNotations.

(** DiffOptions (diff.py:119-206); [o_text] is normalize_text under the options (TextModel). *)
Record options : Type := mkOptions {
  o_text : str -> str;
  o_unchanged_ : bool;
  o_moved : bool;
  o_empty_slots : bool;
  o_empty_items : bool;
  o_duck : bool;
  o_extraneous : bool;
  o_filter : option mfs;
  o_fuzzy : bool;
  o_recurse : bool
}.

Section Diff.
Context {A C : Type}.
Variable W : classes A C.
Variable ceqb : C -> C -> bool.
Notation val := (val A C).
Notation prop := (prop A C).

(** == of values, where == is used: [items_equal] (diff.py:208-211) and members of sets and
    dicts (their hashes are taken to agree with ==, see C25).  Exceptions raised by == are not
    modelled. *)
Variable veqb : val -> val -> bool.
(** hash() succeeds *)
Variable hashable : val -> bool.
Variable repr : val -> str.
(** for opaque values: [__hash__] is not None; truth; the items when iterated *)
Variable a_hash a_falsy : A -> bool.
Variable a_items : A -> res (list (elem * val)).
Variable opt : options.
(** [options.record_id] with [type_] and [selector] (diff.py:326-331), see [EqModel.rid] *)
Variable record_id : rtype C -> option mfs -> val -> res val.

(** An entry: DiffInfo (diff.py:63-108) *)
Definition dentry : Type := (dtype * list elem * list elem)%type.

(** Set iteration orders, which may differ from place to place. *)
Record dorders := {
  so_seq : orders val elem;                                   (* compare_list_iter, compare_dict_iter *)
  so_keys : list elem -> list elem;                           (* diff.py:676-693 *)
  so_common : list (pk val * nat) -> list (pk val * nat);     (* diff.py:702 *)
  so_fuzzy_a : list (pk val * nat) -> list (pk val * nat);    (* diff.py:724, through _fuzzy_match *)
  so_fuzzy_b : list (pk val * nat) -> list (pk val * nat);
  so_unchanged : list (pk val * nat) -> list (pk val * nat);  (* diff.py:756 *)
  so_removed : list (pk val * nat) -> list (pk val * nat);    (* diff.py:773 *)
  so_added : list (pk val * nat) -> list (pk val * nat)       (* diff.py:782 *)
}.
Variable ord : list elem -> list elem -> dorders.

(** ** Normalising *)

(** value_is_empty, normalize_val (diff.py:239-244, 259-268) *)
Definition normalize_val (v : val) : val :=
  let v := match v with VText s => VText (o_text opt s) | _ => v end in
  if o_empty_slots opt && match v with VText [] | VNone => true | _ => false end then VNothing else v.

Definition is_nothing (v : val) : bool := match v with VNothing => true | _ => false end.

(** normalize_object_slot, normalize_slot (diff.py:270-301) *)
Definition normalize_slot (v : val) (p : prop) (o : val) : val :=
  normalize_val (match p_compare_as p with
                 | Some f => if is_nothing v then v else f o v
                 | None => v
                 end).

(** normalize_item (diff.py:303-324) *)
Definition normalize_item (v coll : val) : val :=
  normalize_val (match class_of coll with
                 | Some c => match item_as W c with
                             | Some f => if is_nothing v then v else f v
                             | None => v
                             end
                 | None => v
                 end).

(** is_filtered (diff.py:353-356) *)
Definition is_filtered (p : prop) (fs : list elem) : bool :=
  (negb (o_extraneous opt) && p_extraneous p) ||
  match o_filter opt with
  | Some m => sel_true (o_filter opt) && negb (sel_true (getitem_path m fs))
  | None => false
  end.

(** collection_generator (diff.py:486-530).  Simplification: records which are not
    collections are not iterable (no properties called keys or items). *)
Definition generator (v : val) : res (list (elem * val)) :=
  match v with
  | VNothing => Ok []
  | VLC _ _ l | VSeq _ l => Ok (number l)
  | VDC _ _ l | VMap l => Ok l
  | VText s => Ok (number (map (fun c => VText [c]) s))
  | VAtom a => a_items a
  | VNone | VRec _ _ => Err TypeErr
  end.

(** ** Plain lists and dicts (diff.py:792-959) *)

(** diff.py:812-820: what goes into the set for one item, if anything *)
Definition item_key (coll v : val) : res (option val) :=
  let v := normalize_item v coll in
  let v := if has_hash a_hash v then v else VText (repr v) in
  if is_nothing v && o_empty_slots opt then Ok None
  else if hashable v then Ok (Some v) else Err TypeErr.

Fixpoint item_keys (coll : val) (l : list (elem * val)) : res (list (elem * val)) :=
  match l with
  | [] => Ok []
  | (k, v) :: t =>
      do i <- item_key coll v;
      do r <- item_keys coll t;
      Ok (match i with Some i => (k, i) :: r | None => r end)
  end.

Definition place (fs : list elem) (k : option elem) : list elem :=
  match k with Some k => fs ++ [k] | None => fs end.

Definition list_iter (a b : val) (fa fb : list elem) : res (list dentry) :=
  do ga <- generator a;
  do ka <- item_keys a ga;
  do gb <- generator b;
  do kb <- item_keys (if o_duck opt then a else b) gb;
  Ok (map (fun e => (fst (fst e), place fa (snd (fst e)), place fb (snd e)))
        (seq_diff veqb elem_eqb (so_seq (ord fa fb)) (o_unchanged_ opt) (o_moved opt) ka kb)).

(** ** Records and collections, given the comparison of their parts *)

Section Parts.
Variable rec : val -> val -> list elem -> list elem -> res (list dentry).

(** isinstance(v, COMPARABLE) (diff.py:971) *)
Definition comparable (v : val) : bool :=
  match v with VSeq _ _ | VMap _ | VRec _ _ | VLC _ _ _ | VDC _ _ _ => true | _ => false end.
(** [type(x) == type(y)], where one of them is comparable *)
Definition types_match (x y : val) : bool :=
  match x, y with
  | VSeq t _, VSeq u _ => Bool.eqb t u
  | VMap _, VMap _ => true
  | VRec c _, VRec d _ | VLC c _ _, VLC d _ _ | VDC c _ _, VDC d _ _ => ceqb c d
  | _, _ => false
  end.

Definition dt_eqb (x y : dtype) : bool :=
  match x, y with
  | NoChange, NoChange | Added, Added | Removed, Removed | Modified, Modified | Moved, Moved => true
  | _, _ => false
  end.
Definition dt_of (e : dentry) : dtype := fst (fst e).
Definition changes (l : list dentry) : list dtype :=
  filter (fun d => negb (dt_eqb d NoChange)) (map dt_of l).

(** One slot (diff.py:404-483) *)
Definition slot_diff (a b : val) (fa fb : list elem) (p : prop) : res (list dentry) :=
  let fpa := fa ++ [EStr (p_name p)] in
  let fpb := fb ++ [EStr (p_name p)] in
  if is_filtered p fpa then Ok []
  else
    let get v := normalize_slot (match slot v (p_name p) with Some u => u | None => VNothing end) p v in
    let u := get a in
    let v := get b in
    if is_nothing u && is_nothing v then Ok []
    else
      let one := xorb (is_nothing u) (is_nothing v) in
      if (comparable u || comparable v) && (types_match u v || o_duck opt || (o_empty_slots opt && one)) then
        do l <- rec u v fpa fpb;
        if one then
          match changes l with
          | [] => Ok (if o_unchanged_ opt then [(NoChange, fpa, fpb)] else [])
          | d :: t => if forallb (dt_eqb d) t then Ok [(d, fpa, fpb)] else Err AssertErr
          end
        else Ok l
      else if one then Ok [(if is_nothing u then Added else Removed, fpa, fpb)]
      else if negb (veqb u v) then Ok [(Modified, fpa, fpb)]
      else Ok (if o_unchanged_ opt then [(NoChange, fpa, fpb)] else []).

Fixpoint concatM {X Y} (f : X -> res (list Y)) (l : list X) : res (list Y) :=
  match l with
  | [] => Ok []
  | x :: t => do u <- f x; do v <- concatM f t; Ok (u ++ v)
  end.

(** [sorted(properties)] (diff.py:399-402) *)
Definition all_properties (c : C) : list prop := fold_left (fun acc p => insert_prop p acc) (props W c) [].

(** compare_record_iter (diff.py:358-483) *)
Definition record_iter (a b : val) (fa fb : list elem) : res (list dentry) :=
  if negb (o_duck opt) && negb (types_match a b) && negb (is_nothing a || is_nothing b) then Err TypeErr
  else match class_of (if is_nothing a then b else a) with
       | None => Err AttrErr
       | Some c => concatM (slot_diff a b fa fb) (all_properties c)
       end.

(** ** Collections of records (diff.py:593-789) *)

(** The values found in keys are compared with == , tuples element by element. *)
Fixpoint key_of (v : val) : kv val :=
  match v with
  | VSeq true l => KTup (map key_of l)
  | _ => KV v
  end.
Definition v_falsy (v : val) : bool :=
  match v with
  | VNothing | VNone | VText [] | VSeq _ [] | VMap [] | VLC _ _ [] | VDC _ _ [] => true
  | VAtom a => a_falsy a
  | _ => false
  end.
(** _nested_empty (diff.py:539-543) *)
Fixpoint nested_empty (v : val) : bool :=
  match v with
  | VSeq true l => forallb nested_empty l
  | VNothing | VNone | VText [] => true
  | _ => false
  end.

(** id_args (diff.py:333-351): [inl] for a function of the key, [inr] for one selector. *)
Definition id_selector (fs : list elem) : res (option (mfs + option mfs)) :=
  match o_filter opt with
  | Some m =>
      if sel_true (Some m) then
        match (match fs with [] => Some m | _ => getitem_path m fs end) with
        | None => Err AttrErr
        | Some cf =>
            if negb (has_none cf) then Ok (Some (inl cf))
            else if complete cf then Ok (Some (inr (Some cf)))
            else if Nat.ltb 1 (length (heads cf)) then Err AssertErr
            else Ok (Some (inr (getitem cf ENone)))
        end
      else Ok None
  | None => Ok None
  end.

(** The loop diff.py:645-667: keys and identities of the items which take part.  The identity
    of an item is a tuple, since items are records: by coercion in the base, in the other
    because of the type check in record_iter or, with duck_type, because type_ is given.
    Hence [compare_values] is true as soon as there is an item. *)
Fixpoint id_keys (d : C) (sel : option (mfs + option mfs)) (fa : list elem) (l : list (elem * val))
    : res (list (elem * pk val)) :=
  match l with
  | [] => Ok []
  | (k, v) :: t =>
      let skip := match sel, o_filter opt with
                  | Some (inl _), Some m => negb (contains m (fa ++ [k]))
                  | _, _ => false
                  end in
      if skip then id_keys d sel fa t
      else
        do i <- record_id (if o_duck opt then RClass d else RAuto)
                  (match sel with Some (inl cf) => getitem cf k | Some (inr s) => s | None => None end) v;
        if o_empty_items opt && nested_empty i then id_keys d sel fa t
        else if negb (hashable i) then Err TypeErr
        else match key_of i with
             | KTup l => do r <- id_keys d sel fa t; Ok ((k, l) :: r)
             | KV _ => Err TypeErr
             end
  end.

Definition keqb : pk val -> pk val -> bool := pkeqb veqb.
Definition kteqb : pk val * nat -> pk val * nat -> bool := teqb keqb.
Definition kmem (x : pk val * nat) (l : list (pk val * nat)) : bool := tmem keqb x l.
Definition emem (k : elem) (l : list elem) : bool := existsb (elem_eqb k) l.

(** [rev_keys[x][pk, seq]], [propval_x[key]] *)
Definition key_at (ks : list ((pk val * nat) * elem)) (x : pk val * nat) : res elem :=
  match lookup keqb x ks with Some k => Ok k | None => Err KeyErr end.
Definition val_at (g : list (elem * val)) (k : elem) : res val :=
  match dict_get elem_eqb g k with Some v => Ok v | None => Err KeyErr end.

(** Simplification: an operand whose items could be enumerated counts as Iterable (diff.py:677). *)
Definition records_iter (d : C) (a b : val) (fa fb : list elem) : res (list dentry) :=
  do sel <- id_selector fa;
  if match sel with Some (inr s) => negb (sel_true s) | _ => false end then Ok []   (* diff.py:640-643 *)
  else
  let so := ord fa fb in
  do ga <- generator a;
  do ia <- id_keys d sel fa ga;
  do gb <- generator b;
  do ib <- id_keys d sel fa gb;
  let ta := tag keqb [] ia in
  let tb := tag keqb [] ib in
  if o_recurse opt then
    (* diff.py:669-693 *)
    let sa := map snd ta in
    let sb := map snd tb in
    do l <- concatM (fun k => do x <- val_at ga k; do y <- val_at gb k; rec x y (fa ++ [k]) (fb ++ [k]))
              (so_keys so (filter (fun k => emem k sb) sa));
    Ok (l ++ map (fun k => (Removed, fa ++ [k], fb)) (so_keys so (filter (fun k => negb (emem k sb)) sa))
          ++ map (fun k => (Added, fa, fb ++ [k])) (so_keys so (filter (fun k => negb (emem k sa)) sb)))
  else
    let va := map fst ta in
    let vb := map fst tb in
    let removed := filter (fun x => negb (kmem x vb)) va in
    let added := filter (fun x => negb (kmem x va)) vb in
    let common := filter (fun x => kmem x vb) va in
    let force := is_nothing a || is_nothing b in
    (* diff.py:699-721 *)
    do l1 <- (if force then
                concatM (fun x =>
                    if is_nothing a then
                      do k <- key_at tb x; do y <- val_at gb k; rec VNothing y (fa ++ [k]) (fb ++ [k])
                    else
                      do k <- key_at ta x; do y <- val_at ga k; rec y VNothing (fa ++ [k]) (fb ++ [k]))
                  (so_common so (removed ++ added))
              else
                concatM (fun x =>
                    do k <- key_at ta x; do u <- val_at ga k;
                    do j <- key_at tb x; do v <- val_at gb j;
                    rec u v (fa ++ [k]) (fb ++ [j]))
                  (so_common so common));
    (* diff.py:723-752 *)
    let pairs := if negb force && o_fuzzy opt
                 then fuzzy_match veqb v_falsy (so_fuzzy_a so removed) (so_fuzzy_b so added) else [] in
    do l2 <- concatM (fun xy =>
               do k <- key_at ta (fst xy); do u <- val_at ga k;
               do j <- key_at tb (snd xy); do v <- val_at gb j;
               do l <- rec u v (fa ++ [k]) (fb ++ [j]);
               Ok (l ++ (if o_moved opt && negb (elem_eqb k j) then [(Moved, fa ++ [k], fb ++ [j])]
                         else if o_unchanged_ opt && match changes l with [] => true | _ => false end
                              then [(NoChange, fa ++ [k], fb ++ [j])] else [])))
             pairs;
    let removed := filter (fun x => negb (kmem x (map fst pairs))) removed in
    let added := filter (fun x => negb (kmem x (map snd pairs))) added in
    (* diff.py:754-770 *)
    do l3 <- (if o_unchanged_ opt || o_moved opt then
                concatM (fun x =>
                    do k <- key_at ta x; do j <- key_at tb x;
                    Ok (if o_moved opt && negb (elem_eqb k j) then [(Moved, fa ++ [k], fb ++ [j])]
                        else if o_unchanged_ opt then [(NoChange, fa ++ [k], fb ++ [j])] else []))
                  (so_unchanged so common)
              else Ok []);
    (* diff.py:772-789 *)
    do l4 <- (if force then Ok []
              else concatM (fun x => do k <- key_at ta x; Ok [(Removed, fa ++ [k], fb)]) (so_removed so removed));
    do l5 <- (if force then Ok []
              else concatM (fun x => do k <- key_at tb x; Ok [(Added, fa, fb ++ [k])]) (so_added so added));
    Ok (l1 ++ l2 ++ l3 ++ l4 ++ l5).

(** compare_collection_iter (diff.py:613-637) *)
Definition collection_iter (a b : val) (fa fb : list elem) : res (list dentry) :=
  match class_of (if is_nothing a then b else a) with
  | None => Err AttrErr
  | Some c =>
      match ValModel.item W c with
      | ITuple => Err CollItemTypeUnsupported
      | IPlain => list_iter a b fa fb
      | IRec d => records_iter d a b fa fb
      end
  end.

(** _diff_iter (diff.py:1005-1017) *)
Definition dispatch (a b : val) (fa fb : list elem) : res (list dentry) :=
  match (if is_nothing a then b else a) with
  | VSeq _ _ | VMap _ => list_iter a b fa fb
  | VLC _ _ _ | VDC _ _ _ =>
      do l <- collection_iter a b fa fb;
      do m <- record_iter a b fa fb;
      Ok (l ++ m)
  | VRec _ _ => record_iter a b fa fb
  | _ => Ok []
  end.
End Parts.

Fixpoint diff (n : nat) (a b : val) (fa fb : list elem) : res (list dentry) :=
  match n with
  | O => Err RecursionErr
  | S n => dispatch (diff n) a b fa fb
  end.

(** diff_iter (diff.py:974-1002); the yielded entries as a list, so an exception part way loses them *)
Definition diff_iter (n : nat) (a b : val) : res (list dentry) := diff n a b [] [].

End Diff.
