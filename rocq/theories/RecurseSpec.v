(** Comparison place by place: what the option [recurse] is meant to do. *)
From Coq Require Import List Arith NArith ZArith Bool.
From Verif Require Import Prelude SelPathModel FSModel PySeq MFSModel ValModel EqModel SeqDiffModel SeqDiffProofs SeqDiffProps DiffModel DiffProofs DiffExact DiffEntries.
Import ListNotations.

Section Spec.
Context {A C : Type}.
Variable W : classes A C.
Notation val := (val A C).
Variable veqb : val -> val -> bool.
Variable repr : val -> str.
Variable a_hash : A -> bool.
Variable opt : options.

Notation seen := (seen (A := A) (C := C) opt).
Notation counted := (counted W repr a_hash opt).

(** Recursing, and otherwise the defaults but for text normalisation, [extraneous], [fuzzy_match] and what is reported besides changes *)
Definition recursing : Prop :=
  o_empty_slots opt = false /\ o_empty_items opt = false /\ o_duck opt = false /\ o_filter opt = None /\ o_recurse opt = true.

(** [v] has an item at [i] *)
Definition has_item (v : val) (i : elem) : Prop := exists x, In (i, x) (contents v).

(** An entry of type [t] is due with the path [p] in the base [a] and [q] in the other [b].  ([slots], [loose], [strict] and
    [matching] are those of C30, as are [seen] and [counted].) *)
Inductive differs : val -> val -> dtype -> list elem -> list elem -> Prop :=
| at_slot_removed a b p u : slots W opt a b p -> seen p a = Some u -> seen p b = None -> differs a b Removed [EStr (p_name p)] [EStr (p_name p)]
| at_slot_added a b p v : slots W opt a b p -> seen p a = None -> seen p b = Some v -> differs a b Added [EStr (p_name p)] [EStr (p_name p)]
| at_slot_modified a b p u v : slots W opt a b p -> seen p a = Some u -> seen p b = Some v ->
    ~ same_type u v -> veqb u v = false -> differs a b Modified [EStr (p_name p)] [EStr (p_name p)]
| at_slot_same a b p u v : slots W opt a b p -> seen p a = Some u -> seen p b = Some v ->
    ~ same_type u v -> veqb u v = true -> o_unchanged_ opt = true -> differs a b NoChange [EStr (p_name p)] [EStr (p_name p)]
| in_slot a b p u v t q r : slots W opt a b p -> seen p a = Some u -> seen p b = Some v ->
    same_type u v -> differs u v t q r -> differs a b t (EStr (p_name p) :: q) (EStr (p_name p) :: r)
| loose_removed a b i : same_type a b -> loose W a -> surplus veqb (counted a) (counted b) i ->
    ~ surplus veqb (counted b) (counted a) i -> differs a b Removed [i] []
| loose_added a b i : same_type a b -> loose W a -> surplus veqb (counted b) (counted a) i ->
    ~ surplus veqb (counted a) (counted b) i -> differs a b Added [] [i]
| loose_modified a b i : same_type a b -> loose W a -> surplus veqb (counted a) (counted b) i ->
    surplus veqb (counted b) (counted a) i -> differs a b Modified [i] [i]
| loose_same a b t i j : same_type a b -> loose W a -> paired veqb (counted a) (counted b) i j ->
    matching opt t i j -> differs a b t [i] [j]
| record_gone a b i : same_type a b -> strict W a -> has_item a i -> ~ has_item b i -> differs a b Removed [i] []
| record_new a b i : same_type a b -> strict W a -> has_item b i -> ~ has_item a i -> differs a b Added [] [i]
| in_record a b i x y t q r : same_type a b -> strict W a -> In (i, x) (contents a) -> In (i, y) (contents b) ->
    differs x y t q r -> differs a b t (i :: q) (i :: r).
End Spec.
