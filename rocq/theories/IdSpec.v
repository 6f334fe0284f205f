(** When the identity of a record tells everything about it. *)
From Coq Require Import List Bool.
From Verif Require Import Prelude SelPathModel FSModel PySeq MFSModel ValModel.
Import ListNotations.

Section Spec.
Context {A C : Type}.
Variable W : classes A C.
Notation val := (val A C).

(** [x] is of exactly the class [c], which has no primary key; no property that takes part in == holds
    None; where record classes are declared, for properties or items, it holds records and lists of
    exactly these classes, and so on inside.  No dict collections, no items of several types. *)
Inductive fits : C -> val -> Prop :=
| fits_rec c sl : kind W c = KRec -> pkey W c = [] ->
    (forall p, In p (props W c) -> p_extraneous p = false -> dict_get str_eqb sl (p_name p) <> Some VNone) ->
    (forall p u vts d, In p (props W c) -> p_extraneous p = false -> dict_get str_eqb sl (p_name p) = Some u ->
       p_valuetype p = Some vts -> In (Some d) vts -> fits d u) ->
    fits c (VRec c sl)
| fits_list c sl l : kind W c = KList -> pkey W c = [] -> item W c <> ITuple ->
    (forall d u, item W c = IRec d -> In u l -> fits d u) ->
    fits c (VLC c sl l).

(** The values of some properties, as far as they make a key. *)
Definition fit_key (ps : list (prop A C)) (x : val) : Prop :=
  forall p, In p ps -> slot x (p_name p) <> Some VNone /\
    forall u vts d, slot x (p_name p) = Some u -> p_valuetype p = Some vts -> In (Some d) vts -> fits d u.
End Spec.
