(** Which records of two values correspond (C63): specification only. *)
From Coq Require Import List Arith NArith ZArith Bool.
From Verif Require Import Prelude SelPathModel PySeq ValModel.
Import ListNotations.

Section Spec.
Context {A C : Type}.
Notation val := (val A C).
Notation prop := (prop A C).
Variable W : classes A C.
(** which properties count *)
Variable counts : prop -> Prop.

(** [shared a b r x y]: the names [r] lead from [a] to the record [x] and from [b] to the record [y]; these
    are of one class, and so are, two and two, the records passed on the way. *)
Inductive shared : val -> val -> list str -> val -> val -> Prop :=
| shared_here c sl sl' : shared (VRec c sl) (VRec c sl') [] (VRec c sl) (VRec c sl')
| shared_in c sl sl' p d s s' r x y : In p (props W c) -> counts p ->
    dict_get str_eqb sl (p_name p) = Some (VRec d s) -> dict_get str_eqb sl' (p_name p) = Some (VRec d s') ->
    shared (VRec d s) (VRec d s') r x y -> shared (VRec c sl) (VRec c sl') (p_name p :: r) x y.

Definition corresponding (a b : val) (r : list str) : Prop := exists x y, shared a b r x y.
End Spec.
