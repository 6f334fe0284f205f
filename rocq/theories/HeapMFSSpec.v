(** Specification of which objects are reached from which (C58). *)
From Coq Require Import List Arith NArith ZArith Bool.
From Verif Require Import Prelude SelPathModel FSModel PySeq HeapModel.
Import ListNotations.

Section Spec.
Context {A C : Type}.
Notation val := (val A).
Notation cell := (cell A C).
Notation heap := (heap A C).

(** the values an object holds *)
Definition holds (c : cell) (v : val) : Prop :=
  match c with
  | HRec _ sl => exists n, In (n, v) sl
  | HList _ xs => In v xs
  | HDict _ kvs => exists s, In (s, v) kvs
  end.

(** the objects that can be reached from a value by any sequence of steps *)
Inductive reach (h : heap) (v : val) : nat -> Prop :=
| r_here n : v = VR n -> reach h v n
| r_next n c m : reach h v n -> nth_error h n = Some c -> holds c (VR m) -> reach h v m.

(** Something that makes the objects [new] and gives [v] brings in no others than those reached from
    what it was given ([args]) and those in [D]. *)
Definition brings (D : nat -> Prop) (h : heap) (args : list val) (r : res (list cell * val)) : Prop :=
  forall new v, r = Ok (new, v) ->
  forall m, v = VR m \/ (exists c, In c new /\ holds c (VR m)) ->
    (length h <= m)%nat \/ (exists a, In a args /\ reach h a m) \/ D m.

(** Objects that belong together with [D]: what [D] holds is in [D]. *)
Definition whole (D : nat -> Prop) (h : heap) : Prop :=
  forall n c m, D n -> nth_error h n = Some c -> holds c (VR m) -> D m.
End Spec.
