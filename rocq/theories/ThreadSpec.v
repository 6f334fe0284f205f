(** What threads may expect of a slot. *)
From Coq Require Import List Arith Bool.
From Verif Require Import Prelude ThreadModel.
Import ListNotations.

Section Spec.
Context {V : Type}.

(** What is read was assigned, or made by a default, before. *)
Definition honest (tr : list (event V)) : Prop :=
  forall a i v b, tr = a ++ Returned i v :: b -> exists j, In (Made j v) a \/ In (Assigned j v) a.

Definition deletes (m : move V) : Prop := match m with Del _ => True | _ => False end.
Definition assigns (m : move V) : Prop := match m with Set_ _ _ => True | _ => False end.
(** The programs of the library, and those among them which make what is missing *)
Definition making (p : prog) : Prop := p = lazy_get \/ p = lazy_safe_get \/ exists b, p = make_generic b.
Definition library (p : prog) : Prop := p = plain_get \/ making p.
Definition begins (P : prog -> Prop) (m : move V) : Prop := match m with Begin _ p => P p | _ => True end.

(** The rest of a getter does not store anything, if it finds the slot set. *)
Fixpoint only_reads (p : prog) : Prop :=
  match p with
  | Ret => True
  | IfIn yes _ => only_reads yes
  | Look p => only_reads p
  | Fail | Make _ | Put _ => False
  end.
Definition nobody_stores (st : state V) : Prop := forall i p made, threads st i = Run p made -> only_reads p.
End Spec.
