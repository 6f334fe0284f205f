(** Graphs of objects that are the same but for the addresses, and when a cycle is harmless. *)
From Coq Require Import List Arith NArith Bool.
From Verif Require Import Prelude GraphModel.
Import ListNotations.

Section Spec.
Context {A C L : Type}.
Notation pv := (pv A).
Notation obj := (obj A C L).

(** [f] says which object of the second graph stands for which of the first. *)
Definition stands_for (f : nat -> option nat) (v w : pv) : Prop :=
  match v, w with
  | PA a, PA b => a = b
  | PR r, PR r' => f r = Some r'
  | _, _ => False
  end.
(** What hangs on [v] in [h] and what hangs on [w] in [k] is the same: there is an assignment, one to one, of objects to
    objects, under which kinds, classes, names and atoms are the same and references correspond.  So an object which is
    referred to in two places stays one object. *)
Definition same_graph (h : list obj) (v : pv) (k : list obj) (w : pv) : Prop :=
  exists f : nat -> option nat,
    (forall a b c, f a = Some c -> f b = Some c -> a = b) /\
    stands_for f v w /\
    forall r r', f r = Some r' ->
      exists kd l l', nth_error h r = Some (Obj kd l) /\ nth_error k r' = Some (Obj kd l') /\
        Forall2 (fun x y => fst x = fst y /\ stands_for f (snd x) (snd y)) l l'.

(** All references lead to objects. *)
Definition leads (h : list obj) (v : pv) : Prop := forall r, v = PR r -> r < length h.
Definition closed (h : list obj) : Prop := forall o k v, In o h -> In (k, v) (o_parts o) -> leads h v.

Definition points (h : list obj) (a b : nat) : Prop := exists o k, nth_error h a = Some o /\ In (k, PR b) (o_parts o).
Definition generic (h : list obj) (r : nat) : Prop := exists c l, nth_error h r = Some (Obj (Generic c) l).

(** The ways from [x] along references; the last object comes first. *)
Definition next (h : list obj) (x : nat) (s : list nat) (r : nat) : Prop :=
  match s with [] => r = x | a :: _ => points h a r end.
Inductive trail (h : list obj) (x : nat) : list nat -> Prop :=
| tr_nil : trail h x []
| tr_cons r s : trail h x s -> next h x s r -> trail h x (r :: s).

(** If a generic collection leads back to itself, then through another object without which one does not get to
    the collection from [x]. *)
Definition guarded (h : list obj) (x : nat) : Prop :=
  forall g s, generic h g -> trail h g (g :: s) -> s <> [] ->
    exists d, In d s /\ ~ generic h d /\ forall s', trail h x (g :: s') -> In d s'.
End Spec.
