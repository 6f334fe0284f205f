(** Reading without remembering (C65): a lazy default is computed whenever it is read. *)
From Coq Require Import List Bool Arith.
From Verif Require Import Prelude LookModel.
Import ListNotations.
Local Open Scope list_scope.

Section Spec.
Variable class_of : nat -> nat.
Variable lazy : nat -> str -> option (nat -> prog value).
Variable convert : nat -> str -> value -> res value.

(** The answer of code when [read] says what each property is. *)
Fixpoint answer {A} (read : nat -> str -> option (res value)) (p : prog A) : option (res A) :=
  match p with
  | Return a => Some (Ok a)
  | Throw e => Some (Err e)
  | Read o n k => match read o n with Some r => answer read (k r) | None => None end
  end.

(** What a property is, for objects whose slots are as in [s]. *)
Fixpoint meaning (fuel : nat) (s : state) (o : nat) (n : str) : option (res value) :=
  match fuel, s o n, lazy (class_of o) n with
  | 0, _, _ => None
  | S f, Some v, _ => Some (Ok v)
  | S f, None, None => Some (Err AttrErr)
  | S f, None, Some d =>
      match answer (meaning f s) (d o) with
      | Some (Ok v) => Some (convert (class_of o) n v)
      | Some (Err e) => Some (Err e)
      | None => None
      end
  end.

(** [s'] is [s] after some looking: slots of lazy properties that were empty have been filled, with
    what they are; nothing else has changed. *)
Definition only_filled (s s' : state) : Prop :=
  forall o n, s' o n = s o n
  \/ (s o n = None /\ lazy (class_of o) n <> None
      /\ exists v f, s' o n = Some v /\ meaning f s o n = Some (Ok v)).

(** Any sequence of looks. *)
Inductive looked_at (s : state) : state -> Prop :=
| Not_yet : looked_at s s
| Looked A f (p : prog A) s1 r s2 :
    looked_at s s1 -> look class_of lazy convert f p s1 = Some (r, s2) -> looked_at s s2.
End Spec.
