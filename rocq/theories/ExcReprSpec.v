(** Exceptions whose text says what they are *)
From Coq Require Import String List NArith ZArith Bool.
From Verif Require Import Prelude GenModel JsonModel JsonSpec ReprSpec ExcReprModel.
Import ListNotations.
Local Open Scope list_scope.

Section Spec.
Variable W : world.
Variable cname : nat -> str.
Variable scope : str -> option nat.
Variable finite : nat -> Prop.

Definition tuple (x : pyv) : Prop := exists l, x = PTuple l.
(** Arguments which can be rebuilt from their text; no positional argument a tuple; keywords as in a call *)
Definition tellable (e : pyexc) : Prop :=
  identifier (e_name e) /\
  (forall x, In x (e_args e) -> rebuildable W cname scope finite x /\ ~ tuple x) /\
  (forall k x, In (k, x) (e_kwargs e) -> identifier k /\ rebuildable W cname scope finite x) /\
  NoDup (map fst (e_kwargs e)).
End Spec.
