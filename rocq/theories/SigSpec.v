(** What it means that a function can be called with so many positional arguments. *)
From Coq Require Import String List NArith Bool Arith.
Import ListNotations.
From Verif Require Import Prelude SigModel.
Local Open Scope list_scope.

(** The parameters that must be given, in order (those with defaults are the last ones). *)
Definition must (s : sig) (l : list str) : Prop :=
  exists others, s_posonly s ++ s_args s = l ++ others /\ length others = s_defaults s.
Definition room (s : sig) (n : nat) : Prop :=
  n <= length (s_posonly s) + length (s_args s) \/ s_varargs s = true.
Definition no_keyword_needed (s : sig) : Prop := forall n has_default, In (n, has_default) (s_kwonly s) -> has_default = true.

(** A call [f(v1, ..., vn)] is accepted. *)
Definition accepts (s : sig) (n : nat) : Prop :=
  (forall l, must s l -> length l <= n) /\ room s n /\ no_keyword_needed s.

(** ** What is passed to whom *)
Section Passed.
Context {V : Type}.
(** A default is given the object if it can not do without an argument. *)
Inductive default_gets (obj : V) : list str -> list (str * V) -> Prop :=
| nothing_needed : default_gets obj [] []
| object_needed p : default_gets obj [p] [(p, obj)].

(** A function for compare_as is given the object for a first parameter which is called self, and the value
    for one parameter besides, as far as they must be given. *)
Inductive compare_gets (obj value : V) : list str -> list (str * V) -> Prop :=
| gets_nothing : compare_gets obj value [] []
| gets_object : compare_gets obj value [s2l "self"] [(s2l "self", obj)]
| gets_value p : p <> s2l "self" -> compare_gets obj value [p] [(p, value)]
| gets_both p : compare_gets obj value [s2l "self"; p] [(s2l "self", obj); (p, value)].

(** A method json_data of [x]: its first parameter is [x]; it is given [extraneous=] iff it has such a parameter. *)
Definition json_gets (x extraneous : V) (s : sig) (got : list (str * V)) : Prop :=
  exists p more, s_posonly s ++ s_args s = p :: more /\
    forall n v, In (n, v) got <->
      (n, v) = (p, x) \/ (In n (s_args s ++ map fst (s_kwonly s)) /\ n = s2l "extraneous" /\ v = extraneous).
End Passed.
