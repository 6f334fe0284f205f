(** Specification: a declaration with the defaults of the property type written out. *)
From Coq Require Import List Bool.
Import ListNotations.
From Verif Require Import Prelude.

(** [full] is [given] with those [defaults] added whose names are not given (as Python's
    [dict(defaults, **given)]; the order does not matter). *)
Definition written_out {V} (defaults given full : list (str * V)) : Prop :=
  forall n v, In (n, v) full <-> In (n, v) given \/ (In (n, v) defaults /\ forall w, ~ In (n, w) given).
