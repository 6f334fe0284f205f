(** Positions during a visit (C64): what a path says, apart from cues. *)
From Coq Require Import List Bool.
From Verif Require Import Prelude SelPathModel FSModel HookModel.
Import ListNotations.
Local Open Scope list_scope.

(** The selector of a path. *)
Definition selector (p : path) : list elem := map snd p.

(** No property on the way is filtered at its place. *)
Definition admitted (filtered : list elem -> elem -> bool) (p : path) : Prop :=
  forall before k after, p = before ++ (Props, k) :: after -> filtered (selector before) k = false.

(** [timely s]: a generator that is begun in this step was made by a call of [map] that has not
    returned: its value is still being visited. *)
Definition timely (s s' : state) : Prop :=
  forall g, g < n_gens s -> g_phase (gens s g) = Fresh -> g_phase (gens s' g) <> Fresh ->
    g_phase (gens s' g) <> Ended ->
    exists v p st made, In (Map v p st made) (stack s) /\ In g made.


(** No restriction. *)
Definition anyhow (s s' : state) : Prop := True.
