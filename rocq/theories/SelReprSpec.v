(** What the source of a selector is to say (C62): specification only. *)
From Coq Require Import List NArith ZArith.
From Verif Require Import Prelude SelPathModel ReprSpec.
Import ListNotations.

(** Names are Unicode text (as all Python text is). *)
Definition named (p : list elem) : Prop := forall s, In (EStr s) p -> unicode s.

(** The empty path stands for everything, and is written as a wildcard. *)
Definition as_wildcard (p p' : list elem) : Prop := (p <> [] /\ p' = p) \/ (p = [] /\ p' = [ENone]).

(** [p] is given, and nothing shorter on the way to it is. *)
Definition outermost (given : list (list elem)) (p : list elem) : Prop :=
  (exists g, In g given /\ as_wildcard g p) /\
  forall g h t, In g given -> as_wildcard g h -> p = h ++ t -> t = [].
