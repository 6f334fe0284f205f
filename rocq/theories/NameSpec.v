(** CamelCase names and what of a key is shown. *)
From Coq Require Import String List NArith Arith Bool.
From Verif Require Import Prelude.
Import ListNotations.
Local Open Scope list_scope.

Section Spec.
Variable other_digit : N -> Prop.
(** a lower case letter or digit, and a capital *)
Definition lower (c : N) : Prop := (97 <= c <= 122)%N \/ (48 <= c <= 57)%N \/ other_digit c.
Definition upper (c : N) : Prop := (65 <= c <= 90)%N.

(** no capital after a lower case letter or digit *)
Definition solid (s : str) : Prop := forall x y a b, s = x ++ a :: b :: y -> ~ (lower a /\ upper b).
Definition ends_lower (s : str) : Prop := exists x a, s = x ++ [a] /\ lower a.
Definition starts_upper (s : str) : Prop := exists b y, s = b :: y /\ upper b.

(** [words ps s]: [ps] are the words of the name [s] *)
Inductive words : list str -> str -> Prop :=
| words_one p : solid p -> words [p] p
| words_cons p ps s : solid p -> ends_lower p -> starts_upper s -> words ps s -> words (p :: ps) (p ++ s).

(** an ordinary class name: no comma, a capital first, a lower case letter or digit last *)
Definition class_name (s : str) : Prop := ~ In 44%N s /\ starts_upper s /\ ends_lower s.

(** what is shown of a key: all of it if it has at most 32 characters, else the first 30 and dots *)
Definition shown_key (key text : str) : Prop :=
  (length key <= 32 /\ text = key) \/ (32 < length key /\ exists rest, key = firstn 30 text ++ rest /\ length (firstn 30 text) = 30 /\ skipn 30 text = s2l "...").
End Spec.
