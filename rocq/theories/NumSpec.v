(** Independent vocabulary for the numeric property types: how integers are written, and
    which number a float is. *)
From Coq Require Import List NArith ZArith Bool.
From Coq Require Import SpecFloat.
Import ListNotations.

(** the number written by a list of decimal digits *)
Fixpoint positional (ds : list N) : N :=
  match ds with
  | [] => 0
  | d :: t => d * 10 ^ N.of_nat (length t) + positional t
  end%N.

Definition white (c : N) : Prop := In c [9; 10; 11; 12; 13; 32]%N.

(** groups of digits with an underscore between any two *)
Fixpoint grouped (gs : list (list N)) : list N :=
  match gs with
  | [] => []
  | [g] => map (N.add 48) g
  | g :: t => map (N.add 48) g ++ 95%N :: grouped t
  end.

Inductive sign_text : list N -> Z -> Prop :=
| sign_none : sign_text [] 1
| sign_plus : sign_text [43%N] 1
| sign_minus : sign_text [45%N] (-1).

(** [text] is a decimal integer literal, as [int()] takes it, of [n] digits for [z] *)
Definition writes (text : list N) (n : nat) (z : Z) : Prop :=
  exists before sign sg gs after,
    text = before ++ sign ++ grouped gs ++ after /\
    Forall white before /\ Forall white after /\
    sign_text sign sg /\
    gs <> [] /\ Forall (fun g => g <> [] /\ Forall (fun d => (d < 10)%N) g) gs /\
    n = length (concat gs) /\
    z = (sg * Z.of_N (positional (concat gs)))%Z.

(** how [int()] reads characters outside ASCII, given the Unicode tables *)
Inductive ascii_of (udec : N -> option N) (uspace : N -> bool) : N -> N -> Prop :=
| ascii_same c : (c < 127)%N -> ascii_of udec uspace c c
| ascii_space c : (127 <= c)%N -> uspace c = true -> ascii_of udec uspace c 32%N
| ascii_digit c d : (127 <= c)%N -> uspace c = false -> udec c = Some d ->
    ascii_of udec uspace c (48 + d)%N.

(** the float is exactly the integer *)
Definition denotes (f : spec_float) (z : Z) : Prop :=
  match f with
  | S754_zero _ => z = 0
  | S754_finite s m e =>
      let a := (if s then Zneg m else Zpos m) in
      if (0 <=? e) then a * 2 ^ e = z else a = z * 2 ^ (- e)
  | _ => False
  end%Z.

Local Open Scope Z_scope.

(** a float can be the integer: at most 53 significant bits *)
Definition fits53 (z : Z) : Prop :=
  exists a j, 0 <= j /\ z = a * 2 ^ j /\ Z.abs a <= 2 ^ 53.

(** [z] is the float without its fractional part: |z| <= |f| < |z| + 1, same sign *)
Definition whole_part (f : spec_float) (z : Z) : Prop :=
  match f with
  | S754_zero _ => z = 0
  | S754_finite s m e =>
      (if s then z <= 0 else 0 <= z) /\
      if (0 <=? e) then Z.abs z = Zpos m * 2 ^ e
      else Z.abs z * 2 ^ (- e) <= Zpos m < (Z.abs z + 1) * 2 ^ (- e)
  | _ => False
  end.
