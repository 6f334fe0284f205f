(** The texts that stand for a date or time (C49), apart from the parser. *)
From Coq Require Import List NArith Bool.
From Verif Require Import Prelude DateModel.
Import ListNotations.
Local Open Scope list_scope.
Local Open Scope N_scope.

(** The decimal digits of a number. *)
Definition digits2 (n : N) : str := [48 + n / 10; 48 + n mod 10].
Definition digits4 (n : N) : str := digits2 (n / 100) ++ digits2 (n mod 100).

(** [text_of t s]: [s] is one of the accepted forms of [t], blanks, dashes and T apart. *)
Definition day_text (d : date) : str := digits4 (d_year d) ++ digits2 (d_month d) ++ digits2 (d_day d).
Definition hm_text (t : datetime) : str :=
  day_text (t_date t) ++ digits2 (t_hour t) ++ [58] ++ digits2 (t_minute t).
Definition hms_text (t : datetime) : str := hm_text t ++ [58] ++ digits2 (t_second t).

(** [day_only t]: midnight, without a zone. *)
Definition day_only (t : datetime) : Prop := t = mkDatetime (t_date t) 0 0 0 0 None.

Inductive text_of (t : datetime) : str -> Prop :=
| T_short : day_only t -> 1969 <= d_year (t_date t) <= 2068 ->
    text_of t (digits2 (d_year (t_date t) mod 100) ++ digits2 (d_month (t_date t))
               ++ digits2 (d_day (t_date t)))
| T_day : day_only t -> text_of t (day_text (t_date t))
| T_hm : t_second t = 0 -> text_of t (hm_text t)
| T_hmz z : t_second t = 0 -> z = 90 \/ z = 122 -> text_of t (hm_text t ++ [z])
| T_hms : text_of t (hms_text t)
| T_hmsz z : z = 90 \/ z = 122 -> text_of t (hms_text t ++ [z]).

(** Without dashes, T and blanks. *)
Definition bare (s : str) : str :=
  filter (fun c => negb (existsb (N.eqb c) [45; 84; 32])) s.

Definition ascii (s : str) : Prop := Forall (fun c => c < 128) s.

(** The Gregorian calendar. *)
Definition leap_year (y : N) : Prop := (4 | y) /\ (~ (100 | y) \/ (400 | y)).
Definition month_lengths (feb : N) : list N := [31; feb; 31; 30; 31; 30; 31; 31; 30; 31; 30; 31].
Definition existing (d : date) : Prop :=
  1 <= d_year d <= 9999 /\ 1 <= d_month d
  /\ exists feb len,
       (leap_year (d_year d) /\ feb = 29 \/ ~ leap_year (d_year d) /\ feb = 28)
       /\ nth_error (month_lengths feb) (N.to_nat (d_month d - 1)) = Some len
       /\ 1 <= d_day d <= len.
Definition existing_time (t : datetime) : Prop :=
  existing (t_date t) /\ t_hour t <= 23 /\ t_minute t <= 59 /\ t_second t <= 59
  /\ t_micro t <= 999999
  /\ forall neg h m, t_zone t = Some (neg, h, m) -> h <= 23 /\ m <= 59.
