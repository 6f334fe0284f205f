(** C49: dates and times. *)
From Coq Require Import String List NArith Bool Lia.
From Verif Require Import Prelude PropModel SubModel DateModel DateSpec DateProofs.
Import ListNotations.
Local Open Scope list_scope.
Local Open Scope N_scope.

Section Props.
Context {W : Type}.
Variable parse : str -> res datetime.
Variable date_method : nat -> option (res (pval tval)).
Notation date_prop := (date_prop parse date_method W).
Notation datetime_prop := (datetime_prop parse W).
Notation tsv := (type_safe_value tval W).

(** Whatever is assigned to a date property, and whatever the parser and the method [date] of
    objects return, it is a date without a time that is stored (nothing, if nothing was given). *)
Theorem C49_date_only required v none_ok w x w' :
  tsv (date_prop required) v none_ok w = (Ok x, w') ->
  (exists d, x = PV (VDate d)) \/ (x = PUnset /\ none_ok = true /\ required = false).
Proof.
  unfold type_safe_value. cbn [date_prop sub_prop p_isa p_required no_isa run_check p_check p_coerce].
  rewrite andb_false_r.
  assert (J : forall y, inst tval W (SSub tval W (SBase tval W is_a_date)
                          (fun v => Ok (negb (is_a_datetime v))) None) y = true ->
              exists d, y = PV (VDate d)).
  { intros y. cbn [inst]. destruct y as [| |[d|t|s|n]]; cbn; try discriminate. eauto. }
  destruct (inst _ _ _ v) eqn:I.
  - unfold run_check. cbn. intros H. injection H as <- <-. auto.
  - destruct (coercion W (coerce_date parse date_method) v w) as [c w1].
    unfold run_check. cbn [p_check].
    assert (K : forall nv, (if negb (inst tval W (SSub tval W (SBase tval W is_a_date)
                          (fun v => Ok (negb (is_a_datetime v))) None) nv)
                 then if none_ok && is_none tval nv && negb required then Ok PUnset else Err ValueCoercionErr
                 else Ok nv) = Ok x ->
              (exists d, x = PV (VDate d)) \/ (x = PUnset /\ none_ok = true /\ required = false)).
    { intros nv. destruct (inst _ _ _ nv) eqn:I2; cbn [negb].
      - intros H; injection H as <-. auto.
      - destruct none_ok, (is_none tval nv), required; cbn; try discriminate.
        intros H; injection H as <-. auto. }
    destruct c as [nv|nv|e]; intros H; [| |discriminate]; apply (K nv); congruence.
Qed.

(** A datetime keeps its date, a date is kept, text is what the parser makes of it. *)
Theorem C49_date required none_ok w :
  (forall t, tsv (date_prop required) (PV (VDatetime t)) none_ok w = (Ok (PV (VDate (t_date t))), w))
  /\ (forall d, tsv (date_prop required) (PV (VDate d)) none_ok w = (Ok (PV (VDate d)), w))
  /\ (forall s, tsv (date_prop required) (PV (VStr s)) none_ok w
                = (match parse s with
                   | Ok t => Ok (PV (VDate (t_date t)))
                   | Err _ => Err CoerceErr
                   end, w)).
Proof.
  repeat split; intros; cbn; try reflexivity. destruct (parse s); reflexivity.
Qed.

(** A datetime property: a date becomes the midnight at which it begins. *)
Theorem C49_datetime required none_ok w :
  (forall t, tsv (datetime_prop required) (PV (VDatetime t)) none_ok w = (Ok (PV (VDatetime t)), w))
  /\ (forall d, tsv (datetime_prop required) (PV (VDate d)) none_ok w
                = (Ok (PV (VDatetime (mkDatetime d 0 0 0 0 None))), w))
  /\ (forall s, tsv (datetime_prop required) (PV (VStr s)) none_ok w
                = (match parse s with
                   | Ok t => Ok (PV (VDatetime t))
                   | Err _ => Err CoerceErr
                   end, w))
  /\ (forall v, (forall t, v <> PV (VDatetime t)) -> (forall d, v <> PV (VDate d)) ->
                (forall s, v <> PV (VStr s)) ->
        tsv (datetime_prop required) v none_ok w = (Err CoerceErr, w)).
Proof.
  repeat split; intros; cbn; try reflexivity.
  - destruct (parse s); reflexivity.
  - destruct v as [| |[d|t|s|n]]; try (destruct required; reflexivity); exfalso.
    + eapply H0; reflexivity.
    + eapply H; reflexivity.
    + eapply H1; reflexivity.
Qed.
End Props.

(** ** The parser used when dateutil is not installed *)
Section Text.
Variable other_digit : N -> option N.
Hypothesis other_ascii : forall c, c < 128 -> other_digit c = None.
Notation parse := (fallback_parse other_digit).

(** The values Python makes are those of the calendar. *)
Lemma leap_spec y : leap y = true <-> leap_year y.
Proof.
  unfold leap, leap_year. rewrite andb_true_iff, orb_true_iff, negb_true_iff, !N.eqb_eq, N.eqb_neq.
  rewrite <- !N.mod_divide by discriminate. reflexivity.
Qed.
Lemma days_spec y m feb : 1 <= m <= 12 -> (leap_year y /\ feb = 29 \/ ~ leap_year y /\ feb = 28) ->
  nth_error (month_lengths feb) (N.to_nat (m - 1)) = Some (days_in y m).
Proof.
  intros Hm Hf.
  assert (F : feb = if leap y then 29 else 28).
  { destruct Hf as [[L ->]|[L ->]]; destruct (leap y) eqn:E; try reflexivity; exfalso.
    - apply leap_spec in L. congruence.
    - apply L, leap_spec, E. }
  assert (C : m = 1 \/ m = 2 \/ m = 3 \/ m = 4 \/ m = 5 \/ m = 6 \/ m = 7 \/ m = 8 \/ m = 9 \/ m = 10
              \/ m = 11 \/ m = 12) by lia.
  destruct C as [->|[->|[->|[->|[->|[->|[->|[->|[->|[->|[->| ->]]]]]]]]]]]; try reflexivity.
  rewrite F. reflexivity.
Qed.
Theorem C49_calendar :
  (forall d, valid_date d = true <-> existing d)
  /\ (forall t, valid_datetime t = true <-> existing_time t).
Proof.
  assert (A : forall d, valid_date d = true <-> existing d).
  { intros d. unfold valid_date, existing. rewrite !andb_true_iff, !N.leb_le. split.
    - intros (((((H1 & H2) & H3) & H4) & H5) & H6). split; [lia|]. split; [lia|].
      exists (if leap (d_year d) then 29 else 28), (days_in (d_year d) (d_month d)).
      assert (F : leap_year (d_year d) /\ (if leap (d_year d) then 29 else 28) = 29
                  \/ ~ leap_year (d_year d) /\ (if leap (d_year d) then 29 else 28) = 28).
      { destruct (leap (d_year d)) eqn:E; [left|right]; (split; [|reflexivity]).
        - apply leap_spec, E.
        - intros L. apply leap_spec in L. congruence. }
      split; [exact F|]. split; [apply days_spec; [lia|exact F]|lia].
    - intros (H1 & H2 & feb & len & F & L & H3).
      assert (d_month d <= 12).
      { assert (K : (N.to_nat (d_month d - 1) < 12)%nat).
        { change 12%nat with (List.length (month_lengths feb)). apply nth_error_Some. rewrite L. discriminate. }
        lia. }
      rewrite (days_spec (d_year d) (d_month d) feb) in L by (auto; lia). injection L as L. lia. }
  split; [exact A|]. intros t. unfold valid_datetime, existing_time.
  rewrite !andb_true_iff, !N.ltb_lt, A. split.
  - intros (((((H1 & H2) & H3) & H4) & H5) & H6). repeat (split; [first [exact H1|lia]|]).
    intros neg h m E. rewrite E in H6. rewrite andb_true_iff, !N.ltb_lt in H6. lia.
  - intros (H1 & H2 & H3 & H4 & H5 & H6). split; [split; [split; [split; [split; [exact H1|lia]|lia]|lia]|lia]|].
    destruct (t_zone t) as [[[neg h] m]|]; [|reflexivity].
    rewrite andb_true_iff, !N.ltb_lt. destruct (H6 neg h m eq_refl). lia.
Qed.

(** Exactly the texts of a date or time are read, and as that date or time. *)
Theorem C49_exact s t : ascii s ->
  (parse s = Ok t
   <-> existing_time t /\ t_micro t = 0 /\ t_zone t = None /\ text_of t (bare s)).
Proof.
  intros Ha. rewrite <- (proj2 C49_calendar t). split.
  - apply parse_text_of; auto.
  - intros (V & U & Z & T). apply text_of_parse; auto.
Qed.

(** What JSON output writes is read back: dates, and times without microseconds and zone. *)
Theorem C49_date_text d : existing d -> parse (date_iso d) = Ok (mkDatetime d 0 0 0 0 None).
Proof. intros V. apply date_iso_parse; auto. apply C49_calendar, V. Qed.
Theorem C49_datetime_text t : existing_time t -> t_micro t = 0 -> t_zone t = None ->
  parse (datetime_iso t) = Ok t.
Proof. intros V. apply datetime_iso_parse; auto. apply C49_calendar, V. Qed.

(** With microseconds or a zone it is refused, rather than read as something else. *)
Theorem C49_datetime_refused t : existing_time t -> t_micro t <> 0 \/ t_zone t <> None ->
  exists e, parse (datetime_iso t) = Err e.
Proof. intros V. apply datetime_iso_refused; auto. apply C49_calendar, V. Qed.

(** Through the properties. *)
Theorem C49_round_trip (W : Type) date_method required none_ok (w : W) :
  (forall d, existing d ->
     type_safe_value _ _ (date_prop parse date_method W required) (PV (VStr (date_iso d))) none_ok w
     = (Ok (PV (VDate d)), w))
  /\ (forall t, existing_time t -> t_micro t = 0 -> t_zone t = None ->
     type_safe_value _ _ (datetime_prop parse W required) (PV (VStr (datetime_iso t))) none_ok w
     = (Ok (PV (VDatetime t)), w))
  /\ (forall t, existing_time t -> t_micro t <> 0 \/ t_zone t <> None ->
     type_safe_value _ _ (datetime_prop parse W required) (PV (VStr (datetime_iso t))) none_ok w
     = (Err CoerceErr, w)).
Proof.
  split; [|split].
  - intros d V. destruct (C49_date parse date_method required none_ok w) as (_ & _ & H).
    rewrite H, C49_date_text by auto. reflexivity.
  - intros t V U Z. destruct (C49_datetime parse required none_ok w) as (_ & _ & H & _).
    rewrite H, C49_datetime_text by auto. reflexivity.
  - intros t V U. destruct (C49_datetime parse required none_ok w) as (_ & _ & H & _).
    rewrite H. destruct (C49_datetime_refused t V U) as (e & ->). reflexivity.
Qed.

(** Finding: dates written without leading zeros can be read as other dates: the six digits left of
    2011-1-5 are taken for 20-11-15. *)
Theorem C49_short_refuted : exists y m d t,
  existing (mkDate y m d)
  /\ parse (digits4 y ++ s2l "-" ++ [48 + m] ++ s2l "-" ++ [48 + d]) = Ok t
  /\ t_date t <> mkDate y m d.
Proof.
  exists 2011, 1, 5, (midnight (mkDate 2020 11 15)). split; [apply C49_calendar; reflexivity|]. split; [reflexivity|discriminate].
Qed.

(** Finding: the Z for UTC is dropped; the result does not say which zone it is in. *)
Theorem C49_utc_refuted : exists s t,
  parse (s ++ s2l "Z") = Ok t /\ t_zone t = None /\ parse s = Ok t.
Proof.
  exists (s2l "2013-07-01T12:30"), (mkDatetime (mkDate 2013 7 1) 12 30 0 0 None).
  split; [reflexivity|]. split; reflexivity.
Qed.
End Text.

(** ** Examples *)
Section Examples.
Let nodigit (_ : N) : option N := None.
Let parse := fallback_parse nodigit.
(** object 0 has a date method giving a date, 1 one giving a datetime, 2 none *)
Let noon := mkDatetime (mkDate 2013 7 1) 12 0 0 0 None.
Let methods (n : nat) : option (res (pval tval)) :=
  match n with
  | 0%nat => Some (Ok (PV (VDate (mkDate 2013 7 1))))
  | 1%nat => Some (Ok (PV (VDatetime noon)))
  | _ => None
  end.
Let put v := fst (type_safe_value _ _ (date_prop parse methods unit false) (PV v) false tt).

Example ex_date_only :
  put (VObj 0) = Ok (PV (VDate (mkDate 2013 7 1))) /\ put (VObj 1) = Err ValueCoercionErr
  /\ put (VObj 2) = Err CoerceErr /\ put (VDatetime noon) = Ok (PV (VDate (mkDate 2013 7 1)))
  /\ put (VStr (s2l "2013-07-01")) = Ok (PV (VDate (mkDate 2013 7 1)))
  /\ put (VStr (s2l "2013-02-29")) = Err CoerceErr.
Proof. repeat split; reflexivity. Qed.
Example ex_datetime :
  fst (type_safe_value _ _ (datetime_prop parse unit true) (PV (VDate (mkDate 2000 2 29))) false tt)
  = Ok (PV (VDatetime (mkDatetime (mkDate 2000 2 29) 0 0 0 0 None))).
Proof. reflexivity. Qed.

Lemma nodigit_ascii c : c < 128 -> nodigit c = None.
Proof. reflexivity. Qed.
Example ex_calendar : valid_date (mkDate 2000 2 29) = true /\ ~ existing (mkDate 1900 2 29).
Proof. split; [reflexivity|]. rewrite <- (proj1 C49_calendar). discriminate. Qed.
(** The hypotheses of the theorems about text. *)
Example ex_exact :
  parse (s2l "2012-02-29 23:59:59Z") = Ok (mkDatetime (mkDate 2012 2 29) 23 59 59 0 None)
  /\ parse (s2l "690101") = Ok (midnight (mkDate 1969 1 1))
  /\ parse (s2l "680101") = Ok (midnight (mkDate 2068 1 1))
  /\ parse (s2l "2012-2-29 23:59") = Err UserErr /\ parse (s2l "20120229T23:61") = Err ValueErr
  /\ parse (s2l "2012-02-29 23:59:60") = Err ValueErr.
Proof. repeat split; reflexivity. Qed.
Example ex_exact_used : text_of (mkDatetime (mkDate 2012 2 29) 23 59 59 0 None) (bare (s2l "2012-02-29 23:59:59Z")).
Proof.
  refine (proj2 (proj2 (proj2 (proj1 (C49_exact nodigit nodigit_ascii (s2l "2012-02-29 23:59:59Z") _ _) _)))).
  - repeat constructor.
  - reflexivity.
Qed.
Example ex_date_text : parse (date_iso (mkDate 33 4 3)) = Ok (mkDatetime (mkDate 33 4 3) 0 0 0 0 None).
Proof. exact (C49_date_text nodigit nodigit_ascii (mkDate 33 4 3) (proj1 (proj1 C49_calendar (mkDate 33 4 3)) eq_refl)). Qed.
Example ex_datetime_text :
  let t := mkDatetime (mkDate 2038 1 19) 3 14 8 0 None in
  parse (datetime_iso t) = Ok t /\ datetime_iso t = s2l "2038-01-19T03:14:08".
Proof. split; [exact (C49_datetime_text nodigit nodigit_ascii
    (mkDatetime (mkDate 2038 1 19) 3 14 8 0 None) (proj1 (proj2 C49_calendar (mkDatetime (mkDate 2038 1 19) 3 14 8 0 None)) eq_refl) eq_refl eq_refl)|reflexivity]. Qed.
Example ex_refused :
  let t := mkDatetime (mkDate 2038 1 19) 3 14 8 0 (Some (true, 7, 30)) in
  valid_datetime t = true /\ t_zone t <> None /\ datetime_iso t = s2l "2038-01-19T03:14:08-07:30"
  /\ parse (datetime_iso t) = Err UserErr.
Proof. repeat split; try reflexivity. discriminate. Qed.
End Examples.

Print Assumptions C49_date_only.
Print Assumptions C49_date.
Print Assumptions C49_datetime.
Print Assumptions C49_calendar.
Print Assumptions C49_exact.
Print Assumptions C49_date_text.
Print Assumptions C49_datetime_text.
Print Assumptions C49_datetime_refused.
Print Assumptions C49_round_trip.
Print Assumptions C49_short_refuted.
Print Assumptions C49_utc_refuted.
