From Coq Require Import String List NArith ZArith Arith Bool Lia.
From Verif Require Import Prelude PropModel SubModel DateModel DateSpec.
Import ListNotations.
Local Open Scope list_scope.
Local Open Scope N_scope.

Ltac divmod := zify; Z.to_euclidean_division_equations; lia.

(** [injection] would unfold the additions. *)
Lemma cons_eq {A} (a b : A) l m : a :: l = b :: m -> a = b /\ l = m.
Proof. intros H. split; congruence. Qed.

(** *** Digits *)
Lemma ten k : k < 10 ->
  k = 0 \/ k = 1 \/ k = 2 \/ k = 3 \/ k = 4 \/ k = 5 \/ k = 6 \/ k = 7 \/ k = 8 \/ k = 9.
Proof. lia. Qed.

Lemma two_digits n : n < 100 -> two n = digits2 n.
Proof. intros H. unfold two, digits2, digit_char. f_equal. f_equal. divmod. Qed.
Lemma four_digits n : n < 10000 -> four n = digits4 n.
Proof.
  intros H. unfold four, digits4. rewrite !two_digits by divmod. reflexivity.
Qed.

Lemma digits4_of x y z u : x < 10 -> y < 10 -> z < 10 -> u < 10 ->
  digits4 (10 * (10 * (10 * (10 * 0 + x) + y) + z) + u) = [48 + x; 48 + y; 48 + z; 48 + u].
Proof.
  intros Hx Hy Hz Hu. set (v := 10 * (10 * (10 * (10 * 0 + x) + y) + z) + u).
  unfold digits4, digits2. cbn [app].
  assert (E1 : v / 100 / 10 = x) by (unfold v; divmod).
  assert (E2 : (v / 100) mod 10 = y) by (unfold v; divmod).
  assert (E3 : v mod 100 / 10 = z) by (unfold v; divmod).
  assert (E4 : (v mod 100) mod 10 = u) by (unfold v; divmod).
  rewrite E1, E2, E3, E4. reflexivity.
Qed.
Lemma digits4_value v : v < 10000 ->
  10 * (10 * (10 * (10 * 0 + v / 100 / 10) + (v / 100) mod 10) + v mod 100 / 10) + (v mod 100) mod 10 = v.
Proof. intros H. divmod. Qed.

Section Date.
Variable other_digit : N -> option N.
Hypothesis other_ascii : forall c, c < 128 -> other_digit c = None.

Notation digit := (digit other_digit).
Notation alts := (alts other_digit).
Notation matches := (matches other_digit).

Lemma char_cases c : c < 128 ->
  (exists k, k < 10 /\ c = 48 + k) \/
  (digit c = None /\ forall a b, b < 10 -> in_range a b c = None).
Proof.
  intros H. destruct (is_ascii_digit c) eqn:E.
  - left. unfold is_ascii_digit in E. apply andb_true_iff in E as [E1 E2].
    apply N.leb_le in E1, E2. exists (c - 48). lia.
  - right. split.
    + unfold DateModel.digit. rewrite E. auto.
    + intros a b Hb. unfold in_range. destruct (N.leb (48 + a) c && N.leb c (48 + b)) eqn:E'; auto.
      apply andb_true_iff in E' as [E1 E2]. apply N.leb_le in E1, E2.
      unfold is_ascii_digit in E. apply andb_false_iff in E as [E|E]; apply N.leb_gt in E; lia.
Qed.

(** The values a directive takes. *)
Definition bounds (d : directive) (v : N) : bool :=
  match d with
  | D_Y => v <? 10000
  | D_y => v <? 100
  | D_m => (1 <=? v) && (v <=? 12)
  | D_d => (1 <=? v) && (v <=? 31)
  | D_H => v <? 24
  | D_M => v <? 60
  | D_S => v <? 62
  | Lit _ => false
  end.

(** The value of two characters, if it is one the directive takes. *)
Definition val2 (d : directive) (a b : N) : option N :=
  match digit a, digit b with
  | Some x, Some y => if bounds d (10 * x + y) then Some (10 * x + y) else None
  | _, _ => None
  end.

Definition push (v : N) (m : list N * str) : list N * str := (v :: fst m, snd m).

Definition two_wide (d : directive) : Prop := d <> D_Y /\ forall c, d <> Lit c.

Lemma step2 d t a b r : two_wide d -> a < 128 -> b < 128 -> a <> 32 ->
  exists rest, (rest = [] \/ exists k, rest = map (push k) (matches t (b :: r)))
    /\ matches (d :: t) (a :: b :: r)
       = (match val2 d a b with Some v => map (push v) (matches t r) | None => [] end) ++ rest.
Proof.
  intros [Hw1 Hw2] Ha Hb Hs.
  assert (Hsp : (a =? 32) = false) by (apply N.eqb_neq; auto).
  assert (E : matches (d :: t) (a :: b :: r)
              = flat_map (fun x => match alt x 0 (a :: b :: r) with
                                   | Some (v, r) => map (push v) (matches t r)
                                   | None => []
                                   end) (alts d)).
  { destruct d; try reflexivity. exfalso. eapply Hw2; reflexivity. }
  rewrite E. clear E.
  destruct (char_cases a Ha) as [(x & Hx & ->)|[Na Ra]].
  - destruct (char_cases b Hb) as [(y & Hy & ->)|[Nb Rb]].
    + assert (HX := ten x Hx). assert (HY := ten y Hy). clear Ha Hb Hx Hy Hs.
      destruct d; try (exfalso; first [apply Hw1; reflexivity | eapply Hw2; reflexivity]);
      destruct HX as [->|[->|[->|[->|[->|[->|[->|[->|[->| ->]]]]]]]]];
      destruct HY as [->|[->|[->|[->|[->|[->|[->|[->|[->| ->]]]]]]]]]; cbn -[DateModel.matches];
      rewrite ?app_nil_r;
      first [ exists []; split; [left; reflexivity|rewrite ?app_nil_r; reflexivity]
            | eexists; split; [right; eexists; reflexivity|]; rewrite ?app_nil_r; reflexivity ].
    + assert (V : val2 d (48 + x) b = None).
      { unfold val2. rewrite Nb. destruct (digit (48 + x)); auto. }
      rewrite V. cbn [app].
      assert (HX := ten x Hx). clear Ha Hx Hs.
      destruct d; try (exfalso; first [apply Hw1; reflexivity | eapply Hw2; reflexivity]);
      destruct HX as [->|[->|[->|[->|[->|[->|[->|[->|[->| ->]]]]]]]]];
      cbn -[DateModel.matches in_range DateModel.digit];
      repeat match goal with |- context [in_range ?l ?u b] => rewrite (Rb l u) by lia end;
      rewrite ?Nb;
      cbn -[DateModel.matches];
      rewrite ?app_nil_r;
      first [ exists []; split; [left; reflexivity|rewrite ?app_nil_r; reflexivity]
            | eexists; split; [right; eexists; reflexivity|]; rewrite ?app_nil_r; reflexivity ].
  - exists []. split; [left; reflexivity|].
    assert (V : val2 d a b = None) by (unfold val2; rewrite Na; auto).
    rewrite V. 
    destruct d; try (exfalso; first [apply Hw1; reflexivity | eapply Hw2; reflexivity]);
      cbn -[DateModel.matches in_range DateModel.digit];
      repeat match goal with |- context [in_range ?l ?u a] => rewrite (Ra l u) by lia end;
      rewrite ?Na, ?Hsp; reflexivity.
Qed.

Lemma val2_iff d a b v : a < 128 -> b < 128 -> two_wide d ->
  (val2 d a b = Some v <-> bounds d v = true /\ [a; b] = digits2 v).
Proof.
  intros Ha Hb [Hw1 Hw2]. unfold val2, digits2.
  assert (Hbound : bounds d v = true -> v < 100).
  { destruct d; cbn [bounds]; intros H; try discriminate;
      try (apply andb_true_iff in H as [_ H]; apply N.leb_le in H; lia);
      try (apply N.ltb_lt in H; lia). exfalso. apply Hw1; reflexivity. }
  assert (D : forall k, k < 10 -> digit (48 + k) = Some k).
  { intros k Hk. unfold DateModel.digit, is_ascii_digit.
    assert (E : (48 <=? 48 + k) && (48 + k <=? 57) = true).
    { apply andb_true_iff. split; apply N.leb_le; lia. }
    rewrite E. f_equal. lia. }
  destruct (char_cases a Ha) as [(x & Hx & ->)|[Na Ra]].
  - rewrite (D x Hx). destruct (char_cases b Hb) as [(y & Hy & ->)|[Nb Rb]].
    + rewrite (D y Hy). split.
      * destruct (bounds d (10 * x + y)) eqn:B; [|discriminate]. intros H.
        assert (Ev : v = 10 * x + y) by congruence. subst v. split; auto.
        assert (E1 : (10 * x + y) / 10 = x) by divmod.
        assert (E2 : (10 * x + y) mod 10 = y) by divmod. rewrite E1, E2. reflexivity.
      * intros [B H]. assert (Hv := Hbound B). apply cons_eq in H as [H1 H]. apply cons_eq in H as [H2 _].
        assert (E : 10 * x + y = v) by divmod. rewrite E, B. reflexivity.
    + rewrite Nb. split; [discriminate|]. intros [B H]. exfalso. apply cons_eq in H as [H1 H]. apply cons_eq in H as [H2 _].
      rewrite H2 in Nb. rewrite D in Nb; [discriminate|]. divmod.
  - rewrite Na. split; [discriminate|]. intros [B H]. exfalso. assert (Hv := Hbound B).
    apply cons_eq in H as [H1 H]. rewrite H1 in Na. rewrite D in Na; [discriminate|]. divmod.
Qed.

(** *** A text as a sequence of directives *)
Definition show (d : directive) (v : N) : str :=
  match d with D_Y => digits4 v | _ => digits2 v end.

Fixpoint spelled (ds : list directive) (vs : list N) (s : str) : Prop :=
  match ds with
  | [] => vs = [] /\ s = []
  | Lit c :: t => exists x r, s = x :: r /\ (x = c \/ c = 90 /\ x = 122) /\ spelled t vs r
  | d :: t => exists v vs' r, vs = v :: vs' /\ s = show d v ++ r /\ bounds d v = true /\ spelled t vs' r
  end.

Definition width1 (d : directive) : nat := match d with D_Y => 4 | Lit _ => 1 | _ => 2 end.
Fixpoint width (ds : list directive) : nat :=
  match ds with [] => 0%nat | d :: t => (width1 d + width t)%nat end.

Lemma alt_width cs acc s v r : alt cs acc s = Some (v, r) -> length s = (length cs + length r)%nat.
Proof.
  revert acc s; induction cs as [|p t IH]; simpl; intros acc s H.
  - injection H as _ <-. reflexivity.
  - destruct s as [|c s]; [discriminate|]. destruct (p c); [|discriminate]. simpl. f_equal. eauto.
Qed.

Lemma width_bound ds s m : In m (matches ds s) -> (length s <= length (snd m) + width ds)%nat.
Proof.
  revert s m; induction ds as [|d t IH]; intros s m H.
  - simpl in H. destruct H as [<-|[]]. simpl. lia.
  - assert (Hlit : forall c, d = Lit c -> (length s <= length (snd m) + width (d :: t))%nat).
    { intros c ->. simpl in H. destruct s as [|x r]; [destruct H|].
      destruct ((x =? c) || ((c =? 90) && (x =? 122))); [|destruct H]. apply IH in H. simpl. lia. }
    assert (Hother : (forall c, d <> Lit c) -> (length s <= length (snd m) + width (d :: t))%nat).
    { intros Hd.
      assert (H' : In m (flat_map (fun a => match alt a 0 s with
                         | Some (v, r) => map (fun m => (v :: fst m, snd m)) (matches t r)
                         | None => []
                         end) (alts d))).
      { destruct d; try exact H. exfalso. eapply Hd; reflexivity. }
      apply in_flat_map in H' as (a & Ha & H'). destruct (alt a 0 s) as [[v r]|] eqn:E; [|destruct H'].
      apply in_map_iff in H' as (m' & <- & Hm). apply IH in Hm. apply alt_width in E. simpl.
      assert (Hw : (length a <= width1 d)%nat).
      { clear - Ha. destruct d; simpl in Ha; intuition (subst; simpl; lia). }
      simpl in Hm. lia. }
    destruct d as [| | | | | | |c]; try (apply Hother; intros c0; discriminate). apply (Hlit c); auto.
Qed.

Lemma first_spelled ds s vs : Forall (fun c => c < 128 /\ c <> 32) s -> length s = width ds ->
  ((exists rest, matches ds s = (vs, []) :: rest) <-> spelled ds vs s).
Proof.
  revert s vs; induction ds as [|d t IH]; intros s vs Hs Hl.
  - destruct s; [|discriminate]. cbn. split.
    + intros (rest & H). injection H as <- <-. auto.
    + intros [-> _]. exists []. reflexivity.
  - assert (Hd : d = D_Y \/ (exists c, d = Lit c) \/ two_wide d).
    { destruct d; try (right; right; split; [discriminate|intros c; discriminate]); eauto. }
    destruct Hd as [->|[(c & ->)|Hd]].
    + (* %Y *)
      cbn [width width1] in Hl.
      destruct s as [|a [|b [|c [|e r]]]]; cbn [length] in Hl; try lia.
      inversion Hs as [|? ? [Ha _] Hs1]; subst. inversion Hs1 as [|? ? [Hb _] Hs2]; subst.
      inversion Hs2 as [|? ? [Hc _] Hs3]; subst. inversion Hs3 as [|? ? [He _] Hs4]; subst.
      assert (Hr : length r = width t) by lia. specialize (IH r).
      assert (D : forall k, k < 10 -> digit (48 + k) = Some k).
      { intros k Hk. unfold DateModel.digit, is_ascii_digit.
        assert (E : (48 <=? 48 + k) && (48 + k <=? 57) = true).
        { apply andb_true_iff. split; apply N.leb_le; lia. }
        rewrite E. f_equal. lia. }
      assert (Dn : forall c k, c < 128 -> digit c = Some k -> c = 48 + k /\ k < 10).
      { intros z k Hz Hk. destruct (char_cases z Hz) as [(x & Hx & ->)|[N1 _]]; [|congruence].
        rewrite D in Hk by auto. injection Hk as <-. auto. }
      assert (E : matches (D_Y :: t) (a :: b :: c :: e :: r)
                  = match digit a, digit b, digit c, digit e with
                    | Some x, Some y, Some z, Some u =>
                        map (push (10 * (10 * (10 * (10 * 0 + x) + y) + z) + u)) (matches t r)
                    | _, _, _, _ => []
                    end).
      { cbn -[DateModel.matches DateModel.digit N.mul N.add]. cbn [DateModel.matches alts flat_map].
        rewrite app_nil_r. cbn [alt].
        destruct (digit a); [|reflexivity]. destruct (digit b); [|reflexivity].
        destruct (digit c); [|reflexivity]. destruct (digit e); reflexivity. }
      rewrite E. cbn [spelled]. split.
      * intros (rest & H).
        destruct (digit a) as [x|] eqn:A1; [|discriminate]. destruct (digit b) as [y|] eqn:A2; [|discriminate].
        destruct (digit c) as [z|] eqn:A3; [|discriminate]. destruct (digit e) as [u|] eqn:A4; [|discriminate].
        apply Dn in A1 as [-> X1]; auto. apply Dn in A2 as [-> X2]; auto.
        apply Dn in A3 as [-> X3]; auto. apply Dn in A4 as [-> X4]; auto.
        destruct (matches t r) as [|[vs' q] l] eqn:M; [discriminate|].
        remember (10 * (10 * (10 * (10 * 0 + x) + y) + z) + u) as V eqn:EV.
        cbn [map push fst snd] in H. injection H as <- -> _.
        exists V, vs', r. split; [reflexivity|]. split; [|split].
        -- cbn [show]. rewrite EV, digits4_of by auto. reflexivity.
        -- cbn [bounds]. apply N.ltb_lt. lia.
        -- apply IH; auto. eauto.
      * intros (v & vs' & r' & -> & H & B & Sp). cbn [bounds] in B. apply N.ltb_lt in B.
        unfold show, digits4, digits2 in H. cbn [app] in H.
        apply cons_eq in H as [-> H]. apply cons_eq in H as [-> H]. apply cons_eq in H as [-> H].
        apply cons_eq in H as [-> <-].
        rewrite !D by divmod. apply IH in Sp as (rest & M); auto. rewrite M.
        cbn [map]. unfold push at 1. cbn [fst snd]. rewrite digits4_value by auto. eauto.
    + (* literal *)
      cbn [width width1] in Hl. destruct s as [|x r]; cbn [length] in Hl; [lia|].
      inversion Hs as [|? ? _ Hs1]; subst. cbn [DateModel.matches spelled].
      destruct ((x =? c) || ((c =? 90) && (x =? 122))) eqn:E.
      * assert (Hx : x = c \/ c = 90 /\ x = 122).
        { apply orb_true_iff in E as [E|E]; [left; now apply N.eqb_eq|right].
          apply andb_true_iff in E as [E1 E2]. apply N.eqb_eq in E1, E2. auto. }
        rewrite IH by (auto; lia). split.
        -- intros H. eauto.
        -- intros (x' & r' & E' & _ & H). injection E' as <- <-. auto.
      * split; [intros (rest & H); discriminate|].
        intros (x' & r' & E' & Hx & _). injection E' as <- <-. exfalso.
        apply orb_false_iff in E as [E1 E2]. apply N.eqb_neq in E1.
        destruct Hx as [Hx|[H1 H2]]; [auto|]. subst. discriminate.
    + (* two characters *)
      assert (Hw : width (d :: t) = (2 + width t)%nat).
      { destruct Hd as [H1 H2]. destruct d; try reflexivity; exfalso; [apply H1; reflexivity|eapply H2; reflexivity]. }
      rewrite Hw in Hl. destruct s as [|a [|b r]]; cbn [length] in Hl; try lia.
      inversion Hs as [|? ? [Ha Sa] Hs1]; subst. inversion Hs1 as [|? ? [Hb Sb] Hs2]; subst.
      assert (Hr : length r = width t) by lia. specialize (IH r).
      destruct (step2 d t a b r Hd Ha Hb Sa) as (rest & Hrest & E). rewrite E.
      assert (Hlong : forall vs0 l, rest <> (vs0, []) :: l).
      { intros vs0 l H. destruct Hrest as [->|(k & ->)]; [discriminate|].
        assert (Hi : In (vs0, []) (map (push k) (matches t (b :: r)))) by (rewrite H; left; auto).
        apply in_map_iff in Hi as (m & Em & Hm). apply width_bound in Hm.
        injection Em as _ Em. rewrite Em in Hm. simpl in Hm. lia. }
      assert (Sp : spelled (d :: t) vs (a :: b :: r)
                   <-> exists v vs', vs = v :: vs' /\ val2 d a b = Some v /\ spelled t vs' r).
      { assert (Hdef : spelled (d :: t) vs (a :: b :: r) <->
                  exists v vs' r', vs = v :: vs' /\ a :: b :: r = digits2 v ++ r'
                     /\ bounds d v = true /\ spelled t vs' r').
        { destruct Hd as [H1 H2]. destruct d; try reflexivity; exfalso;
            [apply H1; reflexivity|eapply H2; reflexivity]. }
        rewrite Hdef. split.
        - intros (v & vs' & r' & -> & H & B & S). exists v, vs'. split; auto.
          unfold digits2 in H. cbn [app] in H.
          apply cons_eq in H as [H1 H]. apply cons_eq in H as [H2 <-].
          split; auto. apply val2_iff; auto. split; auto. unfold digits2. congruence.
        - intros (v & vs' & -> & V & S). apply val2_iff in V as [B H]; auto.
          exists v, vs', r. repeat split; auto. rewrite <- H. reflexivity. }
      rewrite Sp. clear Sp. destruct (val2 d a b) as [v|] eqn:V.
      * split.
        -- intros (l & H). exists v.
           destruct (matches t r) as [|[vs' q] l'] eqn:M.
           ++ cbn [map app] in H. exfalso. eapply Hlong; eauto.
           ++ cbn [map push fst snd app] in H. injection H as <- -> _.
              exists vs'. repeat split; auto. apply IH; eauto.
        -- intros (v' & vs' & -> & Ev & S). injection Ev as <-.
           apply IH in S as (l & M); auto. rewrite M. cbn [map push fst snd app]. eauto.
      * split.
        -- intros (l & H). exfalso. cbn [app] in H. eapply Hlong; eauto.
        -- intros (v' & vs' & _ & Ev & _). discriminate.
Qed.

(** *** The parser *)
Lemma strip_bare s : strip s = bare s.
Proof. unfold strip, bare. apply filter_ext. intros c. simpl. rewrite !orb_false_r, orb_assoc. reflexivity. Qed.

Lemma bare_chars s : ascii s -> Forall (fun c => c < 128 /\ c <> 32) (bare s).
Proof.
  intros H. apply Forall_forall. intros c Hc. apply filter_In in Hc as [Hi Hc].
  unfold ascii in H. rewrite Forall_forall in H. split; auto. intros ->. discriminate.
Qed.

Lemma strptime_iff ds s t : Forall (fun c => c < 128 /\ c <> 32) s -> length s = width ds ->
  (strptime other_digit ds s = Ok t
   <-> exists vs, spelled ds vs s /\ t = assign ds vs (midnight (mkDate 1900 1 1))
                  /\ valid_datetime t = true).
Proof.
  intros Hs Hl. unfold strptime. split.
  - destruct (matches ds s) as [|[vs [|c q]] rest] eqn:M; try discriminate.
    destruct (valid_datetime (assign ds vs (midnight (mkDate 1900 1 1)))) eqn:V; [|discriminate].
    intros H; injection H as <-. exists vs. repeat split; auto. apply first_spelled; eauto.
  - intros (vs & Sp & -> & V). apply first_spelled in Sp as (rest & M); auto. rewrite M, V. reflexivity.
Qed.

Lemma format_width n f : formats n = Some f -> n = width f.
Proof.
  intros H.
  do 18 (destruct n as [|n]; [first [discriminate H | injection H as <-; reflexivity]|]).
  discriminate H.
Qed.

Lemma parse_iff s t : ascii s ->
  (fallback_parse other_digit s = Ok t
   <-> exists f vs, formats (length (bare s)) = Some f /\ spelled f vs (bare s)
         /\ t = assign f vs (midnight (mkDate 1900 1 1)) /\ valid_datetime t = true).
Proof.
  intros Ha. unfold fallback_parse. rewrite strip_bare. pose proof (bare_chars s Ha) as Hs.
  destruct (formats (length (bare s))) as [f|] eqn:F.
  - pose proof (format_width _ _ F) as Hw. rewrite strptime_iff by auto. split.
    + intros (vs & H). exists f, vs. tauto.
    + intros (f' & vs & E & H). injection E as <-. eauto.
  - split; [discriminate|]. intros (f & vs & H & _). discriminate.
Qed.

Lemma valid_bounds t : valid_datetime t = true ->
  d_year (t_date t) < 10000 /\ 1 <= d_year (t_date t)
  /\ 1 <= d_month (t_date t) <= 12 /\ 1 <= d_day (t_date t) <= 31
  /\ t_hour t < 24 /\ t_minute t < 60 /\ t_second t < 60.
Proof.
  unfold valid_datetime, valid_date. intros H. repeat (apply andb_true_iff in H as [H ?]).
  repeat match goal with
         | H : (_ <=? _) = true |- _ => apply N.leb_le in H
         | H : (_ <? _) = true |- _ => apply N.ltb_lt in H
         end.
  assert (Hd : days_in (d_year (t_date t)) (d_month (t_date t)) <= 31).
  { unfold days_in. destruct (d_month (t_date t)) as [|p]; [lia|].
    repeat (destruct p as [p|p|]; try lia); destruct (leap (d_year (t_date t))); lia. }
  repeat split; lia.
Qed.

(** A datetime with neither microseconds nor zone is its fields. *)
Lemma bounds_true d v :
  match d with
  | D_Y => v < 10000 | D_y => v < 100 | D_m => 1 <= v <= 12 | D_d => 1 <= v <= 31
  | D_H => v < 24 | D_M => v < 60 | D_S => v < 62 | Lit _ => False
  end -> bounds d v = true.
Proof.
  destruct d; cbn [bounds]; intros H; try (apply N.ltb_lt; lia); try tauto;
    apply andb_true_iff; split; apply N.leb_le; lia.
Qed.

Lemma century y : 1969 <= y <= 2068 ->
  (if y mod 100 <=? 68 then 2000 + y mod 100 else 1900 + y mod 100) = y.
Proof.
  intros H. destruct (y mod 100 <=? 68) eqn:L; [apply N.leb_le in L|apply N.leb_gt in L]; divmod.
Qed.
Lemma assign_short v m d :
  assign [D_y; D_m; D_d] [v; m; d] (midnight (mkDate 1900 1 1))
  = midnight (mkDate (if v <=? 68 then 2000 + v else 1900 + v) m d).
Proof. reflexivity. Qed.
Lemma short_year v : v < 100 ->
  let y := if v <=? 68 then 2000 + v else 1900 + v in 1969 <= y <= 2068 /\ y mod 100 = v.
Proof.
  intros H. cbv zeta. destruct (v <=? 68) eqn:L; [apply N.leb_le in L|apply N.leb_gt in L];
    split; try lia; divmod.
Qed.

Lemma text_of_parse s t : ascii s -> valid_datetime t = true ->
  t_micro t = 0 -> t_zone t = None -> text_of t (bare s) -> fallback_parse other_digit s = Ok t.
Proof.
  intros Ha V Hu Hz T. apply parse_iff; auto.
  destruct (valid_bounds t V) as (B1 & B1' & B2 & B3 & B4 & B5 & B6).
  destruct t as [[y m d] h mi se us z]. cbn in *. subst us z.
  inversion T as [E R|E|E|zc E Z|E|zc Z]; subst; clear T; cbn in *.
  - injection E as -> -> ->. exists [D_y; D_m; D_d], [y mod 100; m; d].
    repeat split; auto.
    + cbn [spelled]. exists (y mod 100), [m; d], (digits2 m ++ digits2 d). repeat split; auto.
      { apply bounds_true. divmod. }
      exists m, [d], (digits2 d). repeat split; auto. { apply bounds_true; auto. }
      exists d, [], []. repeat split; auto. apply bounds_true; auto.
    + rewrite assign_short, century by auto. reflexivity.
  - injection E as -> -> ->. exists [D_Y; D_m; D_d], [y; m; d].
    repeat split; auto.
    cbn [spelled]. exists y, [m; d], (digits2 m ++ digits2 d). repeat split; auto.
    { apply bounds_true; auto. }
    exists m, [d], (digits2 d). repeat split; auto. { apply bounds_true; auto. }
    exists d, [], []. repeat split; auto. apply bounds_true; auto.
  - subst se. exists [D_Y; D_m; D_d; D_H; colon; D_M], [y; m; d; h; mi]. repeat split; auto.
    cbn [spelled colon].
    exists y, [m; d; h; mi], (digits2 m ++ digits2 d ++ digits2 h ++ [58] ++ digits2 mi).
    repeat split; auto. { apply bounds_true; auto. }
    exists m, [d; h; mi], (digits2 d ++ digits2 h ++ [58] ++ digits2 mi). repeat split; auto.
    { apply bounds_true; auto. }
    exists d, [h; mi], (digits2 h ++ [58] ++ digits2 mi). repeat split; auto. { apply bounds_true; auto. }
    exists h, [mi], ([58] ++ digits2 mi). repeat split; auto. { apply bounds_true; auto. }
    exists 58, (digits2 mi). repeat split; auto.
    exists mi, [], []. repeat split; auto. apply bounds_true; auto.
  - subst se. exists [D_Y; D_m; D_d; D_H; colon; D_M; zulu], [y; m; d; h; mi]. repeat split; auto.
    cbn [spelled colon zulu].
    exists y, [m; d; h; mi], (digits2 m ++ digits2 d ++ digits2 h ++ [58] ++ digits2 mi ++ [zc]).
    repeat split; auto. { apply bounds_true; auto. }
    exists m, [d; h; mi], (digits2 d ++ digits2 h ++ [58] ++ digits2 mi ++ [zc]). repeat split; auto.
    { apply bounds_true; auto. }
    exists d, [h; mi], (digits2 h ++ [58] ++ digits2 mi ++ [zc]). repeat split; auto.
    { apply bounds_true; auto. }
    exists h, [mi], ([58] ++ digits2 mi ++ [zc]). repeat split; auto. { apply bounds_true; auto. }
    exists 58, (digits2 mi ++ [zc]). repeat split; auto.
    exists mi, [], [zc]. repeat split; auto. { apply bounds_true; auto. }
    exists zc, []. repeat split; auto. tauto.
  - exists [D_Y; D_m; D_d; D_H; colon; D_M; colon; D_S], [y; m; d; h; mi; se]. repeat split; auto.
    cbn [spelled colon].
    exists y, [m; d; h; mi; se],
      (digits2 m ++ digits2 d ++ digits2 h ++ [58] ++ digits2 mi ++ [58] ++ digits2 se).
    repeat split; auto. { apply bounds_true; auto. }
    exists m, [d; h; mi; se], (digits2 d ++ digits2 h ++ [58] ++ digits2 mi ++ [58] ++ digits2 se).
    repeat split; auto. { apply bounds_true; auto. }
    exists d, [h; mi; se], (digits2 h ++ [58] ++ digits2 mi ++ [58] ++ digits2 se). repeat split; auto.
    { apply bounds_true; auto. }
    exists h, [mi; se], ([58] ++ digits2 mi ++ [58] ++ digits2 se). repeat split; auto.
    { apply bounds_true; auto. }
    exists 58, (digits2 mi ++ [58] ++ digits2 se). repeat split; auto.
    exists mi, [se], ([58] ++ digits2 se). repeat split; auto. { apply bounds_true; auto. }
    exists 58, (digits2 se). repeat split; auto.
    exists se, [], []. repeat split; auto. apply bounds_true; lia.
  - exists [D_Y; D_m; D_d; D_H; colon; D_M; colon; D_S; zulu], [y; m; d; h; mi; se]. repeat split; auto.
    cbn [spelled colon zulu].
    exists y, [m; d; h; mi; se],
      (digits2 m ++ digits2 d ++ digits2 h ++ [58] ++ digits2 mi ++ [58] ++ digits2 se ++ [zc]).
    repeat split; auto. { apply bounds_true; auto. }
    exists m, [d; h; mi; se], (digits2 d ++ digits2 h ++ [58] ++ digits2 mi ++ [58] ++ digits2 se ++ [zc]).
    repeat split; auto. { apply bounds_true; auto. }
    exists d, [h; mi; se], (digits2 h ++ [58] ++ digits2 mi ++ [58] ++ digits2 se ++ [zc]).
    repeat split; auto. { apply bounds_true; auto. }
    exists h, [mi; se], ([58] ++ digits2 mi ++ [58] ++ digits2 se ++ [zc]). repeat split; auto.
    { apply bounds_true; auto. }
    exists 58, (digits2 mi ++ [58] ++ digits2 se ++ [zc]). repeat split; auto.
    exists mi, [se], ([58] ++ digits2 se ++ [zc]). repeat split; auto. { apply bounds_true; auto. }
    exists 58, (digits2 se ++ [zc]). repeat split; auto.
    exists se, [], [zc]. repeat split; auto. { apply bounds_true; lia. }
    exists zc, []. repeat split; auto. tauto.
Qed.

Ltac unspell Sp :=
  repeat match type of Sp with
         | _ /\ _ => let E := fresh "Ev" in let F := fresh "Er" in destruct Sp as [E F]
         | exists v vs r, _ =>
             let E := fresh "Ev" in let F := fresh "Er" in let B := fresh "Bd" in
             destruct Sp as (? & ? & ? & E & F & B & Sp)
         | exists c r, _ =>
             let F := fresh "Er" in let B := fresh "Bd" in
             destruct Sp as (? & ? & F & B & Sp)
         end.

Lemma parse_text_of s t : ascii s -> fallback_parse other_digit s = Ok t ->
  valid_datetime t = true /\ t_micro t = 0 /\ t_zone t = None /\ text_of t (bare s).
Proof.
  intros Ha H. apply parse_iff in H as (f & vs & F & Sp & Et & V); auto. split; auto.
  assert (Hf : f = [D_y; D_m; D_d] \/ f = [D_Y; D_m; D_d]
     \/ f = [D_Y; D_m; D_d; D_H; colon; D_M] \/ f = [D_Y; D_m; D_d; D_H; colon; D_M; zulu]
     \/ f = [D_Y; D_m; D_d; D_H; colon; D_M; colon; D_S]
     \/ f = [D_Y; D_m; D_d; D_H; colon; D_M; colon; D_S; zulu]).
  { clear - F. remember (length (bare s)) as n. clear Heqn.
    do 18 (destruct n as [|n]; [first [discriminate F | injection F as <-; tauto]|]). discriminate F. }
  destruct Hf as [->|[->|[->|[->|[->| ->]]]]]; cbn [spelled colon zulu] in Sp; unspell Sp; subst.
  - rewrite assign_short in *. cbn [bounds] in Bd. apply N.ltb_lt in Bd.
    destruct (short_year _ Bd) as [R M]. remember (if x <=? 68 then 2000 + x else 1900 + x) as y.
    split; [reflexivity|]. split; [reflexivity|]. rewrite Er, ?app_nil_r.
    rewrite <- M. apply (T_short (midnight (mkDate y x2 x5))); [reflexivity|exact R].
  - split; [reflexivity|]. split; [reflexivity|]. rewrite Er, ?app_nil_r.
    apply (T_day (midnight (mkDate x x2 x5))). reflexivity.
  - assert (x11 = 58) as -> by (destruct Bd3 as [?|[? ?]]; [auto|discriminate]).
    split; [reflexivity|]. split; [reflexivity|].
    set (t := mkDatetime (mkDate x x2 x5) x8 x13 0 0 None).
    assert (E : bare s = hm_text t) by (rewrite Er; reflexivity). rewrite E.
    apply (T_hm t). reflexivity.
  - assert (x11 = 58) as -> by (destruct Bd3 as [?|[? ?]]; [auto|discriminate]).
    split; [reflexivity|]. split; [reflexivity|].
    set (t := mkDatetime (mkDate x x2 x5) x8 x13 0 0 None).
    assert (E : bare s = hm_text t ++ [x16]) by (rewrite Er; reflexivity). rewrite E.
    apply (T_hmz t); [reflexivity|]. destruct Bd5 as [?|[? ?]]; auto.
  - assert (x11 = 58) as -> by (destruct Bd3 as [?|[? ?]]; [auto|discriminate]).
    assert (x16 = 58) as -> by (destruct Bd5 as [?|[? ?]]; [auto|discriminate]).
    split; [reflexivity|]. split; [reflexivity|].
    set (t := mkDatetime (mkDate x x2 x5) x8 x13 x18 0 None).
    assert (E : bare s = hms_text t) by (rewrite Er; reflexivity). rewrite E.
    apply (T_hms t).
  - assert (x11 = 58) as -> by (destruct Bd3 as [?|[? ?]]; [auto|discriminate]).
    assert (x16 = 58) as -> by (destruct Bd5 as [?|[? ?]]; [auto|discriminate]).
    split; [reflexivity|]. split; [reflexivity|].
    set (t := mkDatetime (mkDate x x2 x5) x8 x13 x18 0 None).
    assert (E : bare s = hms_text t ++ [x21]) by (rewrite Er; reflexivity). rewrite E.
    apply (T_hmsz t). destruct Bd7 as [?|[? ?]]; auto.
Qed.

(** *** What [isoformat] writes *)
Lemma digits_ascii2 n : n < 100 -> Forall (fun c => 48 <= c <= 57) (digits2 n).
Proof. intros H. repeat constructor; divmod. Qed.
Lemma digits_ascii4 n : n < 10000 -> Forall (fun c => 48 <= c <= 57) (digits4 n).
Proof. intros H. apply Forall_app. split; apply digits_ascii2; divmod. Qed.
Lemma bare_digits s : Forall (fun c => 48 <= c <= 58) s -> bare s = s.
Proof.
  induction 1 as [|c l Hc Hl IH]; [reflexivity|].
  change (bare (c :: l)) with (if negb (existsb (N.eqb c) [45; 84; 32]) then c :: bare l else bare l).
  assert (E1 : (c =? 45) = false) by (apply N.eqb_neq; lia).
  assert (E2 : (c =? 84) = false) by (apply N.eqb_neq; lia).
  assert (E3 : (c =? 32) = false) by (apply N.eqb_neq; lia).
  cbn [existsb]. rewrite E1, E2, E3. cbn [orb negb]. now rewrite IH.
Qed.
Lemma bare_app s s' : bare (s ++ s') = bare s ++ bare s'.
Proof. unfold bare. apply filter_app. Qed.
Lemma digits_wide s : Forall (fun c => 48 <= c <= 57) s -> Forall (fun c => 48 <= c <= 58) s.
Proof. intros H. eapply Forall_impl; [|exact H]. cbv beta. lia. Qed.
Lemma digits_are_ascii s : Forall (fun c => 48 <= c <= 57) s -> ascii s.
Proof. intros H. unfold ascii. eapply Forall_impl; [|exact H]. cbv beta. lia. Qed.
Lemma bare2 n : n < 100 -> bare (two n) = digits2 n.
Proof. intros H. rewrite two_digits by auto. apply bare_digits, digits_wide, digits_ascii2; auto. Qed.
Lemma bare4 n : n < 10000 -> bare (four n) = digits4 n.
Proof. intros H. rewrite four_digits by auto. apply bare_digits, digits_wide, digits_ascii4; auto. Qed.
Lemma ascii_app s s' : ascii s -> ascii s' -> ascii (s ++ s').
Proof. intros H1 H2. apply Forall_app; auto. Qed.
Lemma ascii2 n : n < 100 -> ascii (two n).
Proof. intros H. rewrite two_digits by auto. apply digits_are_ascii, digits_ascii2; auto. Qed.
Lemma ascii4 n : n < 10000 -> ascii (four n).
Proof. intros H. rewrite four_digits by auto. apply digits_are_ascii, digits_ascii4; auto. Qed.
Lemma ascii_char c : c < 128 -> ascii [c].
Proof. intros H. repeat constructor. auto. Qed.

Lemma date_iso_facts d : valid_date d = true ->
  ascii (date_iso d) /\ bare (date_iso d) = day_text d.
Proof.
  intros V. assert (V' : valid_datetime (midnight d) = true).
  { unfold valid_datetime. cbn. rewrite V. reflexivity. }
  destruct (valid_bounds _ V') as (B1 & B1' & B2 & B3 & _). cbn [midnight t_date] in *.
  unfold date_iso. change (s2l "-") with [45]. split.
  - pose proof (ascii4 _ B1). repeat (apply ascii_app; auto); try (apply ascii_char; lia); try (apply ascii2; lia).
  - rewrite !bare_app, !bare2, bare4 by lia. reflexivity.
Qed.
Lemma date_iso_parse d : valid_date d = true ->
  fallback_parse other_digit (date_iso d) = Ok (mkDatetime d 0 0 0 0 None).
Proof.
  intros V. destruct (date_iso_facts d V) as [A B]. apply text_of_parse; auto.
  - unfold valid_datetime. cbn. rewrite V. reflexivity.
  - rewrite B. apply (T_day (midnight d)). reflexivity.
Qed.

Lemma valid_of_datetime t : valid_datetime t = true -> valid_date (t_date t) = true.
Proof. unfold valid_datetime. intros H. do 5 (apply andb_true_iff in H as [H _]). exact H. Qed.

Lemma datetime_iso_parse t : valid_datetime t = true -> t_micro t = 0 -> t_zone t = None ->
  fallback_parse other_digit (datetime_iso t) = Ok t.
Proof.
  intros V U Z. destruct (date_iso_facts _ (valid_of_datetime t V)) as [A B].
  destruct (valid_bounds _ V) as (_ & _ & _ & _ & B4 & B5 & B6).
  assert (E : datetime_iso t = date_iso (t_date t) ++ [84] ++ two (t_hour t) ++ [58] ++ two (t_minute t)
                               ++ [58] ++ two (t_second t)).
  { unfold datetime_iso. rewrite U, Z. cbn [N.eqb]. rewrite !app_nil_r. reflexivity. }
  rewrite E. apply text_of_parse; auto.
  - repeat (apply ascii_app; auto); try (apply ascii_char; lia); try (apply ascii2; lia).
  - rewrite !bare_app, B, !bare2 by lia. change (bare [84]) with (@nil N). change (bare [58]) with [58].
    assert (X : day_text (t_date t) ++ [] ++ digits2 (t_hour t) ++ [58] ++ digits2 (t_minute t)
                ++ [58] ++ digits2 (t_second t) = hms_text t).
    { unfold hms_text, hm_text. rewrite <- !app_assoc. reflexivity. }
    rewrite X. apply T_hms.
Qed.

Lemma datetime_iso_refused t : valid_datetime t = true -> t_micro t <> 0 \/ t_zone t <> None ->
  exists e, fallback_parse other_digit (datetime_iso t) = Err e.
Proof.
  intros V H. destruct (date_iso_facts _ (valid_of_datetime t V)) as [_ B].
  destruct (valid_bounds _ V) as (_ & _ & _ & _ & B4 & B5 & B6).
  assert (Vz : t_micro t < 1000000 /\ forall b h m, t_zone t = Some (b, h, m) -> h < 24 /\ m < 60).
  { unfold valid_datetime in V. apply andb_true_iff in V as [V V2]. apply andb_true_iff in V as [_ V1].
    apply N.ltb_lt in V1. split; auto. intros b h m E. rewrite E in V2.
    apply andb_true_iff in V2 as [X Y]. apply N.ltb_lt in X, Y. auto. }
  destruct Vz as [Vu Vz].
  assert (L : formats (length (strip (datetime_iso t))) = None).
  { rewrite strip_bare. unfold datetime_iso.
    rewrite !bare_app, B, !bare2 by lia. rewrite !app_length.
    change (bare (s2l "T")) with (@nil N). change (bare (s2l ":")) with [58].
    change (length (day_text (t_date t))) with 8%nat.
    assert (L2 : forall n, length (digits2 n) = 2%nat) by reflexivity. rewrite !L2.
    assert (Lm : length (bare (if t_micro t =? 0 then [] else s2l "." ++ six (t_micro t)))
                 = if t_micro t =? 0 then 0%nat else 7%nat).
    { destruct (t_micro t =? 0); [reflexivity|]. unfold six.
      rewrite !bare_app, bare2, bare4 by divmod. reflexivity. }
    rewrite Lm. destruct (t_zone t) as [[[b h] m]|] eqn:Z.
    - destruct (Vz _ _ _ eq_refl). rewrite !bare_app, !bare2 by lia. rewrite !app_length, !L2.
      destruct b, (t_micro t =? 0); reflexivity.
    - destruct (t_micro t =? 0) eqn:U; [|reflexivity]. apply N.eqb_eq in U. destruct H; congruence. }
  unfold fallback_parse. rewrite L. eauto.
Qed.
End Date.
