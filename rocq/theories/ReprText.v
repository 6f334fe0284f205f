(** C50, text: literals and names are read back. *)
From Coq Require Import String List NArith ZArith Arith Bool Lia.
From Verif Require Import Prelude SelPathModel SelPathProofs GenModel AutoModel JsonModel JsonSpec
  ReprModel ReprSpec.
Import ListNotations.
Local Open Scope list_scope.
Local Open Scope N_scope.

(** *** Hexadecimal *)
Lemma unhex_char n : n < 16 -> unhex (hex_char n) = Some n.
Proof.
  intros H. assert (E : n = 0 \/ n = 1 \/ n = 2 \/ n = 3 \/ n = 4 \/ n = 5 \/ n = 6 \/ n = 7 \/ n = 8 \/ n = 9
    \/ n = 10 \/ n = 11 \/ n = 12 \/ n = 13 \/ n = 14 \/ n = 15) by lia.
  repeat (destruct E as [->|E]; [reflexivity|]). subst. reflexivity.
Qed.
Lemma read_hex_app j k acc s r : length s = j ->
  read_hex (j + k) acc (s ++ r) =
  match read_hex j acc s with Some (a, _) => read_hex k a r | None => None end.
Proof.
  revert acc s. induction j as [|j IH]; intros acc [|c s] H; try discriminate; [reflexivity|].
  cbn [plus app read_hex]. destruct (unhex c); [|reflexivity]. apply IH. injection H as H. exact H.
Qed.
Lemma hex_length k n : length (hex k n) = k.
Proof. revert n; induction k as [|k IH]; intros n; [reflexivity|]. cbn [hex]. rewrite app_length, IH. cbn. lia. Qed.
Lemma read_hex_ok k : forall n acc r, n < 16 ^ N.of_nat k ->
  read_hex k acc (hex k n ++ r) = Some (acc * 16 ^ N.of_nat k + n, r).
Proof.
  induction k as [|k IH]; intros n acc r H.
  - cbn in *. f_equal. f_equal. lia.
  - rewrite Nat2N.inj_succ, N.pow_succ_r' in *. cbn [hex]. rewrite <- app_assoc.
    replace (S k) with (k + 1)%nat by lia.
    assert (Hd : n / 16 < 16 ^ N.of_nat k) by (apply N.div_lt_upper_bound; lia).
    rewrite read_hex_app by apply hex_length.
    specialize (IH (n / 16) acc [] Hd). rewrite app_nil_r in IH. rewrite IH.
    cbn [app read_hex]. rewrite unhex_char by (apply N.mod_lt; lia).
    f_equal. f_equal. pose proof (N.div_mod n 16). lia.
Qed.

(** *** String literals *)
Section Text.
Variable printable : N -> bool.

Lemma esc_char_read q c r fuel : (q = 39 \/ q = 34) -> c < 1114112 ->
  read_lit (S fuel) q (esc_char printable q c ++ r) =
  match read_lit fuel q r with Some (t, r') => Some (c :: t, r') | None => None end.
Proof.
  intros Hq Hc.
  assert (Bs : forall e x r', read_esc e = Some (x, r') ->
    read_lit (S fuel) q (92 :: e) = match read_lit fuel q r' with Some (t, r'') => Some (x :: t, r'') | None => None end).
  { intros e x r' E. cbn [read_lit].
    replace (92 =? q) with false by (symmetry; apply N.eqb_neq; destruct Hq; lia). cbn. rewrite E. reflexivity. }
  assert (Pl : c <> q -> c <> 10 -> c <> 13 -> c <> 92 ->
    read_lit (S fuel) q (c :: r) = match read_lit fuel q r with Some (t, r'') => Some (c :: t, r'') | None => None end).
  { intros N1 N2 N3 N4. cbn [read_lit]. apply N.eqb_neq in N1, N2, N3, N4. rewrite N1, N2, N3, N4. reflexivity. }
  unfold esc_char.
  destruct ((c =? q) || (c =? 92)) eqn:E1.
  { apply (Bs (c :: r) c r). unfold read_esc.
    assert (F : (c =? 92) || (c =? 39) || (c =? 34) = true).
    { apply orb_true_iff in E1 as [E1|E1]; apply N.eqb_eq in E1; subst; [destruct Hq; subst|]; reflexivity. }
    rewrite F. reflexivity. }
  apply orb_false_iff in E1 as [E1 E2]. apply N.eqb_neq in E1, E2.
  destruct (c =? 9) eqn:E3. { apply N.eqb_eq in E3 as ->. apply (Bs (116 :: r)). reflexivity. }
  destruct (c =? 10) eqn:E4. { apply N.eqb_eq in E4 as ->. apply (Bs (110 :: r)). reflexivity. }
  destruct (c =? 13) eqn:E5. { apply N.eqb_eq in E5 as ->. apply (Bs (114 :: r)). reflexivity. }
  apply N.eqb_neq in E3, E4, E5.
  assert (X : forall k, c < 256 -> k = [92; 120] ++ hex 2 c ->
     read_lit (S fuel) q (k ++ r) = match read_lit fuel q r with Some (t, r'') => Some (c :: t, r'') | None => None end).
  { intros k H ->. apply (Bs (120 :: hex 2 c ++ r) c r).
    change (read_hex 2 0 (hex 2 c ++ r) = Some (c, r)). rewrite read_hex_ok by exact H. f_equal. }
  destruct ((c <? 32) || (c =? 127)) eqn:E6.
  { apply X; auto. apply orb_true_iff in E6 as [E6|E6]; [apply N.ltb_lt in E6|apply N.eqb_eq in E6]; lia. }
  destruct (c <? 127). { apply Pl; auto. }
  destruct (printable c). { apply Pl; auto. }
  destruct (c <? 256) eqn:E7. { apply N.ltb_lt in E7. apply X; auto. }
  destruct (c <? 65536) eqn:E8.
  - apply N.ltb_lt in E8. apply (Bs (117 :: hex 4 c ++ r) c r).
    change (read_hex 4 0 (hex 4 c ++ r) = Some (c, r)). rewrite read_hex_ok by exact E8. f_equal.
  - apply (Bs (85 :: hex 8 c ++ r) c r).
    change (read_hex 8 0 (hex 8 c ++ r) = Some (c, r)).
    rewrite read_hex_ok by (change (16 ^ N.of_nat 8) with 4294967296; lia). f_equal.
Qed.

Lemma esc_char_length q c : (1 <= length (esc_char printable q c))%nat.
Proof.
  unfold esc_char. repeat match goal with |- context [if ?b then _ else _] => destruct b end; cbn; lia.
Qed.

Lemma read_body q s r : q = 39 \/ q = 34 -> unicode s -> forall fuel,
  (length (flat_map (esc_char printable q) s) < fuel)%nat ->
  read_lit fuel q (flat_map (esc_char printable q) s ++ q :: r) = Some (s, r).
Proof.
  intros Hq Hs. induction Hs as [|c s Hc Hs IH]; intros fuel Hf.
  - cbn in *. destruct fuel; [lia|]. cbn. rewrite N.eqb_refl. reflexivity.
  - cbn [flat_map] in *. rewrite app_length in Hf. pose proof (esc_char_length q c).
    destruct fuel as [|fuel]; [lia|]. rewrite <- app_assoc, esc_char_read by auto.
    rewrite IH by lia. reflexivity.
Qed.

Lemma quote_cases s : quote s = 39 \/ quote s = 34.
Proof. unfold quote. destruct (_ && _); auto. Qed.

Lemma str_read num_value s r n : unicode s -> (0 < n)%nat ->
  expr num_value n (str_repr printable s ++ r) = Some (AStr s, r).
Proof.
  intros Hs Hn. destruct n as [|n]; [lia|]. unfold str_repr. cbn [app expr].
  rewrite <- app_assoc. cbn [app].
  pose proof (quote_cases s) as Hq.
  assert (R : read_lit (S (length (flat_map (esc_char printable (quote s)) s ++ quote s :: r)))
             (quote s) (flat_map (esc_char printable (quote s)) s ++ quote s :: r) = Some (s, r)).
  { apply read_body; auto. rewrite app_length. lia. }
  rewrite R. destruct Hq as [-> | ->]; reflexivity.
Qed.
End Text.

(** *** Spans *)
Definition ends (r : str) : Prop := match r with [] => True | c :: _ => In c [44; 41; 93; 125] end.

Lemma span_all p t r : forallb p t = true -> (match r with [] => True | c :: _ => p c = false end) ->
  span p (t ++ r) = (t, r).
Proof.
  intros Ht Hr. induction t as [|c t IH]; cbn [app].
  - destruct r as [|c r]; [reflexivity|]. cbn. rewrite Hr. reflexivity.
  - cbn [forallb] in Ht. apply andb_true_iff in Ht as [Hc Ht]. cbn. rewrite Hc, IH by auto. reflexivity.
Qed.
Lemma ends_num r : ends r -> match r with [] => True | c :: _ => is_numch c = false end.
Proof. destruct r as [|c r]; auto. cbn [ends In]. intros [<-|[<-|[<-|[<-|[]]]]]; reflexivity. Qed.
Lemma ends_alnum r : ends r -> match r with [] => True | c :: _ => is_alnum c = false end.
Proof. destruct r as [|c r]; auto. cbn [ends In]. intros [<-|[<-|[<-|[<-|[]]]]]; reflexivity. Qed.

Lemma letter_alpha c : letter c -> is_alpha c = true.
Proof.
  unfold letter, is_alpha. intros [H|[H|[->|H]]].
  - replace (97 <=? c) with true by (symmetry; apply N.leb_le; lia).
    replace (c <=? 122) with true by (symmetry; apply N.leb_le; lia). reflexivity.
  - replace (65 <=? c) with true by (symmetry; apply N.leb_le; lia).
    replace (c <=? 90) with true by (symmetry; apply N.leb_le; lia).
    destruct ((97 <=? c) && (c <=? 122)); reflexivity.
  - reflexivity.
  - replace (128 <=? c) with true by (symmetry; apply N.leb_le; lia). now rewrite orb_true_r.
Qed.
Lemma identifier_alnum n : identifier n -> forallb is_alnum n = true.
Proof.
  destruct n as [|c r]; [intros []|]. intros [Hc Hr]. cbn. unfold is_alnum at 1.
  rewrite letter_alpha by auto. cbn. apply forallb_forall. intros x Hx.
  rewrite Forall_forall in Hr. destruct (Hr x Hx) as [H|H]; unfold is_alnum.
  - rewrite letter_alpha by auto. reflexivity.
  - assert (D : is_dig x = true) by (unfold is_dig; apply andb_true_iff; split; apply N.leb_le; lia).
    rewrite D. apply orb_true_r.
Qed.
(** Characters that do not begin a name. *)
Lemma letter_not c d : letter c -> is_alpha d = false -> c <> d.
Proof. intros H1 H2 ->. apply letter_alpha in H1. congruence. Qed.
Lemma letter_eqb c d : letter c -> is_alpha d = false -> (c =? d) = false.
Proof. intros H1 H2. apply N.eqb_neq. eapply letter_not; eauto. Qed.
Lemma letter_dig c : letter c -> is_dig c = false.
Proof.
  unfold letter, is_dig. intros H. destruct (48 <=? c) eqn:A; auto. destruct (c <=? 57) eqn:B; auto.
  apply N.leb_le in A, B. lia.
Qed.

(** *** Numerals *)
Lemma dig_val c : is_dig c = true <-> SelPathModel.is_digit (fun _ => None) c = true.
Proof.
  unfold is_dig, SelPathModel.is_digit, digit_val. destruct (c <? 128) eqn:L.
  - destruct ((48 <=? c) && (c <=? 57)); split; congruence.
  - apply N.ltb_ge in L. split; [|discriminate]. intros H. apply andb_true_iff in H as [_ H].
    apply N.leb_le in H. lia.
Qed.
Lemma fmt_N_dig n : forallb is_dig (fmt_N n) = true /\ fmt_N n <> [] /\ int_of (fun _ => None) (fmt_N n) 0 = n.
Proof.
  destruct (fmt_N_ok (fun _ => None) n) as (A & B & C). split; auto.
  apply forallb_forall. intros x Hx. rewrite forallb_forall in A. apply dig_val. auto.
Qed.
Lemma dig_num c : is_dig c = true -> is_numch c = true.
Proof. unfold is_numch. intros ->. reflexivity. Qed.
Lemma forallb_impl {A} (p q : A -> bool) l : (forall x, p x = true -> q x = true) ->
  forallb p l = true -> forallb q l = true.
Proof. intros H. rewrite !forallb_forall. auto. Qed.

(** The text of an integer: digits after an optional sign. *)
Lemma fmt_int_shape z : exists ds,
  forallb is_dig ds = true /\ ds <> [] /\
  ((fmt_int z = ds /\ z = Z.of_N (int_of (fun _ => None) ds 0))
   \/ (fmt_int z = 45 :: ds /\ z = (- Z.of_N (int_of (fun _ => None) ds 0))%Z)).
Proof.
  destruct z as [|p|p]; cbn [fmt_int].
  - destruct (fmt_N_dig 0) as (A & B & C). exists (fmt_N 0). rewrite C. auto.
  - destruct (fmt_N_dig (N.pos p)) as (A & B & C). exists (fmt_N (N.pos p)). rewrite C. auto.
  - destruct (fmt_N_dig (N.pos p)) as (A & B & C). exists (fmt_N (N.pos p)). rewrite C. auto.
Qed.

Lemma dig_cases c : is_dig c = true -> 48 <= c <= 57.
Proof. unfold is_dig. intros H. apply andb_true_iff in H as [A B]. apply N.leb_le in A, B. lia. Qed.

Lemma fmt_int_numeral num_value z : numeral num_value (fmt_int z) = Some (AInt z).
Proof.
  destruct (fmt_int_shape z) as (ds & A & B & [[-> E]|[-> E]]); unfold numeral.
  - destruct ds as [|c r]; [congruence|]. cbn [forallb] in A.
    assert (Hc : (c =? 45) = false).
    { apply andb_true_iff in A as [A _]. apply dig_cases in A. apply N.eqb_neq. lia. }
    rewrite Hc. cbn [forallb]. rewrite A. congruence.
  - cbn [N.eqb Pos.eqb]. destruct ds as [|c r]; [congruence|]. rewrite A. congruence.
Qed.

Lemma numeral_read num_value t e r n : (0 < n)%nat ->
  numeral num_value t = Some e -> forallb is_numch t = true ->
  (exists c t', t = c :: t' /\ (is_dig c = true \/ c = 45)) -> ends r ->
  expr num_value n (t ++ r) = Some (e, r).
Proof.
  intros Hn He Ht (c & t' & -> & Hc) Hr. destruct n as [|n]; [lia|].
  assert (S : span is_numch (c :: t' ++ r) = (c :: t', r)).
  { apply (span_all is_numch (c :: t') r); auto. apply ends_num. auto. }
  cbn [app expr]. rewrite S, He.
  assert (D : is_dig c || (c =? 45) = true) by (destruct Hc as [->| ->]; reflexivity).
  assert (R : 45 <= c <= 57).
  { destruct Hc as [Hc| ->]; [apply dig_cases in Hc|]; lia. }
  rewrite D.
  replace (c =? 91) with false by (symmetry; apply N.eqb_neq; lia).
  replace (c =? 40) with false by (symmetry; apply N.eqb_neq; lia).
  replace (c =? 123) with false by (symmetry; apply N.eqb_neq; lia).
  replace (c =? 39) with false by (symmetry; apply N.eqb_neq; lia).
  replace (c =? 34) with false by (symmetry; apply N.eqb_neq; lia).
  reflexivity.
Qed.
