(** C53, floats: what becomes of an integer as a binary64 number, and back. *)
From Coq Require Import List NArith ZArith Arith Bool Lia.
From Coq Require Import SpecFloat.
From Verif Require Import Prelude PropModel NumModel NumSpec.
Import ListNotations.
Local Open Scope Z_scope.

Lemma digits_bounds m : 2 ^ (Zpos (digits2_pos m) - 1) <= Zpos m < 2 ^ Zpos (digits2_pos m).
Proof.
  induction m as [m IH|m IH|]; cbn [digits2_pos]; [| |cbn; lia].
  - rewrite Pos2Z.inj_succ. replace (Z.succ (Zpos (digits2_pos m)) - 1) with (Z.succ (Zpos (digits2_pos m) - 1)) by lia.
    rewrite !Z.pow_succ_r by lia. change (Zpos m~1) with (2 * Zpos m + 1). lia.
  - rewrite Pos2Z.inj_succ. replace (Z.succ (Zpos (digits2_pos m)) - 1) with (Z.succ (Zpos (digits2_pos m) - 1)) by lia.
    rewrite !Z.pow_succ_r by lia. change (Zpos m~0) with (2 * Zpos m). lia.
Qed.

Lemma pow_lt_inv a b : 0 <= a -> 2 ^ a < 2 ^ b -> a < b.
Proof. intros Ha H. apply (Z.pow_lt_mono_r_iff 2); try lia. destruct (Z_lt_ge_dec b 0); [|lia]. rewrite (Z.pow_neg_r 2 b) in H by lia. pose proof (Z.pow_pos_nonneg 2 a). lia. Qed.

Lemma digits_unique m k : 2 ^ (k - 1) <= Zpos m < 2 ^ k -> 1 <= k -> Zpos (digits2_pos m) = k.
Proof.
  intros [A B] K. destruct (digits_bounds m) as [C D].
  assert (Zpos (digits2_pos m) - 1 < k) by (apply pow_lt_inv; lia).
  assert (k - 1 < Zpos (digits2_pos m)) by (apply pow_lt_inv; lia). lia.
Qed.

Lemma iter_pos_nat {A} (f : A -> A) p : forall x, SpecFloat.iter_pos f p x = Nat.iter (Pos.to_nat p) f x.
Proof.
  assert (Add : forall a b x, Nat.iter (a + b) f x = Nat.iter a f (Nat.iter b f x)).
  { intros a b x. induction a as [|a IHa]; [reflexivity|].
    change (f (Nat.iter (a + b) f x) = f (Nat.iter a f (Nat.iter b f x))). now rewrite IHa. }
  assert (Sh : forall n x, Nat.iter n f (f x) = f (Nat.iter n f x)).
  { intros n x. induction n as [|n IHn]; [reflexivity|].
    change (f (Nat.iter n f (f x)) = f (f (Nat.iter n f x))). now rewrite IHn. }
  induction p as [p IH|p IH|]; intros x; cbn [SpecFloat.iter_pos].
  - rewrite !IH, Pos2Nat.inj_xI. replace (S (2 * Pos.to_nat p)) with (S (Pos.to_nat p + Pos.to_nat p)) by lia.
    rewrite !Sh, <- Add. reflexivity.
  - rewrite !IH, Pos2Nat.inj_xO. replace (2 * Pos.to_nat p)%nat with (Pos.to_nat p + Pos.to_nat p)%nat by lia.
    symmetry. apply Add.
  - reflexivity.
Qed.

(** the position of [m] among the multiples of [2^n] *)
Definition located (m : Z) (n : nat) (r : shr_record) : Prop :=
  let rem := m - shr_m r * 2 ^ Z.of_nat n in
  0 <= shr_m r /\ 0 <= rem < 2 ^ Z.of_nat n /\
  match shr_r r, shr_s r with
  | false, false => rem = 0
  | false, true => 0 < rem /\ 2 * rem < 2 ^ Z.of_nat n
  | true, false => 2 * rem = 2 ^ Z.of_nat n
  | true, true => 2 ^ Z.of_nat n < 2 * rem
  end.

Lemma shr_located m n r : located m n r -> (n = 0%nat -> shr_r r = false /\ shr_s r = false) ->
  located m (S n) (shr_1 r).
Proof.
  unfold located. destruct r as [q r s]. cbn [shr_m shr_r shr_s]. intros (Q & R & L) _.
  rewrite Nat2Z.inj_succ, Z.pow_succ_r by lia.
  assert (P : 0 < 2 ^ Z.of_nat n) by (apply Z.pow_pos_nonneg; lia).
  set (t := 2 ^ Z.of_nat n) in *.
  destruct q as [|q|q]; [| |lia].
  - cbn [shr_1 shr_m shr_r shr_s]. rewrite Z.mul_0_l in *.
    destruct r, s; cbn [orb]; lia.
  - destruct q as [q|q|]; cbn [shr_1 shr_m shr_r shr_s].
    + rewrite Pos2Z.inj_xI in *. destruct r, s; cbn [orb]; nia.
    + rewrite Pos2Z.inj_xO in *. destruct r, s; cbn [orb]; nia.
    + destruct r, s; cbn [orb]; lia.
Qed.

Lemma iter_located m n : 0 <= m -> located m n (Nat.iter n shr_1 (Build_shr_record m false false)).
Proof.
  intros Hm. induction n as [|n IH].
  - unfold located. cbn [Nat.iter nat_rect shr_m shr_r shr_s]. change (2 ^ Z.of_nat 0) with 1. lia.
  - apply (shr_located m n _ IH). intros ->. cbn. auto.
Qed.

(** rounding to a multiple of [2^n] *)
Lemma round_close m n r : (0 < n)%nat -> located m n r ->
  let q := round_nearest_even (shr_m r) (loc_of_shr_record r) in
  shr_m r <= q <= shr_m r + 1 /\ 2 * Z.abs (q * 2 ^ Z.of_nat n - m) <= 2 ^ Z.of_nat n /\
  (m = shr_m r * 2 ^ Z.of_nat n -> q = shr_m r) /\
  (Z.even (shr_m r) = false -> q = shr_m r + 1 <-> shr_m r * 2 ^ Z.of_nat n + 2 ^ (Z.of_nat n - 1) <= m).
Proof.
  intros Hn. unfold located. destruct r as [q r s]. cbn [shr_m shr_r shr_s loc_of_shr_record].
  assert (P : 0 < 2 ^ (Z.of_nat n - 1)) by (apply Z.pow_pos_nonneg; lia).
  assert (E : 2 ^ Z.of_nat n = 2 * 2 ^ (Z.of_nat n - 1)).
  { rewrite <- Z.pow_succ_r by lia. f_equal. lia. }
  rewrite E in *. set (h := 2 ^ (Z.of_nat n - 1)) in *.
  intros (Q & R & L). destruct r, s; cbn [round_nearest_even].
  - repeat split; intros; lia.
  - destruct (Z.even q) eqn:Ev; repeat split; intros; try lia; discriminate.
  - repeat split; intros; lia.
  - repeat split; intros; lia.
Qed.

Lemma fexp_ge d : -1021 <= d -> fexp 53 1024 d = d - 53.
Proof. intros H. unfold fexp, emin. lia. Qed.

Definition sgn (s : bool) (z : Z) : Z := if s then - z else z.

Lemma shift_pos_mul d m : Zpos (shift_pos d m) = Zpos m * 2 ^ Zpos d.
Proof. rewrite shift_pos_correct, Z.pow_pos_fold. lia. Qed.

(** at most 53 bits: exact *)
Lemma small_exact s m : Zpos (digits2_pos m) <= 53 ->
  exists m' e, binary_round 53 1024 s m 0 = S754_finite s m' e /\ e <= 0 /\
    Zpos m' = Zpos m * 2 ^ (- e).
Proof.
  intros H. set (d := Zpos (digits2_pos m)) in *.
  unfold binary_round. fold d. rewrite Z.add_0_r, fexp_ge by lia.
  assert (Sa : exists mz, shl_align m 0 (d - 53) = (mz, d - 53) /\
                 Zpos mz = Zpos m * 2 ^ (53 - d) /\ Zpos (digits2_pos mz) = 53).
  { unfold shl_align. rewrite Z.sub_0_r. destruct (d - 53) as [|p|p] eqn:E; [|lia|].
    - exists m. split; [reflexivity|]. replace (53 - d) with 0 by lia. change (2 ^ 0) with 1. fold d. lia.
    - exists (shift_pos p m). split; [reflexivity|].
      assert (Ep : 53 - d = Zpos p) by lia. rewrite Ep, shift_pos_mul. split; auto.
      apply digits_unique; [|lia]. rewrite shift_pos_mul, <- Ep.
      destruct (digits_bounds m) as [A B]. fold d in A, B.
      assert (P : 0 < 2 ^ (53 - d)) by (apply Z.pow_pos_nonneg; lia).
      split.
      + replace (53 - 1) with ((d - 1) + (53 - d)) by lia. rewrite Z.pow_add_r by lia. nia.
      + replace 53 with (d + (53 - d)) at 2 by lia. rewrite Z.pow_add_r by lia. nia. }
  destruct Sa as (mz & -> & Em & Dm).
  exists mz, (d - 53). split; [|split; [lia|]].
  - unfold binary_round_aux, shr_fexp at 1. cbn [Zdigits2]. rewrite Dm.
    replace (53 + (d - 53)) with d by lia. rewrite fexp_ge by lia.
    replace (d - 53 - (d - 53)) with 0 by lia. cbn [shr shr_record_of_loc shr_m loc_of_shr_record round_nearest_even].
    unfold shr_fexp. cbn [Zdigits2]. rewrite Dm.
    replace (53 + (d - 53)) with d by lia. rewrite fexp_ge by lia.
    replace (d - 53 - (d - 53)) with 0 by lia. cbn [shr shr_record_of_loc shr_m].
    replace (d - 53 <=? 1024 - 53) with true; auto. symmetry. apply Z.leb_le. lia.
  - rewrite Em. f_equal. f_equal. lia.
Qed.

(** more than 53 bits: rounded *)
Lemma large_round s m : 53 < Zpos (digits2_pos m) ->
  let d := Zpos (digits2_pos m) in let k := d - 53 in
  exists q, 2 ^ 52 <= q <= 2 ^ 53 /\
    2 * Z.abs (q * 2 ^ k - Zpos m) <= 2 ^ k /\
    (Zpos m mod 2 ^ k = 0 -> q * 2 ^ k = Zpos m) /\
    (q = 2 ^ 53 <-> (2 ^ 53 - 1) * 2 ^ k + 2 ^ (k - 1) <= Zpos m) /\
    ((q < 2 ^ 53 /\ k <= 971 \/ q = 2 ^ 53 /\ k <= 970) ->
      exists m' e, binary_round 53 1024 s m 0 = S754_finite s m' e /\ 0 <= e /\ Zpos m' * 2 ^ e = q * 2 ^ k) /\
    ((q < 2 ^ 53 /\ 971 < k \/ q = 2 ^ 53 /\ 970 < k) -> binary_round 53 1024 s m 0 = S754_infinity s).
Proof.
  intros H. cbn zeta. set (d := Zpos (digits2_pos m)) in *. set (k := d - 53).
  destruct (digits_bounds m) as [A B]. fold d in A, B.
  assert (Kp : exists p, k = Zpos p) by (destruct k as [|p|p] eqn:E; unfold k in E; try lia; eauto).
  destruct Kp as [p Kp].
  set (n := Pos.to_nat p). assert (Kn : Z.of_nat n = k) by (unfold n; rewrite positive_nat_Z; auto).
  set (r := Nat.iter n shr_1 (Build_shr_record (Zpos m) false false)).
  pose proof (iter_located (Zpos m) n ltac:(lia)) as L. fold r in L.
  pose proof L as (Q0 & R & _). rewrite Kn in R.
  assert (P : 0 < 2 ^ k) by (apply Z.pow_pos_nonneg; lia).
  assert (Ad : 2 ^ (d - 1) = 2 ^ 52 * 2 ^ k).
  { rewrite <- Z.pow_add_r by lia. f_equal. lia. }
  assert (Bd : 2 ^ d = 2 ^ 53 * 2 ^ k).
  { rewrite <- Z.pow_add_r by lia. f_equal. lia. }
  rewrite Ad in A. rewrite Bd in B.
  assert (Qlo : 2 ^ 52 <= shr_m r) by nia.
  assert (Qhi : shr_m r < 2 ^ 53) by nia.
  destruct (round_close (Zpos m) n r ltac:(lia) L) as (C1 & C2 & C3 & C4). rewrite Kn in *.
  set (q := round_nearest_even (shr_m r) (loc_of_shr_record r)) in *.
  assert (Br : binary_round 53 1024 s m 0 =
    (let '(mrs'', e'') := shr_fexp 53 1024 q k loc_Exact in
     match shr_m mrs'' with
     | Z0 => S754_zero s
     | Zpos m => if Zle_bool e'' (1024 - 53) then S754_finite s m e'' else S754_infinity s
     | _ => S754_nan
     end)).
  { unfold binary_round. fold d. rewrite Z.add_0_r, fexp_ge by lia. fold k.
    unfold shl_align. rewrite Z.sub_0_r, Kp.
    unfold binary_round_aux, shr_fexp at 1. cbn [Zdigits2]. fold d.
    rewrite Z.add_0_r, fexp_ge by lia. fold k. rewrite Z.sub_0_r, Kp. cbn [shr].
    rewrite iter_pos_nat. fold n. cbn [shr_record_of_loc]. fold r. rewrite Z.add_0_l. fold q. reflexivity. }
  exists q.
  split; [lia|]. split; [auto|].
  split.
  { intros M. apply Z.mod_divide in M; [|lia]. destruct M as [c M].
    assert (Ec : c = shr_m r).
    { rewrite M in R. clear - R P. set (t := 2 ^ k) in *. clearbody t.
      destruct (Z.lt_trichotomy c (shr_m r)) as [?|[?|?]]; auto; nia. }
    rewrite C3; congruence. }
  split.
  { destruct (Z.eq_dec (shr_m r) (2 ^ 53 - 1)) as [E|E].
    - rewrite E in C4. rewrite E in C1. specialize (C4 eq_refl). destruct C4. split; intros; [apply H0|apply H1 in H2]; lia.
    - assert (H2k : 0 < 2 ^ (k - 1)) by (apply Z.pow_pos_nonneg; lia).
      split; intros; [lia|]. nia. }
  rewrite Br. unfold shr_fexp.
  destruct (Z.eq_dec q (2 ^ 53)) as [E|E].
  - rewrite E. change (Zdigits2 (2 ^ 53)) with 54.
    rewrite fexp_ge by lia. replace (54 + k - 53 - k) with 1 by lia.
    change (shr (shr_record_of_loc (2 ^ 53) loc_Exact) k 1)
      with (Build_shr_record (2 ^ 52) false false, k + 1). cbn [shr_m].
    change (2 ^ 52) with (Zpos (Pos.pow 2 52)). split.
    + intros [?|?]; [lia|]. exists (Pos.pow 2 52), (k + 1).
      replace (k + 1 <=? 1024 - 53) with true by (symmetry; apply Z.leb_le; lia).
      split; [reflexivity|]. split; [lia|]. rewrite Z.pow_add_r by lia.
      change (Zpos (Pos.pow 2 52)) with (2 ^ 52). change (2 ^ 1) with 2. lia.
    + intros [?|?]; [lia|].
      replace (k + 1 <=? 1024 - 53) with false by (symmetry; apply Z.leb_gt; lia). reflexivity.
  - assert (Qp : exists qp, q = Zpos qp).
    { destruct q as [|qp|qp] eqn:E'; [| eauto |]; exfalso; lia. }
    destruct Qp as [qp Qp].
    assert (Dq : Zdigits2 q = 53).
    { rewrite Qp. cbn [Zdigits2]. apply digits_unique; [|lia]. change (53 - 1) with 52. lia. }
    rewrite Dq, fexp_ge by lia. replace (53 + k - 53 - k) with 0 by lia. cbn [shr].
    rewrite Qp. cbn [shr_record_of_loc shr_m]. split.
    + intros [?|?]; [|lia]. exists qp, k.
      replace (k <=? 1024 - 53) with true by (symmetry; apply Z.leb_le; lia).
      split; [reflexivity|]. split; lia.
    + intros [?|?]; [|lia].
      replace (k <=? 1024 - 53) with false by (symmetry; apply Z.leb_gt; lia). reflexivity.
Qed.

Lemma fits_pos m : fits53 (Zpos m) -> 53 < Zpos (digits2_pos m) ->
  Zpos m mod 2 ^ (Zpos (digits2_pos m) - 53) = 0.
Proof.
  intros (a & j & Hj & E & Ha) H. set (k := Zpos (digits2_pos m) - 53) in *.
  assert (P : 0 < 2 ^ j) by (apply Z.pow_pos_nonneg; lia).
  assert (Apos : 0 < a) by nia.
  destruct (digits_bounds m) as [A _].
  destruct (Z.eq_dec a (2 ^ 53)) as [E53|N53].
  - (* then m = 2^(53+j), which has 54 + j bits *)
    assert (Em : Zpos m = 2 ^ (53 + j)) by (rewrite Z.pow_add_r by lia; lia).
    assert (K : k - 1 <= j).
    { destruct (Z_le_gt_dec (k - 1) j); auto. exfalso. rewrite Em in A.
      assert (2 ^ (53 + j) < 2 ^ (Zpos (digits2_pos m) - 1)) by (apply Z.pow_lt_mono_r; lia). lia. }
    rewrite Em. replace (53 + j) with (k + (53 + j - k)) by lia. rewrite Z.pow_add_r by lia.
    rewrite Z.mul_comm. apply Z.mod_mul. pose proof (Z.pow_pos_nonneg 2 k). lia.
  - assert (K : k <= j).
    { destruct (Z_le_gt_dec k j); auto. exfalso.
      assert (L : 2 ^ (53 + j) <= 2 ^ (Zpos (digits2_pos m) - 1)) by (apply Z.pow_le_mono_r; lia).
      rewrite Z.pow_add_r in L by lia. nia. }
    rewrite E. replace j with ((j - k) + k) by lia. rewrite Z.pow_add_r, Z.mul_assoc by lia.
    apply Z.mod_mul. pose proof (Z.pow_pos_nonneg 2 k). lia.
Qed.

Definition top : Z := 2 ^ 1024 - 2 ^ 970.

Lemma top_value : top = (2 ^ 53 - 1) * 2 ^ 971 + 2 ^ 970.
Proof. reflexivity. Qed.

Lemma round_spec s m :
  (Zpos m < top ->
     exists f y, binary_round 53 1024 s m 0 = f /\
       (exists m' e, f = S754_finite s m' e) /\
       denotes f (sgn s y) /\ 0 < y /\ 2 ^ 53 * Z.abs (y - Zpos m) <= Zpos m /\
       fits53 y /\ (fits53 (Zpos m) -> y = Zpos m)) /\
  (top <= Zpos m -> binary_round 53 1024 s m 0 = S754_infinity s).
Proof.
  destruct (Z_le_gt_dec (Zpos (digits2_pos m)) 53) as [D|D].
  - destruct (small_exact s m D) as (m' & e & Er & Le & Em).
    destruct (digits_bounds m) as [_ B].
    assert (B' : Zpos m < 2 ^ 53).
    { eapply Z.lt_le_trans; [apply B|]. apply Z.pow_le_mono_r; lia. }
    split.
    + intros _. exists (S754_finite s m' e), (Zpos m). split; [auto|]. split; [eauto|].
      split; [|split; [lia|split; [lia|split; [|auto]]]].
      * cbn [denotes]. destruct (Z.leb_spec 0 e).
        -- assert (e = 0) by lia. subst e. change (2 ^ (- 0)) with 1 in Em. change (2 ^ 0) with 1.
           destruct s; cbn [sgn]; lia.
        -- destruct s; cbn [sgn]; lia.
      * exists (Zpos m), 0. change (2 ^ 0) with 1. lia.
    + intros T. exfalso. assert (2 ^ 53 <= top) by (vm_compute; discriminate). lia.
  - destruct (large_round s m ltac:(lia)) as (q & Q & C & X & Y & F1 & F2).
    set (d := Zpos (digits2_pos m)) in *. set (k := d - 53) in *.
    destruct (digits_bounds m) as [A B]. fold d in A, B.
    assert (P : 0 < 2 ^ k) by (apply Z.pow_pos_nonneg; lia).
    assert (Ad : 2 ^ (d - 1) = 2 ^ 52 * 2 ^ k) by (rewrite <- Z.pow_add_r by lia; f_equal; lia).
    assert (Bd : 2 ^ d = 2 ^ 53 * 2 ^ k) by (rewrite <- Z.pow_add_r by lia; f_equal; lia).
    split.
    + intros T.
      assert (Kle : k <= 971).
      { destruct (Z_le_gt_dec k 971); auto. exfalso.
        assert (M : 2 ^ 972 <= 2 ^ k) by (apply Z.pow_le_mono_r; lia).
        assert (M2 : 2 ^ 52 * 2 ^ 972 <= Zpos m) by nia.
        assert (top < 2 ^ 52 * 2 ^ 972) by (vm_compute; reflexivity). lia. }
      destruct F1 as (m' & e & Er & Le & Ee).
      { destruct (Z.eq_dec q (2 ^ 53)) as [E|E]; [right|left; lia].
        split; auto. destruct (Z.eq_dec k 971) as [E'|]; [|lia]. exfalso.
        apply (proj1 Y) in E. rewrite E' in E. change (971 - 1) with 970 in E.
        rewrite <- top_value in E. lia. }
      exists (S754_finite s m' e), (q * 2 ^ k). split; [auto|]. split; [eauto|].
      split; [|split; [nia|split; [|split]]].
      * cbn [denotes]. destruct (Z.leb_spec 0 e); [|lia]. destruct s; cbn [sgn]; lia.
      * change (2 ^ 53) with (2 * 2 ^ 52). nia.
      * exists q, k. repeat split; lia.
      * intros Fm. apply X. apply fits_pos; auto. fold d. lia.
    + intros T.
      assert (Kge : 971 <= k).
      { destruct (Z_le_gt_dec 971 k); auto. exfalso.
        assert (M : 2 ^ k <= 2 ^ 970) by (apply Z.pow_le_mono_r; lia).
        assert (M2 : Zpos m <= 2 ^ 53 * 2 ^ 970) by nia.
        assert (2 ^ 53 * 2 ^ 970 < top) by (vm_compute; reflexivity). lia. }
      apply F2. destruct (Z.eq_dec q (2 ^ 53)) as [E|E]; [right; lia|].
      left. split; [lia|]. destruct (Z.eq_dec k 971) as [E'|]; [|lia]. exfalso.
      apply E, Y. rewrite E'. change (971 - 1) with 970. rewrite <- top_value. auto.
Qed.

Lemma fits_opp z : fits53 z -> fits53 (- z).
Proof. intros (a & j & H & E & A). exists (- a), j. repeat split; lia. Qed.

Lemma denotes_fun f y z : denotes f y -> denotes f z -> y = z.
Proof.
  destruct f as [s| | |s m e]; cbn [denotes]; try tauto; try congruence.
  destruct (Z.leb_spec 0 e); [congruence|]. intros A B.
  assert (0 < 2 ^ (- e)) by (apply Z.pow_pos_nonneg; lia). rewrite B in A. nia.
Qed.

Lemma float_int_ok z : Z.abs z < top -> exists f y, float_int z = Ok f /\ denotes f y /\
  2 ^ 53 * Z.abs (y - z) <= Z.abs z /\ fits53 y /\ (fits53 z -> y = z).
Proof.
  unfold float_int. destruct z as [|m|m]; cbn [binary_normalize Z.abs]; intros T.
  - exists (S754_zero false), 0. cbn [denotes]. split; [auto|]. split; [auto|]. split; [cbn; lia|].
    split; [|auto]. exists 0, 0. cbn. lia.
  - destruct (proj1 (round_spec false m) T) as (f & y & -> & (m' & e & ->) & D & Y & C & F & X).
    exists (S754_finite false m' e), y. cbn [sgn] in D. auto.
  - destruct (proj1 (round_spec true m) T) as (f & y & -> & (m' & e & ->) & D & Y & C & F & X).
    exists (S754_finite true m' e), (- y). split; [auto|]. split; [exact D|].
    split; [lia|]. split; [now apply fits_opp|].
    intros G. apply fits_opp in G. cbn in G. rewrite X by auto. reflexivity.
Qed.
Lemma float_int_over z : top <= Z.abs z -> float_int z = Err OverflowErr.
Proof.
  unfold float_int. destruct z as [|m|m]; cbn [binary_normalize Z.abs]; intros T.
  - exfalso. revert T. vm_compute. auto.
  - now rewrite (proj2 (round_spec false m) T).
  - now rewrite (proj2 (round_spec true m) T).
Qed.

Lemma trunc_whole f z : trunc f = Ok z <-> whole_part f z.
Proof.
  destruct f as [s|s| |s m e]; cbn [trunc whole_part]; try (split; [discriminate|tauto]).
  - split; congruence.
  - destruct (Z.leb_spec 0 e) as [L|L].
    + assert (P : 0 < 2 ^ e) by (apply Z.pow_pos_nonneg; lia).
      assert (Ep : match e with Zneg k => Zpos m / 2 ^ Zpos k | _ => Zpos m * 2 ^ e end = Zpos m * 2 ^ e)
        by (destruct e; auto; lia).
      rewrite Ep. set (t := Zpos m * 2 ^ e). assert (0 < t) by (unfold t; nia). clearbody t. split.
      * intros H1. injection H1 as <-. destruct s; lia.
      * intros [S1 S2]. f_equal. destruct s; lia.
    + destruct e as [|k|k]; [lia|lia|]. change (- Zneg k) with (Zpos k).
      assert (P : 0 < 2 ^ Zpos k) by (apply Z.pow_pos_nonneg; lia).
      pose proof (Z.div_mod (Zpos m) (2 ^ Zpos k) ltac:(lia)) as DM.
      pose proof (Z.mod_pos_bound (Zpos m) (2 ^ Zpos k) P) as MB.
      set (t := 2 ^ Zpos k) in *. set (a := Zpos m / t) in *. set (b := Zpos m mod t) in *.
      assert (A0 : 0 <= a) by (unfold a; apply Z.div_pos; lia).
      clearbody a b t. split.
      * intros H1. injection H1 as <-. split; [destruct s; lia|].
        replace (Z.abs (if s then - a else a)) with a by (destruct s; lia). nia.
      * intros [S1 [S2 S3]].
        assert (Ea : a = Z.abs z).
        { destruct (Z.lt_trichotomy a (Z.abs z)) as [?|[?|?]]; auto; exfalso; nia. }
        f_equal. destruct s; lia.
Qed.
Lemma denotes_whole f z : denotes f z -> whole_part f z.
Proof.
  destruct f as [s| | |s m e]; cbn [denotes whole_part]; auto.
  destruct (Z.leb_spec 0 e).
  - assert (0 < 2 ^ e) by (apply Z.pow_pos_nonneg; lia). intros <-. destruct s; nia.
  - assert (0 < 2 ^ (- e)) by (apply Z.pow_pos_nonneg; lia). intros A. destruct s; split; try nia.
Qed.
