(** C53, text: [int()] accepts exactly the integer literals. *)
From Coq Require Import String List NArith ZArith Arith Bool Lia.
From Coq Require Import SpecFloat.
From Verif Require Import Prelude SelPathModel PropModel NumModel NumSpec ReprModel ReprText.
Import ListNotations.
Local Open Scope list_scope.
Local Open Scope N_scope.

Lemma space_white c : NumModel.is_space c = true <-> white c.
Proof.
  unfold NumModel.is_space, white. rewrite orb_true_iff, andb_true_iff, !N.leb_le, N.eqb_eq.
  cbn [In]. lia.
Qed.
Lemma dec_digit c : is_dec c = true <-> exists d, d < 10 /\ c = 48 + d.
Proof.
  unfold is_dec. rewrite andb_true_iff, !N.leb_le. split.
  - intros []. exists (c - 48). lia.
  - intros (d & H & ->). lia.
Qed.

Lemma skip_space_sound s : exists b, s = b ++ skip_space s /\ Forall white b.
Proof.
  induction s as [|c t (b & E & W)]; cbn [skip_space].
  - exists []. auto.
  - destruct (NumModel.is_space c) eqn:S.
    + exists (c :: b). split; [cbn [app]; congruence|]. constructor; auto. now apply space_white.
    + exists []. auto.
Qed.
Lemma skip_space_complete b s : Forall white b ->
  match s with [] => True | c :: _ => NumModel.is_space c = false end ->
  skip_space (b ++ s) = s.
Proof.
  induction b as [|c t IH]; intros W H; cbn [app].
  - destruct s as [|c t]; auto. cbn [skip_space]. now rewrite H.
  - inversion W as [|? ? Wc Wt]; subst. cbn [skip_space]. apply space_white in Wc.
    rewrite Wc. auto.
Qed.

Definition digs (g : list N) : Prop := Forall (fun d => d < 10) g.

Lemma pos_app a b : positional (a ++ b) = positional a * 10 ^ N.of_nat (length b) + positional b.
Proof.
  induction a as [|d t IH]; cbn [app positional]; [lia|].
  rewrite IH, app_length, Nat2N.inj_add, N.pow_add_r. lia.
Qed.

Lemma scan_sound s : forall us acc cnt n c rest,
  scan_digits us acc cnt s = Some (n, c, rest) ->
  exists g0 gs, s = grouped (g0 :: gs) ++ rest /\ digs g0 /\
    Forall (fun g => g <> [] /\ digs g) gs /\ (us = true -> g0 <> []) /\
    n = acc * 10 ^ N.of_nat (length (concat (g0 :: gs))) + positional (concat (g0 :: gs)) /\
    c = cnt + N.of_nat (length (concat (g0 :: gs))).
Proof.
  induction s as [|x t IH]; intros us acc cnt n c rest; cbn [scan_digits].
  - destruct us; [discriminate|]. intros H. injection H as <- <- <-.
    exists [], []. cbn. repeat split; auto; try constructor; try discriminate; lia.
  - destruct (N.eqb_spec x 95) as [->|Nx].
    + destruct us; [discriminate|]. intros H. apply IH in H as (g0 & gs & E & D & F & U & Hn & Hc).
      exists [], (g0 :: gs). cbn [grouped map app].
      split; [now rewrite E|]. split; [constructor|]. split; [constructor; auto|].
      split; [discriminate|]. cbn [concat app] in *. auto.
    + destruct (is_dec x) eqn:Dx.
      * intros H. apply IH in H as (g0 & gs & E & D & F & U & Hn & Hc).
        apply dec_digit in Dx as (d & Hd & ->).
        exists (d :: g0), gs.
        split. { rewrite E. destruct gs; reflexivity. }
        split; [constructor; auto|]. split; [auto|]. split; [discriminate|].
        cbn [concat app] in *. cbn [length positional]. split.
        -- rewrite Hn. replace (48 + d - 48) with d by lia.
           rewrite Nat2N.inj_succ, N.pow_succ_r'. lia.
        -- lia.
      * destruct us; [discriminate|]. intros H. injection H as <- <- <-.
        exists [], []. cbn. repeat split; auto; try constructor; try discriminate; lia.
Qed.

Definition stops (s : str) : Prop :=
  match s with [] => True | c :: _ => c <> 95 /\ is_dec c = false end.

Lemma scan_group g : digs g -> forall us acc cnt t,
  (us = true -> g <> []) ->
  scan_digits us acc cnt (map (N.add 48) g ++ t)
  = scan_digits (match g with [] => us | _ => false end)
      (acc * 10 ^ N.of_nat (length g) + positional g) (cnt + N.of_nat (length g)) t.
Proof.
  induction 1 as [|d g Hd Hg IH]; intros us acc cnt t U.
  - cbn [map app length positional]. f_equal; lia.
  - cbn [map app scan_digits].
    destruct (N.eqb_spec (48 + d) 95) as [E|_]; [lia|].
    assert (D : is_dec (48 + d) = true) by (apply dec_digit; eauto).
    rewrite D, IH by discriminate.
    replace (match g with [] => false | _ => false end) with false by (destruct g; reflexivity).
    cbn [length positional].
    f_equal; rewrite ?Nat2N.inj_succ, ?N.pow_succ_r'; [|lia].
    replace (48 + d - 48) with d by lia. lia.
Qed.

Lemma scan_complete gs : forall g0 us acc cnt rest,
  digs g0 -> Forall (fun g => g <> [] /\ digs g) gs -> (us = true -> g0 <> []) -> stops rest ->
  scan_digits us acc cnt (grouped (g0 :: gs) ++ rest)
  = Some (acc * 10 ^ N.of_nat (length (concat (g0 :: gs))) + positional (concat (g0 :: gs)),
          cnt + N.of_nat (length (concat (g0 :: gs))), rest).
Proof.
  induction gs as [|g1 gs IH]; intros g0 us acc cnt rest D F U S.
  - cbn [grouped concat]. rewrite app_nil_r, scan_group by auto.
    replace (match g0 with [] => us | _ => false end) with false
      by (destruct g0, us; try reflexivity; exfalso; now apply U).
    destruct rest as [|c t]; cbn [scan_digits]; auto.
    destruct S as [N9 Dc]. apply N.eqb_neq in N9. now rewrite N9, Dc.
  - inversion F as [|? ? [Ne D1] F']; subst.
    change (grouped (g0 :: g1 :: gs)) with (map (N.add 48) g0 ++ 95 :: grouped (g1 :: gs)).
    rewrite <- app_assoc, <- app_comm_cons, scan_group by auto.
    replace (match g0 with [] => us | _ => false end) with false
      by (destruct g0, us; try reflexivity; exfalso; now apply U).
    cbn [scan_digits]. change (95 =? 95) with true. cbv iota.
    rewrite IH by auto. cbn [concat].
    rewrite !pos_app, !app_length, !Nat2N.inj_add, !N.pow_add_r.
    match goal with |- Some (?a, ?b, ?r) = Some (?a', ?b', ?r) =>
      replace a' with a by lia; replace b' with b by lia; reflexivity end.
Qed.

Lemma white_stops l : Forall white l -> stops l.
Proof.
  intros H. destruct H as [|c t Wc _]; cbn; auto.
  unfold white in Wc. cbn [In] in Wc. unfold is_dec.
  destruct Wc as [<-|[<-|[<-|[<-|[<-|[<-|[]]]]]]]; split; auto; discriminate.
Qed.

Lemma grouped_head g0 gs r : g0 <> [] -> digs g0 ->
  exists d t, grouped (g0 :: gs) ++ r = 48 + d :: t /\ d < 10.
Proof.
  intros Ne D. destruct g0 as [|d g]; [congruence|]. inversion D; subst.
  destruct gs; cbn [grouped map app]; eauto.
Qed.

Section Text.
Variable udec : N -> option N.
Variable uspace : N -> bool.
Variable lim : option N.
Notation to_ascii := (to_ascii udec uspace).
Notation int_text := (int_text udec uspace lim).

Definition permitted (n : nat) : Prop :=
  match lim with None => True | Some k => N.of_nat n <= k end.

Lemma within_ok n : within lim (N.of_nat n) = true <-> permitted n.
Proof.
  unfold within, permitted. destruct lim as [k|]; [apply N.leb_le|]. split; auto.
Qed.

(** over the ASCII form *)
Lemma int_ascii s z :
  int_text s = Ok z <-> exists n, writes (map to_ascii s) n z /\ permitted n.
Proof.
  unfold NumModel.int_text. set (a := map to_ascii s). clearbody a. split.
  - destruct (skip_space_sound a) as (b & Ea & Wb).
    destruct (take_sign (skip_space a)) as [neg s1] eqn:T.
    destruct (scan_digits true 0 0 s1) as [[[n c] rest]|] eqn:Sc; [|discriminate].
    destruct (within lim c && _) eqn:G; [|discriminate]. intros H.
    apply andb_true_iff in G as [G1 G2].
    destruct (skip_space_sound rest) as (af & Er & Waf).
    destruct (skip_space rest); [|discriminate]. rewrite app_nil_r in Er. subst rest.
    apply scan_sound in Sc as (g0 & gs & E1 & D & F & U & Hn & Hc).
    exists (length (concat (g0 :: gs))). split.
    + assert (Q : exists sign sg, skip_space a = sign ++ s1 /\ sign_text sign sg /\
                    (if neg then - Z.of_N n else Z.of_N n)%Z = (sg * Z.of_N n)%Z).
      { destruct (skip_space a) as [|x t] eqn:Sk; cbn [take_sign] in T.
        - injection T as <- <-. exists [], 1%Z. split; [reflexivity|split; [constructor|lia]].
        - destruct (N.eqb_spec x 43) as [->|].
          { injection T as <- <-. exists [43], 1%Z. split; [reflexivity|split; [constructor|lia]]. }
          destruct (N.eqb_spec x 45) as [->|].
          { injection T as <- <-. exists [45], (-1)%Z. split; [reflexivity|split; [constructor|lia]]. }
          injection T as <- <-. exists [], 1%Z. split; [reflexivity|split; [constructor|lia]]. }
      destruct Q as (sign & sg & Es & Ts & Ez).
      exists b, sign, sg, (g0 :: gs), af.
      split. { rewrite Ea, Es, E1. reflexivity. }
      repeat split; auto; try discriminate.
      injection H as <-. rewrite Ez, Hn. rewrite N.mul_0_l, N.add_0_l. reflexivity.
    + apply within_ok. rewrite <- G1. f_equal. lia.
  - intros (n & (b & sign & sg & gs & af & Ea & Wb & Wa & Ts & Ne & F & Hl & Hz) & P).
    destruct gs as [|g0 gs]; [congruence|]. inversion F as [|? ? [N0 D0] F']; subst.
    assert (St : stops af) by now apply white_stops.
    destruct (grouped_head g0 gs af N0 D0) as (d & t & Eh & Hd).
    assert (K : take_sign (skip_space (b ++ sign ++ grouped (g0 :: gs) ++ af))
                = ((sg <? 0)%Z, grouped (g0 :: gs) ++ af)).
    { rewrite skip_space_complete; auto.
      - destruct Ts; try reflexivity. cbn [app]. rewrite Eh. unfold take_sign.
        destruct (N.eqb_spec (48 + d) 43); [lia|]. destruct (N.eqb_spec (48 + d) 45); [lia|]. reflexivity.
      - destruct Ts; cbn [app]; try reflexivity. rewrite Eh.
        destruct (NumModel.is_space (48 + d)) eqn:Sp; auto. apply space_white in Sp.
        unfold white in Sp. cbn [In] in Sp. lia. }
    rewrite K, scan_complete; auto.
    rewrite N.mul_0_l, !N.add_0_l.
    apply within_ok in P. rewrite P.
    pose proof (skip_space_complete af [] Wa I) as Sk. rewrite app_nil_r in Sk. rewrite Sk.
    cbn [andb]. f_equal. destruct Ts; cbn [Z.ltb Z.compare]; lia.
Qed.

Lemma ascii_fun c c' : ascii_of udec uspace c c' -> to_ascii c = c'.
Proof.
  unfold NumModel.to_ascii. intros [x H|x H H1|x d H H1 H2].
  - apply N.ltb_lt in H. now rewrite H.
  - apply N.ltb_ge in H. now rewrite H, H1.
  - apply N.ltb_ge in H. now rewrite H, H1, H2.
Qed.
Lemma ascii_ex c : to_ascii c <> 63 -> ascii_of udec uspace c (to_ascii c).
Proof.
  unfold NumModel.to_ascii. destruct (N.ltb_spec c 127); [now constructor|].
  destruct (uspace c) eqn:U; [now constructor|].
  destruct (udec c) eqn:D; [|congruence]. intros _. now constructor.
Qed.

Lemma grouped_chars gs : Forall (fun g => g <> [] /\ digs g) gs ->
  Forall (fun c => c <> 63) (grouped gs).
Proof.
  assert (G : forall g, digs g -> Forall (fun c => c <> 63) (map (N.add 48) g)).
  { intros g D. induction D; cbn [map]; constructor; auto. lia. }
  induction gs as [|g [|g' t] IH]; intros H; [constructor| |].
  - inversion H as [|? ? [_ D] _]; subst. now apply G.
  - inversion H as [|? ? [_ D] H']; subst.
    change (grouped (g :: g' :: t)) with (map (N.add 48) g ++ 95 :: grouped (g' :: t)).
    apply Forall_app. split; [now apply G|]. constructor; [lia|auto].
Qed.
Lemma white_chars l : Forall white l -> Forall (fun c => c <> 63) l.
Proof.
  apply Forall_impl. intros c W. unfold white in W. cbn [In] in W. lia.
Qed.
Lemma writes_chars t n z : writes t n z -> Forall (fun c => c <> 63) t.
Proof.
  intros (b & sign & sg & gs & af & -> & Wb & Wa & Ts & Ne & F & _).
  repeat rewrite Forall_app. repeat split; auto using white_chars, grouped_chars.
  destruct Ts; repeat constructor; lia.
Qed.

Lemma int_text_spec s z :
  int_text s = Ok z <->
  exists t n, Forall2 (ascii_of udec uspace) s t /\ writes t n z /\ permitted n.
Proof.
  rewrite int_ascii. split.
  - intros (n & W & P). exists (map to_ascii s), n. split; [|auto].
    pose proof (writes_chars _ _ _ W) as C. clear W P.
    induction s as [|c s IH]; cbn [map] in *; constructor; inversion C; subst; auto.
    now apply ascii_ex.
  - intros (t & n & A & W & P). exists n. replace (map to_ascii s) with t; auto.
    clear W P. induction A; cbn [map]; auto. f_equal; auto. symmetry. now apply ascii_fun.
Qed.

Lemma int_text_err s e : int_text s = Err e -> e = ValueErr.
Proof.
  unfold NumModel.int_text. destruct (take_sign _). destruct (scan_digits _ _ _ _) as [[[n c] r]|].
  - destruct (within _ _ && _); congruence.
  - congruence.
Qed.

Lemma int_of_positional ds : forall acc, forallb is_dig ds = true ->
  int_of (fun _ => None) ds acc
  = acc * 10 ^ N.of_nat (length ds) + positional (map (fun c => c - 48) ds).
Proof.
  induction ds as [|c t IH]; intros acc H; cbn [int_of map length positional]; [cbn; lia|].
  cbn [forallb] in H. apply andb_true_iff in H as [Hc Ht]. rewrite IH by auto.
  assert (E : digit_val (fun _ => None) c = Some (c - 48)).
  { pose proof (dig_cases _ Hc) as B. unfold digit_val.
    destruct (N.ltb_spec c 128); [|lia]. unfold is_dig in Hc. now rewrite Hc. }
  rewrite E, map_length, Nat2N.inj_succ, N.pow_succ_r'. lia.
Qed.

Lemma dig_back ds : forallb is_dig ds = true ->
  map (N.add 48) (map (fun c => c - 48) ds) = ds /\ digs (map (fun c => c - 48) ds).
Proof.
  induction ds as [|c t IH]; cbn [forallb map]; [split; constructor|].
  intros H. apply andb_true_iff in H as [Hc Ht]. destruct (IH Ht) as [E D].
  apply dig_cases in Hc. split; [f_equal; auto; lia|]. constructor; auto. lia.
Qed.

(** [int(str(z))] is [z] *)
Lemma int_str_back z s : int_str lim z = Ok s -> int_text s = Ok z.
Proof.
  unfold int_str. destruct (within _ _) eqn:W; [|discriminate]. intros H. injection H as <-.
  destruct (fmt_int_shape z) as (ds & A & B & K).
  destruct (dig_back ds A) as [E D].
  pose proof (int_of_positional ds 0 A) as P. rewrite N.mul_0_l, N.add_0_l in P.
  set (g := map (fun c => c - 48) ds) in *.
  assert (G : g <> []) by (unfold g; destruct ds; cbn; congruence).
  assert (Asc : forall l, Forall (fun c => c < 127) l -> map to_ascii l = l).
  { intros l F. induction F as [|c l L F IHl]; cbn [map]; auto. f_equal; auto.
    unfold NumModel.to_ascii. apply N.ltb_lt in L. now rewrite L. }
  assert (Fd : Forall (fun c => c < 127) ds).
  { apply Forall_forall. intros x Hx. rewrite forallb_forall in A. apply A, dig_cases in Hx. lia. }
  assert (Lg : length (concat [g]) = length ds).
  { cbn [concat]. rewrite app_nil_r. apply map_length. }
  apply int_ascii. exists (length ds).
  assert (Wf : forall k, k = N.of_nat (length ds) -> within lim k = true -> permitted (length ds)).
  { intros k -> Hk. now apply within_ok. }
  destruct K as [[Ef Ez]|[Ef Ez]]; rewrite Ef in *.
  - split.
    + rewrite Asc by auto. exists [], [], 1%Z, [g], [].
      repeat split; try constructor; try discriminate; auto.
      * cbn [grouped app]. rewrite app_nil_r. auto.
      * cbn [concat]. rewrite app_nil_r, <- P. lia.
    + apply (Wf _ eq_refl). rewrite <- W. f_equal.
      destruct (Z.ltb_spec z 0); lia.
  - split.
    + rewrite Asc by (constructor; auto; lia). exists [], [45], (-1)%Z, [g], [].
      repeat split; try constructor; try discriminate; auto.
      * cbn [grouped app]. rewrite app_nil_r. f_equal; auto.
      * cbn [concat]. rewrite app_nil_r, <- P. lia.
    + destruct (Z.ltb_spec z 0).
      * apply (Wf _ eq_refl). rewrite <- W. f_equal. cbn [length]. lia.
      * (* "-0" is not produced *)
        apply (Wf _ eq_refl). unfold within in *. destruct lim as [k|]; auto.
        apply N.leb_le in W. apply N.leb_le. cbn [length] in W. lia.
Qed.
End Text.
