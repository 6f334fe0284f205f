From Coq Require Import List Arith NArith ZArith Bool Lia.
From Verif Require Import Prelude Regex RegexCost SelPathModel SelPathProofs.
Import ListNotations.

Lemma spans_repeat p x n : p x = true ->
  spans p (repeat x n) = map (repeat x) (seq 0 (S n)).
Proof.
  intros H. induction n as [|n IH]; [reflexivity|].
  cbn [repeat spans]. rewrite H, IH.
  rewrite (seq_S (S n) 0), map_app. reflexivity.
Qed.

Lemma pow2_sum n : S (sum (map (Nat.pow 2) (seq 0 n))) = 2 ^ n.
Proof.
  induction n as [|n IH]; [reflexivity|].
  rewrite seq_S, map_app, sum_app. cbn [map sum fold_right plus]. unfold sum in *.
  rewrite Nat.pow_succ_r'. cbn [Nat.add]. lia.
Qed.

Lemma length_flat_map {A B} (f : A -> list B) l :
  length (flat_map f l) = sum (map (fun x => length (f x)) l).
Proof. induction l; simpl; auto. rewrite app_length, IHl. reflexivity. Qed.

Lemma key_rests_repeat x : x <> 39%N -> forall f n, n <= f ->
  length (key_rests f (repeat x n)) = 2 ^ n.
Proof.
  intros Hx. assert (Hq : notq x = true).
  { unfold notq. apply negb_true_iff. now apply N.eqb_neq. }
  induction f as [|f IH]; intros n Hn.
  - replace n with 0 by lia. reflexivity.
  - cbn [key_rests]. rewrite app_length. cbn [length].
    destruct n as [|n].
    { reflexivity. }
    assert (Hb : body_rests (repeat x (S n)) = map (repeat x) (seq 0 (S n))).
    { unfold body_rests. cbn [repeat spans1]. rewrite Hq, spans_repeat by auto.
      destruct n as [|n]; cbn [repeat]; [now rewrite app_nil_r|].
      replace (N.eqb 39 x) with false by (symmetry; apply N.eqb_neq; congruence).
      rewrite andb_false_r. now rewrite app_nil_r. }
    rewrite Hb, flat_map_map, length_flat_map, <- (pow2_sum (S n)), Nat.add_1_r. f_equal.
    f_equal. apply map_ext_in. intros k Hk. apply in_seq in Hk.
    rewrite !repeat_length.
    replace (Nat.ltb k (S n)) with true by (symmetry; apply Nat.ltb_lt; lia).
    apply IH. lia.
Qed.

Lemma run_key_repeat x c n : x <> 39%N -> length (run key_re c (repeat x n)) = 2 ^ n.
Proof.
  intros H. rewrite run_key, map_length, repeat_length. now apply key_rests_repeat.
Qed.

Lemma key_end_noq x : forall n b, x <> 39%N -> key_end b (repeat x n) = None.
Proof.
  induction n as [|n IH]; intros b H; [reflexivity|].
  cbn [repeat key_end]. replace (N.eqb x 39) with false by (symmetry; now apply N.eqb_neq).
  auto.
Qed.

Section Unicode.
  Variable uword : char -> bool.
  Variable udigit : char -> option N.

  Lemma orelse_ge1 {X} (a b : option X * nat) : fst a = None -> snd b <= snd (orelse a b).
  Proof. intros H. unfold orelse. rewrite H. cbn. lia. Qed.

  Lemma path_cost x n : x <> 39%N ->
    re_match (path_tok uword udigit) (91 :: 39 :: repeat x n)%N = None /\
    2 ^ n <= snd (match_cost (path_tok uword udigit) (91 :: 39 :: repeat x n)%N).
  Proof.
    intros H.
    assert (Hn : re_match (path_tok uword udigit) (91 :: 39 :: repeat x n)%N = None).
    { unfold re_match, path_tok. rewrite run_alt_r by (apply run_attr_no; discriminate).
      rewrite run_key_bracket, key_end_noq; auto. }
    split; [exact Hn|].
    assert (Hkey : forall c (k : kont (X := caps * str)),
               (forall c t, fst (k c t) = None) -> (forall c t, 1 <= snd (k c t)) ->
               2 ^ n <= snd (mt key_re c (repeat x n) k)).
    { intros c k H1 H2. rewrite <- (run_key_repeat x c n H). now apply mt_cost. }
    assert (Hlit : forall y c t (k : kont (X := caps * str)), 1 <= snd (mt (lit y) c t k)).
    { intros y c t k. unfold lit. cbn [mt]. destruct t; [cbn; lia|].
      destruct (N.eqb y n0); cbn; lia. }
    (* the closing quote is never found *)
    unfold match_cost, path_tok.
    set (k0 := fun (c : caps) (s' : str) => (Some (c, s'), 1)).
    assert (Hattr : fst (mt (attr_re uword) [] (91 :: 39 :: repeat x n)%N k0) = None) by reflexivity.
    change (mt (RAlt ?a ?b) ?c ?s ?k) with (orelse (mt a c s k) (mt b c s k)).
    eapply Nat.le_trans; [|apply orelse_ge1; exact Hattr].
    unfold bracket_re.
    change (mt (RSeq (lit 91%N) ?r) [] (91%N :: ?t) k0) with
      (fst (mt r [] t k0), S (snd (mt r [] t k0))). cbn [snd].
    match goal with |- _ <= S ?y => enough (2 ^ n <= y) by lia end.
    change (mt (RSeq ?a ?b) ?c ?s ?k) with (mt a c s (fun c' s' => mt b c' s' k)).
    set (k1 := fun c' s' => mt (lit 93%N) c' s' k0).
    change (mt (RAlt ?a ?b) ?c ?s k1) with (orelse (mt a c s k1) (mt b c s k1)) at 1.
    eapply Nat.le_trans; [|apply orelse_ge1; reflexivity].
    change (mt (RAlt ?a ?b) ?c ?s k1) with (orelse (mt a c s k1) (mt b c s k1)) at 1.
    eapply Nat.le_trans; [|apply orelse_ge1; reflexivity].
    change (mt (RSeq (lit 39%N) ?r) [] (39%N :: ?t) k1) with
      (fst (mt r [] t k1), S (snd (mt r [] t k1))). cbn [snd].
    match goal with |- _ <= S ?y => enough (2 ^ n <= y) by lia end.
    change (mt (RSeq ?a ?b) ?c ?s ?k) with (mt a c s (fun c' s' => mt b c' s' k)).
    change (mt (RGrp ?g ?a) ?c ?s ?k) with
      (mt a c s (fun c' s' => k ((g, firstn (length s - length s') s) :: c') s')).
    set (k2 := fun c' s' => _).
    (* [k2] only fails on suffixes of the text; compare with one that always fails *)
    destruct (mt_tries key_re [] (repeat x n) k2) as [_ Ht].
    rewrite <- (run_key_repeat x [] n H).
    assert (Hr : forall y, In y (run key_re [] (repeat x n)) -> exists m, snd y = repeat x m).
    { intros y Hy. rewrite run_key in Hy. apply in_map_iff in Hy as [w [<- Hw]]. cbn [snd].
      revert Hw. generalize (length (repeat x n)) as f. intros f.
      clear - H. revert n. induction f as [|f IH]; intros n Hw.
      - destruct Hw as [<-|[]]. now exists n.
      - cbn [key_rests] in Hw. apply in_app_or in Hw. destruct Hw as [Hw|[<-|[]]]; [|now exists n].
        apply in_flat_map in Hw as [v [Hv Hw]].
        destruct (Nat.ltb (length v) (length (repeat x n))); [|destruct Hw].
        assert (exists m, v = repeat x m) as [m ->]; [|eauto].
        unfold body_rests in Hv. apply in_app_or in Hv. destruct Hv as [Hv|Hv].
        + destruct n as [|n]; [destruct Hv|]. cbn [repeat spans1] in Hv.
          assert (Hq : notq x = true) by (unfold notq; apply negb_true_iff; now apply N.eqb_neq).
          rewrite Hq, spans_repeat in Hv by auto.
          apply in_map_iff in Hv as [m [<- _]]. eauto.
        + destruct n as [|[|n]]; cbn [repeat] in Hv; try destruct Hv.
          replace (N.eqb 39 x) with false in Hv by (symmetry; apply N.eqb_neq; congruence).
          rewrite andb_false_r in Hv. destruct Hv. }
    assert (Hk2 : forall c m, fst (k2 c (repeat x m)) = None /\ 1 <= snd (k2 c (repeat x m))).
    { intros c m. split; [|apply Hlit]. unfold k2, lit. cbn [mt].
      destruct m as [|m]; [reflexivity|]. cbn [repeat].
      replace (N.eqb 39 x) with false by (symmetry; apply N.eqb_neq; congruence). reflexivity. }
    assert (E : fst (mt key_re [] (repeat x n) k2) = None).
    { destruct (mt_tries key_re [] (repeat x n) k2) as [-> _].
      revert Hr Hk2. clear. generalize (run key_re [] (repeat x n)). intros l.
      induction l as [|y l IH]; intros Hr Hk2; [reflexivity|]. cbn [firstm].
      destruct (Hr y (or_introl eq_refl)) as [m Hm]. rewrite Hm.
      destruct (Hk2 (fst y) m) as [-> _]. apply IH; auto. intros z Hz. apply Hr. simpl; auto. }
    specialize (Ht E). eapply Nat.le_trans; [|exact Ht].
    revert Hr Hk2. clear. generalize (run key_re [] (repeat x n)). intros l.
    induction l as [|y l IH]; intros Hr Hk2; [reflexivity|].
    cbn [length map sum fold_right].
    destruct (Hr y (or_introl eq_refl)) as [m Hm]. rewrite Hm.
    destruct (Hk2 (fst y) m) as [_ H2].
    specialize (IH (fun z Hz => Hr z (or_intror Hz)) Hk2). unfold sum in IH. lia.
  Qed.
End Unicode.
