(** C32: approximate matching of collection items. *)
From Coq Require Import String List ZArith Arith Bool Lia Permutation Sorted.
From Verif Require Import Prelude SeqDiffModel FuzzyModel.
Import ListNotations.

Section Spec.
Context {A : Type}.
Variable aeqb : A -> A -> bool.
Variable afalsy : A -> bool.

(** A key element which says something: no falsy value in it anywhere. *)
Inductive solid : kv A -> Prop :=
| solid_v a : afalsy a = false -> solid (KV a)
| solid_t l : Forall solid l -> solid (KTup l).

(** Two keys share a truthy element (at the same place). *)
Definition shares (x y : pk A) : Prop :=
  exists i u v, nth_error x i = Some u /\ nth_error y i = Some v /\ kveqb aeqb u v = true /\ solid u.

(** What one place contributes to the quality of a match: +1 if equal and truthy, 0 if equal
    but falsy, -1 if different or missing on one side. *)
Inductive place : option (kv A) -> option (kv A) -> Z -> Prop :=
| place_good u v : kveqb aeqb u v = true -> solid u -> place (Some u) (Some v) 1
| place_moot u v : kveqb aeqb u v = true -> ~ solid u -> place (Some u) (Some v) 0
| place_bad u v : kveqb aeqb u v = false -> place (Some u) (Some v) (-1)
| place_left u : place (Some u) None (-1)
| place_right v : place None (Some v) (-1)
| place_none : place None None 0.

(** The quality is the sum over all places. *)
Inductive quality : pk A -> pk A -> Z -> Prop :=
| quality_nil : quality [] [] 0
| quality_cons x y p q : (x <> [] \/ y <> []) -> place (hd_error x) (hd_error y) p ->
    quality (tl x) (tl y) q -> quality x y (p + q).

(** Equality is an equivalence and respects truth. *)
Definition atoms_ok : Prop :=
  (forall x, aeqb x x = true) /\ (forall x y, aeqb x y = true -> aeqb y x = true) /\
  (forall x y z, aeqb x y = true -> aeqb y z = true -> aeqb x z = true) /\
  (forall x y, aeqb x y = true -> afalsy x = afalsy y).

(** The members of a set: pairwise different *)
Definition is_set (l : list (tagged A)) : Prop :=
  NoDup l /\ forall x y, In x l -> In y l -> tgeqb aeqb x y = true -> x = y.

End Spec.

Section Proofs.
Context {A : Type}.
Variable aeqb : A -> A -> bool.
Variable afalsy : A -> bool.
Hypothesis OK : atoms_ok aeqb afalsy.

Notation kveqb := (kveqb aeqb).
Notation pkeqb := (pkeqb aeqb).
Notation tgeqb := (tgeqb aeqb).
Notation nested_falsy := (nested_falsy afalsy).
Notation solid := (solid afalsy).
Notation score := (score aeqb afalsy).
Notation scan := (scan aeqb afalsy).

Lemma kv_ind' (P : kv A -> Prop) : (forall a, P (KV a)) -> (forall l, Forall P l -> P (KTup l)) -> forall x, P x.
Proof.
  intros H1 H2. fix IH 1. intros [a|l]; [apply H1|]. apply H2.
  induction l as [|x l IHl]; constructor; [apply IH|exact IHl].
Qed.

Lemma kveqb_tup u l v m : kveqb (KTup (u :: l)) (KTup (v :: m)) = kveqb u v && kveqb (KTup l) (KTup m).
Proof. reflexivity. Qed.

Lemma kveqb_refl x : kveqb x x = true.
Proof.
  destruct OK as (R&_). induction x as [a|l IH] using kv_ind'; [apply R|].
  induction IH as [|x l Hx IH IHl]; [reflexivity|]. rewrite kveqb_tup, Hx, IHl. reflexivity.
Qed.

Lemma kveqb_sym x : forall y, kveqb x y = true -> kveqb y x = true.
Proof.
  destruct OK as (_&S&_). induction x as [a|l IH] using kv_ind'; intros [b|m]; try discriminate; [apply S|].
  revert m. induction IH as [|x l Hx IH IHl]; intros [|y m]; try (cbn; discriminate); auto; rewrite ?kveqb_tup.
  rewrite !andb_true_iff. intros [H1 H2]. auto.
Qed.

Lemma kveqb_trans x : forall y z, kveqb x y = true -> kveqb y z = true -> kveqb x z = true.
Proof.
  destruct OK as (_&_&T&_). induction x as [a|l IH] using kv_ind'; intros [b|m] [c|n]; try discriminate; [apply T|].
  revert m n. induction IH as [|x l Hx IH IHl]; intros [|y m] [|z n]; try (cbn; discriminate); auto.
  rewrite !kveqb_tup, !andb_true_iff.
  intros [H1 H2] [H3 H4]. split; [eapply Hx; eauto|eapply IHl; eauto].
Qed.

Lemma kveqb_swap x y z w : kveqb x y = true -> kveqb z w = true -> kveqb x z = kveqb y w.
Proof.
  intros H1 H2. destruct (kveqb x z) eqn:E; symmetry.
  - eapply kveqb_trans; [|exact H2]. eapply kveqb_trans; [|exact E]. now apply kveqb_sym.
  - destruct (kveqb y w) eqn:F; auto. rewrite <- E. symmetry.
    eapply kveqb_trans; [exact H1|]. eapply kveqb_trans; [exact F|]. now apply kveqb_sym.
Qed.

Lemma nested_falsy_tup l : nested_falsy (KTup l) = existsb nested_falsy l.
Proof. cbn. induction l as [|x l IH]; [reflexivity|]. cbn. rewrite <- IH. destruct (nested_falsy x); reflexivity. Qed.

Lemma nested_falsy_eq x : forall y, kveqb x y = true -> nested_falsy x = nested_falsy y.
Proof.
  destruct OK as (_&_&_&F). induction x as [a|l IH] using kv_ind'; intros [b|m]; try discriminate; [apply F|].
  rewrite !nested_falsy_tup. revert m. induction IH as [|x l Hx IH IHl]; intros [|y m]; try (cbn; discriminate); auto; rewrite ?kveqb_tup.
  rewrite andb_true_iff. intros [H1 H2]. cbn [existsb]. rewrite (Hx y H1), (IHl m H2). reflexivity.
Qed.

Lemma solid_iff x : solid x <-> nested_falsy x = false.
Proof.
  induction x as [a|l IH] using kv_ind'.
  - split; [intros H; inversion H; auto|intros H; now constructor].
  - rewrite nested_falsy_tup. split.
    + intros H. inversion H; subst. clear H. revert IH H1. induction l as [|x l IHl]; intros IH F; [reflexivity|].
      inversion IH; inversion F; subst. cbn. rewrite (proj1 H1 H5). auto.
    + intros H. constructor. revert IH H. induction l as [|x l IHl]; intros IH F; [constructor|].
      inversion IH; subst. cbn in F. apply orb_false_iff in F as [F1 F2]. constructor; [now apply H1|auto].
Qed.

(** the score *)
Lemma scan_shift x : forall y m n, scan x y m n = (fst (scan x y 0 0) + m, snd (scan x y 0 0) + n).
Proof.
  induction x as [|u x IH]; intros [|v y] m n; cbn [FuzzyModel.scan]; try reflexivity.
  destruct (kveqb u v).
  - destruct (nested_falsy u); [apply IH|]. rewrite (IH y (S m) n), (IH y 1 0). cbn [fst snd]. f_equal; lia.
  - rewrite (IH y m (S n)), (IH y 0 1). cbn [fst snd]. f_equal; lia.
Qed.

Lemma score_cons u x v y : score (u :: x) (v :: y) =
  if kveqb u v then (fst (score x y) + (if nested_falsy u then 0 else 1), snd (score x y))
  else (fst (score x y), S (snd (score x y))).
Proof.
  unfold FuzzyModel.score. cbn [length FuzzyModel.scan Nat.min Nat.max Nat.sub].
  destruct (kveqb u v).
  - rewrite (scan_shift x y (if nested_falsy u then 0 else 1)).
    rewrite (scan_shift x y 0 (Nat.max (length x) (length y) - Nat.min (length x) (length y))). cbn [fst snd].
    destruct (nested_falsy u); f_equal; lia.
  - rewrite (scan_shift x y 0 (S _)).
    rewrite (scan_shift x y 0 (Nat.max (length x) (length y) - Nat.min (length x) (length y))). cbn [fst snd].
    f_equal; lia.
Qed.

Lemma score_eq x : forall x' y y', pkeqb x x' = true -> pkeqb y y' = true -> score x y = score x' y'.
Proof.
  unfold FuzzyModel.pkeqb.
  induction x as [|u x IH]; intros [|u' x'] [|v y] [|v' y']; try (cbn; discriminate); try reflexivity; rewrite ?kveqb_tup; intros H1 H2; try discriminate.
  - apply andb_true_iff in H2 as [H2 H3]. unfold FuzzyModel.score. cbn [length FuzzyModel.scan]. f_equal.
    assert (L : forall l m : list (kv A), kveqb (KTup l) (KTup m) = true -> length l = length m).
    { induction l as [|a l IHl]; intros [|b m]; try (cbn; discriminate); auto; rewrite ?kveqb_tup.
      rewrite andb_true_iff. intros [_ H]. cbn. f_equal. auto. }
    rewrite (L _ _ H3). reflexivity.
  - apply andb_true_iff in H1 as [H1 H3]. unfold FuzzyModel.score. cbn [length FuzzyModel.scan]. f_equal.
    assert (L : forall l m : list (kv A), kveqb (KTup l) (KTup m) = true -> length l = length m).
    { induction l as [|a l IHl]; intros [|b m]; try (cbn; discriminate); auto; rewrite ?kveqb_tup.
      rewrite andb_true_iff. intros [_ H]. cbn. f_equal. auto. }
    rewrite (L _ _ H3). reflexivity.
  - apply andb_true_iff in H1 as [H1 H3], H2 as [H2 H4]. rewrite !score_cons.
    rewrite (kveqb_swap u u' v v'), (nested_falsy_eq u u'), (IH x' y y') by auto. reflexivity.
Qed.

Lemma score_shares x : forall y, fst (score x y) <> 0 <-> shares aeqb afalsy x y.
Proof.
  induction x as [|u x IH]; intros [|v y].
  - split; [cbn; congruence|]. intros (i&a&b&H&_). destruct i; discriminate.
  - split; [cbn; congruence|]. intros (i&a&b&H&_). destruct i; discriminate.
  - split; [cbn; congruence|]. intros (i&a&b&_&H&_). destruct i; discriminate.
  - rewrite score_cons. split.
    + intros H. destruct (kveqb u v) eqn:E; cbn [fst] in H.
      * destruct (nested_falsy u) eqn:F.
        -- rewrite Nat.add_0_r in H. apply IH in H as (i&a&b&H1&H2&H3). exists (S i), a, b. auto.
        -- exists 0, u, v. repeat split; auto. now apply solid_iff.
      * apply IH in H as (i&a&b&H1&H2&H3). exists (S i), a, b. auto.
    + intros (i&a&b&H1&H2&H3&H4). destruct i as [|i].
      * inversion H1; inversion H2; subst. rewrite H3. apply solid_iff in H4. rewrite H4. cbn. lia.
      * cbn in H1, H2. assert (fst (score x y) <> 0) by (apply IH; exists i, a, b; auto).
        destruct (kveqb u v); cbn; lia.
Qed.

Definition w (x y : pk A) : Z := (Z.of_nat (fst (score x y)) - Z.of_nat (snd (score x y)))%Z.

Lemma score_quality x : forall y, quality aeqb afalsy x y (w x y).
Proof.
  assert (Sl : forall l, score l [] = (0, length l)).
  { intros l. unfold FuzzyModel.score. destruct l; cbn [FuzzyModel.scan length]; f_equal; lia. }
  assert (Sr : forall l, score [] l = (0, length l)).
  { intros l. unfold FuzzyModel.score. cbn [FuzzyModel.scan length]; f_equal; lia. }
  assert (Lq : forall l, quality aeqb afalsy l [] (w l [])).
  { induction l as [|u l IH]; [constructor|].
    replace (w (u :: l) []) with (-1 + w l [])%Z.
    - apply quality_cons; [left; discriminate|constructor|exact IH].
    - unfold w. rewrite !Sl. cbn [fst snd length]. lia. }
  assert (Rq : forall l, quality aeqb afalsy [] l (w [] l)).
  { induction l as [|u l IH]; [constructor|].
    replace (w [] (u :: l)) with (-1 + w [] l)%Z.
    - apply quality_cons; [right; discriminate|constructor|exact IH].
    - unfold w. rewrite !Sr. cbn [fst snd length]. lia. }
  induction x as [|u x IH]; intros [|v y]; auto.
  unfold w. rewrite score_cons. destruct (kveqb u v) eqn:E; cbn [fst snd].
  - destruct (nested_falsy u) eqn:F.
    + replace (Z.of_nat _ - _)%Z with (0 + w x y)%Z by (unfold w; lia).
      apply quality_cons; [left; discriminate| |apply IH]. apply place_moot; auto. rewrite solid_iff. congruence.
    + replace (Z.of_nat _ - _)%Z with (1 + w x y)%Z by (unfold w; lia).
      apply quality_cons; [left; discriminate| |apply IH]. apply place_good; auto. now apply solid_iff.
  - replace (Z.of_nat _ - _)%Z with (-1 + w x y)%Z by (unfold w; lia).
    apply quality_cons; [left; discriminate| |apply IH]. now apply place_bad.
Qed.

Lemma place_fun a b p q : place aeqb afalsy a b p -> place aeqb afalsy a b q -> p = q.
Proof. intros H1 H2. inversion H1; subst; inversion H2; subst; auto; try congruence; contradiction. Qed.

Lemma quality_fun x y p : quality aeqb afalsy x y p -> forall q, quality aeqb afalsy x y q -> p = q.
Proof.
  induction 1 as [|x y p q N P Q IH]; intros r H; inversion H; subst; auto.
  - destruct H0; congruence.
  - destruct N; congruence.
  - f_equal; [eapply place_fun; eauto|auto].
Qed.

(** the memo does not matter *)
Definition entry_of (z : tagged A * tagged A) : list (scored A) :=
  let s := score (fst (fst z)) (fst (snd z)) in
  if Nat.eqb (fst s) 0 then [] else [(s, z)].

Lemma collect_spec pairs : forall seen scores,
  (forall x y s, In ((x, y), s) seen -> s = score x y) ->
  collect aeqb afalsy pairs seen scores = scores ++ flat_map entry_of pairs.
Proof.
  induction pairs as [|[x y] t IH]; intros seen scores Hs; cbn [collect flat_map]; [now rewrite app_nil_r|].
  unfold entry_of at 1. cbn [fst snd].
  assert (G : forall x y s, seen_get aeqb seen x y = Some s -> s = score x y).
  { intros a b s. clear IH. revert Hs. induction seen as [|[[u v] r] seen IHs]; intros Hs; cbn [seen_get]; [discriminate|].
    destruct (pkeqb u a && pkeqb v b) eqn:E.
    - intros H. inversion H; subst. rewrite (Hs u v s (or_introl eq_refl)).
      apply andb_true_iff in E as [E1 E2]. now apply score_eq.
    - intros H. apply IHs; auto. intros; apply Hs. now right. }
  destruct (seen_get aeqb seen (fst x) (fst y)) as [[m n]|] eqn:E.
  - apply G in E. rewrite <- E. cbn [fst]. rewrite IH by auto.
    destruct (Nat.eqb m 0); [reflexivity|]. now rewrite <- app_assoc.
  - destruct (score (fst x) (fst y)) as [m n] eqn:S. cbn [fst].
    rewrite IH.
    + destruct (Nat.eqb m 0); [reflexivity|]. now rewrite <- app_assoc.
    + intros a b s [H|H]; [|auto]. inversion H; subst. auto.
Qed.

Lemma insert_perm (s : scored A) l : Permutation (insert s l) (s :: l).
Proof.
  induction l as [|u t IH]; cbn [insert]; [constructor; constructor|].
  destruct (_ <? _)%Z; [reflexivity|]. rewrite IH. constructor.
Qed.
Lemma sorted_rev_perm (l : list (scored A)) : Permutation (sorted_rev l) l.
Proof.
  unfold sorted_rev. rewrite <- (app_nil_r l) at 2. generalize (@nil (scored A)) as acc.
  induction l as [|s l IH]; intros acc; cbn [fold_left app]; [reflexivity|].
  rewrite IH. rewrite insert_perm. symmetry. apply Permutation_middle.
Qed.

Definition better (s t : scored A) : Prop := (weight t <= weight s)%Z.
Lemma insert_sorted s l : StronglySorted better l -> StronglySorted better (insert s l).
Proof.
  induction 1 as [|u t H IH F]; cbn [insert]; [repeat constructor|].
  destruct (weight u <? weight s)%Z eqn:E.
  - apply Z.ltb_lt in E. constructor; [constructor; auto|]. constructor; [unfold better; lia|].
    eapply Forall_impl; [|exact F]. unfold better. intros; lia.
  - apply Z.ltb_ge in E. constructor; auto.
    rewrite Forall_forall in *. intros z Hz. apply (Permutation_in z (insert_perm s t)) in Hz. destruct Hz as [<-|Hz]; auto.
Qed.
Lemma sorted_rev_sorted (l : list (scored A)) : StronglySorted better (sorted_rev l).
Proof.
  unfold sorted_rev. assert (G : forall acc, StronglySorted better acc -> StronglySorted better (fold_left (fun acc s => insert s acc) l acc)).
  { induction l as [|s l IH]; intros acc H; cbn [fold_left]; auto using insert_sorted. }
  apply G. constructor.
Qed.

Section Sets.
Variables SA SB : list (tagged A).
Hypothesis UA : is_set aeqb SA.
Hypothesis UB : is_set aeqb SB.

Lemma tgeqb_refl x : tgeqb x x = true.
Proof. unfold FuzzyModel.tgeqb, teqb. unfold FuzzyModel.pkeqb. now rewrite kveqb_refl, Nat.eqb_refl. Qed.

Lemma tgmem_in S x l : is_set aeqb S -> In x S -> incl l S -> tgmem aeqb x l = true <-> In x l.
Proof.
  intros [_ U] Hx Hl. unfold tgmem. rewrite existsb_exists. split.
  - intros (y&Hy&E). rewrite (U x y); auto.
  - intros H. exists x. split; auto. apply tgeqb_refl.
Qed.
Lemma tgremove_in S x y l : is_set aeqb S -> In x S -> incl l S -> In y (tgremove aeqb x l) <-> In y l /\ y <> x.
Proof.
  intros [_ U] Hx Hl. unfold tgremove. rewrite filter_In, negb_true_iff. split.
  - intros [H E]. split; auto. intros ->. rewrite tgeqb_refl in E. discriminate.
  - intros [H N]. split; auto. destruct (tgeqb x y) eqn:E; auto. exfalso. apply N. symmetry. apply U; auto.
Qed.
Lemma tgremove_incl x l S : incl l S -> incl (tgremove aeqb x l) S.
Proof. intros H y Hy. apply filter_In in Hy. apply H, Hy. Qed.

Definition from_sets (l : list (scored A)) : Prop := forall s x y, In (s, (x, y)) l -> In x SA /\ In y SB.

Lemma pick_in l : forall ra rb x y, from_sets l -> incl ra SA -> incl rb SB -> In (x, y) (pick aeqb l ra rb) ->
  In x ra /\ In y rb /\ exists s, In (s, (x, y)) l.
Proof.
  induction l as [|[s [x0 y0]] t IH]; intros ra rb x y Hf Ha Hb; cbn [pick]; [intros []|].
  assert (Hf' : from_sets t) by (intros s' a b H; eapply Hf; right; eauto).
  destruct (Hf s x0 y0 (or_introl eq_refl)) as [Fx Fy].
  destruct (tgmem aeqb x0 ra && tgmem aeqb y0 rb) eqn:E.
  - apply andb_true_iff in E as [E1 E2]. apply (tgmem_in SA x0 ra UA Fx Ha) in E1. apply (tgmem_in SB y0 rb UB Fy Hb) in E2.
    intros H. apply in_app_or in H as [[H|[]]|H].
    + inversion H; subst. repeat split; auto. exists s. now left.
    + assert (H' : In (x, y) (pick aeqb t (tgremove aeqb x0 ra) (tgremove aeqb y0 rb))).
      { destruct (tgremove aeqb x0 ra), (tgremove aeqb y0 rb); auto; destruct H. }
      apply IH in H' as (A1&A2&s'&A3); auto using tgremove_incl.
      apply filter_In in A1 as [A1 _], A2 as [A2 _]. repeat split; auto. exists s'. now right.
  - intros H. cbn [app] in H.
    assert (H' : In (x, y) (pick aeqb t ra rb)) by (destruct ra, rb; auto; destruct H).
    apply IH in H' as (A1&A2&s'&A3); auto. repeat split; auto. exists s'. now right.
Qed.

Lemma pick_once l : forall ra rb, from_sets l -> incl ra SA -> incl rb SB ->
  NoDup (map fst (pick aeqb l ra rb)) /\ NoDup (map snd (pick aeqb l ra rb)).
Proof.
  induction l as [|[s [x0 y0]] t IH]; intros ra rb Hf Ha Hb; cbn [pick]; [split; constructor|].
  assert (Hf' : from_sets t) by (intros s' a b H; eapply Hf; right; eauto).
  destruct (Hf s x0 y0 (or_introl eq_refl)) as [Fx Fy].
  destruct (tgmem aeqb x0 ra && tgmem aeqb y0 rb) eqn:E.
  - set (r := match tgremove aeqb x0 ra with [] => _ | _ => _ end).
    assert (Hr : r = [] \/ r = pick aeqb t (tgremove aeqb x0 ra) (tgremove aeqb y0 rb)).
    { unfold r. destruct (tgremove aeqb x0 ra), (tgremove aeqb y0 rb); auto. }
    cbn [app map fst snd]. destruct Hr as [-> | ->]; [split; repeat constructor; intros []|].
    destruct (IH (tgremove aeqb x0 ra) (tgremove aeqb y0 rb)) as [I1 I2]; auto using tgremove_incl.
    split; constructor; auto; intros C; apply in_map_iff in C as ([a b]&Ec&C); cbn in Ec; subst;
      apply pick_in in C as (C1&C2&_); auto using tgremove_incl.
    + apply (tgremove_in SA) in C1; auto. tauto.
    + apply (tgremove_in SB) in C2; auto. tauto.
  - cbn [app]. destruct ra, rb; try (split; constructor). apply IH; auto.
Qed.

Lemma pick_best l : forall ra rb, from_sets l -> incl ra SA -> incl rb SB -> StronglySorted better l ->
  forall s x y, In (s, (x, y)) l -> In x ra -> In y rb ->
  exists s' x' y', In (x', y') (pick aeqb l ra rb) /\ In (s', (x', y')) l /\ (x' = x \/ y' = y) /\
    (weight (s, (x, y)) <= weight (s', (x', y')))%Z.
Proof.
  induction l as [|[s0 [x0 y0]] t IH]; intros ra rb Hf Ha Hb So s x y Hin Hx Hy; [destruct Hin|].
  assert (Hf' : from_sets t) by (intros s' a b H; eapply Hf; right; eauto).
  destruct (Hf s0 x0 y0 (or_introl eq_refl)) as [Fx Fy].
  inversion So as [|? ? So' Fo]; subst.
  assert (Wh : (weight (s, (x, y)) <= weight (s0, (x0, y0)))%Z).
  { destruct Hin as [H|H]; [inversion H; subst; lia|]. rewrite Forall_forall in Fo. apply Fo in H. exact H. }
  cbn [pick].
  destruct (tgmem aeqb x0 ra && tgmem aeqb y0 rb) eqn:E.
  - pose proof E as E0. apply andb_true_iff in E0 as [E1 E2]. apply (tgmem_in SA x0 ra UA Fx Ha) in E1. apply (tgmem_in SB y0 rb UB Fy Hb) in E2.
    assert (Dx : x0 = x \/ x0 <> x) by (destruct (tgeqb x0 x) eqn:Q; [left; apply (proj2 UA); auto|right; intros ->; rewrite tgeqb_refl in Q; discriminate]).
    assert (Dy : y0 = y \/ y0 <> y) by (destruct (tgeqb y0 y) eqn:Q; [left; apply (proj2 UB); auto|right; intros ->; rewrite tgeqb_refl in Q; discriminate]).
    destruct Dx as [Dx|Dx]; [exists s0, x0, y0; cbn [In app]; repeat split; auto|].
    destruct Dy as [Dy|Dy]; [exists s0, x0, y0; cbn [In app]; repeat split; auto|].
    assert (Hx' : In x (tgremove aeqb x0 ra)) by (apply (tgremove_in SA); auto).
    assert (Hy' : In y (tgremove aeqb y0 rb)) by (apply (tgremove_in SB); auto).
    destruct Hin as [Hin|Hin]; [inversion Hin; congruence|].
    destruct (IH (tgremove aeqb x0 ra) (tgremove aeqb y0 rb) Hf' (tgremove_incl x0 ra SA Ha) (tgremove_incl y0 rb SB Hb) So' s x y Hin Hx' Hy')
      as (s'&x'&y'&P1&P2&P3&P4).
    exists s', x', y'. repeat split; auto; [|now right].
    cbn [app]. right. destruct (tgremove aeqb x0 ra); [destruct Hx'|]. destruct (tgremove aeqb y0 rb); [destruct Hy'|]. exact P1.
  - destruct Hin as [Hin|Hin].
    { inversion Hin; subst. rewrite (proj2 (tgmem_in SA x ra UA Fx Ha) Hx), (proj2 (tgmem_in SB y rb UB Fy Hb) Hy) in E. discriminate. }
    destruct (IH ra rb Hf' Ha Hb So' s x y Hin Hx Hy) as (s'&x'&y'&P1&P2&P3&P4).
    exists s', x', y'. repeat split; auto; [|now right].
    cbn [app]. destruct ra; [destruct Hx|]. destruct rb; [destruct Hy|]. exact P1.
Qed.

Notation fm := (fuzzy_match aeqb afalsy SA SB).
Notation all := (sorted_rev (collect aeqb afalsy (list_prod SA SB) [] [])).

Lemma all_in s x y : In (s, (x, y)) all <-> In x SA /\ In y SB /\ s = score (fst x) (fst y) /\ shares aeqb afalsy (fst x) (fst y).
Proof.
  rewrite collect_spec by (intros ? ? ? []). cbn [app].
  split.
  - intros H. apply (Permutation_in _ (sorted_rev_perm _)) in H. apply in_flat_map in H as ([a b]&H1&H2).
    apply in_prod_iff in H1. unfold entry_of in H2. destruct (Nat.eqb _ 0) eqn:E; [destruct H2|]. destruct H2 as [H2|[]].
    inversion H2; subst. cbn [fst snd]. apply Nat.eqb_neq in E. cbn [fst snd] in E. rewrite <- score_shares. tauto.
  - intros (H1&H2&->&H3). apply (Permutation_in _ (Permutation_sym (sorted_rev_perm _))). apply in_flat_map.
    exists (x, y). split; [apply in_prod_iff; auto|]. unfold entry_of. cbn [fst snd]. apply score_shares in H3.
    apply Nat.eqb_neq in H3. rewrite H3. now left.
Qed.

Lemma all_from : from_sets all.
Proof. intros s x y H. apply all_in in H. tauto. Qed.

(** Only items of the two sets are paired, and only if their keys share a truthy element. *)
Theorem C32_pairs_share : forall x y, In (x, y) fm -> In x SA /\ In y SB /\ shares aeqb afalsy (fst x) (fst y).
Proof.
  intros x y H. apply pick_in in H as (_&_&s&H); auto using all_from, incl_refl. apply all_in in H. tauto.
Qed.

(** Every item is paired at most once. *)
Theorem C32_each_once : NoDup (map fst fm) /\ NoDup (map snd fm).
Proof. apply pick_once; auto using all_from, incl_refl. Qed.

(** Best first: if two items share a truthy key element and are not paired with each other,
    then one of them is paired with another item in a match at least as good. *)
Theorem C32_best_first : forall x y q, In x SA -> In y SB -> shares aeqb afalsy (fst x) (fst y) ->
  quality aeqb afalsy (fst x) (fst y) q ->
  exists x' y' q', In (x', y') fm /\ (x' = x \/ y' = y) /\ quality aeqb afalsy (fst x') (fst y') q' /\ (q <= q')%Z.
Proof.
  intros x y q Hx Hy Hs Hq.
  destruct (pick_best all SA SB all_from (incl_refl _) (incl_refl _) (sorted_rev_sorted _) (score (fst x) (fst y)) x y) as (s'&x'&y'&P1&P2&P3&P4); auto.
  { apply all_in. auto. }
  exists x', y', (w (fst x') (fst y')). apply all_in in P2 as (_&_&->&_). repeat split; auto; [apply score_quality|].
  rewrite (quality_fun _ _ _ Hq _ (score_quality _ _)). exact P4.
Qed.

(** Hence no two unpaired items share a truthy key element. *)
Theorem C32_maximal : forall x y, In x SA -> In y SB -> shares aeqb afalsy (fst x) (fst y) ->
  In x (map fst fm) \/ In y (map snd fm).
Proof.
  intros x y Hx Hy Hs.
  destruct (C32_best_first x y _ Hx Hy Hs (score_quality _ _)) as (x'&y'&q&H&[-> | ->]&_).
  - left. apply in_map_iff. exists (x, y'). auto.
  - right. apply in_map_iff. exists (x', y). auto.
Qed.

End Sets.
End Proofs.

(** *** Example: numbers, of which 0 is falsy *)
Local Open Scope Z_scope.
Definition ex_k (l : list Z) : tagged Z := (map KV l, 0%nat).
Definition ex_A := [ex_k [1; 2; 3]; ex_k [7; 2; 9]; ex_k [0; 0; 0]].
Definition ex_B := [ex_k [1; 5; 6]; ex_k [1; 2; 4]; ex_k [0; 0; 8]].
Example C32_case : atoms_ok Z.eqb (fun x => x =? 0) /\ is_set Z.eqb ex_A /\ is_set Z.eqb ex_B /\
  fuzzy_match Z.eqb (fun x => x =? 0) ex_A ex_B = [(ex_k [1; 2; 3], ex_k [1; 2; 4])] /\
  shares Z.eqb (fun x => x =? 0) (fst (ex_k [7; 2; 9])) (fst (ex_k [1; 2; 4])) /\
  quality Z.eqb (fun x => x =? 0) (fst (ex_k [7; 2; 9])) (fst (ex_k [1; 2; 4])) (-1).
Proof.
  split. { split; [apply Z.eqb_refl|]. split; [intros x y; rewrite !Z.eqb_eq; congruence|]. split; intros x y; [intros z|]; rewrite !Z.eqb_eq; congruence. }
  split. { split. { repeat constructor; cbn; intuition discriminate. } intros x y Hx Hy. cbn in Hx, Hy. intuition; subst; auto; discriminate. }
  split. { split. { repeat constructor; cbn; intuition discriminate. } intros x y Hx Hy. cbn in Hx, Hy. intuition; subst; auto; discriminate. }
  split; [reflexivity|]. split.
  - exists 1%nat, (KV 2), (KV 2). repeat split. now constructor.
  - replace (-1) with (-1 + (1 + (-1 + 0))) by reflexivity.
    repeat (apply quality_cons; [left; discriminate| |]); try constructor; try reflexivity. now constructor.
Qed.

Print Assumptions C32_pairs_share.
Print Assumptions C32_each_once.
Print Assumptions C32_best_first.
Print Assumptions C32_maximal.
