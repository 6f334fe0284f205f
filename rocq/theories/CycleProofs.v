From Coq Require Import List Arith Bool Lia ListDec.
From Verif Require Import Prelude CycleModel CycleSpec.
Import ListNotations.

Section Paths.
Variable R : nat -> nat -> Prop.
Notation by_way := (by_way R).

Lemma by_way_app x l y m z : by_way x l y -> by_way y m z -> by_way x (l ++ m) z.
Proof. induction 1; cbn; auto. intros H1. econstructor; eauto. Qed.
Lemma by_way_split x l m z : by_way x (l ++ m) z -> exists y, by_way x l y /\ by_way y m z.
Proof.
  revert x. induction l as [|a l IH]; intros x H; cbn in H; [exists x; split; [constructor|auto]|].
  inversion H; subst. destruct (IH _ H5) as (y & H1 & H2). exists y. split; auto. econstructor; eauto.
Qed.
Lemma by_way_head x a l z : by_way x (a :: l) z -> x = a.
Proof. now inversion 1. Qed.
Lemma reaches_step x y z : R x y -> reaches R y z -> reaches R x z.
Proof. intros H (l & B). exists (x :: l). econstructor; eauto. Qed.
Lemma reaches_trans x y z : reaches R x y -> reaches R y z -> reaches R x z.
Proof. intros (l & B) (m & C). exists (l ++ m). eapply by_way_app; eauto. Qed.
Lemma deep_S n x : deep R (S n) x <-> exists y, R x y /\ deep R n y.
Proof.
  split.
  - intros (l & y & B & L). destruct B; [discriminate L|]. exists z. split; auto. exists l, y. auto.
  - intros (y & H & l & z & B & L). exists (x :: l), z. split; [econstructor; eauto|cbn; auto].
Qed.
Lemma deep_less n m x : m <= n -> deep R n x -> deep R m x.
Proof.
  intros Le (l & y & B & L). rewrite <- (firstn_skipn m l) in B. destruct (by_way_split _ _ _ _ B) as (z & B1 & _).
  exists (firstn m l), z. split; auto. apply firstn_length_le. lia.
Qed.

Lemma not_NoDup (l : list nat) : ~ NoDup l -> exists a l1 l2 l3, l = l1 ++ a :: l2 ++ a :: l3.
Proof.
  induction l as [|x l IH]; intros N; [destruct N; constructor|].
  destruct (in_dec Nat.eq_dec x l) as [I|I].
  - apply in_split in I as (l2 & l3 & ->). now exists x, [], l2, l3.
  - destruct IH as (a & l1 & l2 & l3 & ->); [intros N2; apply N; now constructor|]. now exists a, (x :: l1), l2, l3.
Qed.
(** A list with more members than there are numbers has one twice. *)
Lemma twice (l : list nat) b : (forall x, In x l -> x < b) -> b < length l -> exists a l1 l2 l3, l = l1 ++ a :: l2 ++ a :: l3.
Proof.
  intros H1 H2. apply not_NoDup. intros N.
  assert (I : incl l (seq 0 b)) by (intros x I; apply in_seq; specialize (H1 x I); lia).
  apply (NoDup_incl_length N) in I. rewrite seq_length in I. lia.
Qed.
Lemma repeated x l y a l1 l2 l3 : by_way x l y -> l = l1 ++ a :: l2 ++ a :: l3 -> reaches R x a /\ by_way a (a :: l2) a.
Proof.
  intros B ->. destruct (by_way_split _ _ _ _ B) as (z & B1 & B2). pose proof (by_way_head _ _ _ _ B2) as ->.
  change (a :: l2 ++ a :: l3) with ((a :: l2) ++ a :: l3) in B2. destruct (by_way_split _ _ _ _ B2) as (w & B3 & B4).
  pose proof (by_way_head _ _ _ _ B4) as ->. split; [now exists l1|exact B3].
Qed.
Lemma simple x l y : by_way x l y -> exists m, by_way x m y /\ NoDup m.
Proof.
  remember (length l) as n. revert l Heqn. induction n as [n IH] using lt_wf_ind. intros l -> B.
  destruct (NoDup_dec Nat.eq_dec l) as [N|N]; [now exists l|].
  destruct (not_NoDup l N) as (a & l1 & l2 & l3 & ->).
  destruct (by_way_split _ _ _ _ B) as (z & B1 & B2). pose proof (by_way_head _ _ _ _ B2) as ->.
  change (a :: l2 ++ a :: l3) with ((a :: l2) ++ a :: l3) in B2. destruct (by_way_split _ _ _ _ B2) as (w & B3 & B4).
  pose proof (by_way_head _ _ _ _ B4) as ->.
  apply (IH (length (l1 ++ a :: l3))) with (l := l1 ++ a :: l3); auto.
  - rewrite !app_length. cbn. rewrite app_length. cbn. lia.
  - eapply by_way_app; eauto.
Qed.
Lemma cycle_deep y l n : l <> [] -> by_way y l y -> deep R n y.
Proof.
  intros Ne B.
  assert (H : exists m, by_way y m y /\ n <= length m).
  { induction n as [|n (m & IH & Le)]; [exists []; split; [constructor|apply Nat.le_0_l]|].
    exists (l ++ m). split; [eapply by_way_app; eauto|]. rewrite app_length. destruct l; [contradiction|cbn; lia]. }
  destruct H as (m & Bm & Le). apply (deep_less (length m)); auto. now exists m, y.
Qed.
Lemma deep_reach x y n : reaches R x y -> deep R n y -> deep R n x.
Proof.
  intros (l & B) (m & z & C & L). apply (deep_less (length (l ++ m))); [rewrite app_length; lia|].
  exists (l ++ m), z. split; auto. eapply by_way_app; eauto.
Qed.
(** Where only finitely many objects refer to anything *)
Theorem deep_iff_cyclic b x : (forall x y, R x y -> x < b) -> deep R (S b) x <-> cyclic R x.
Proof.
  intros Hb. split.
  - intros (l & y & B & L).
    assert (H : forall z, In z l -> z < b).
    { clear L. induction B; intros w I; [destruct I|destruct I as [<-|I]; eauto]. }
    destruct (twice l b H) as (a & l1 & l2 & l3 & E); [lia|]. destruct (repeated x l y a l1 l2 l3 B E) as (H1 & H2).
    exists a, (a :: l2). split; auto. split; auto. discriminate.
  - intros (y & l & H1 & Ne & B). eapply deep_reach; eauto. eapply cycle_deep; eauto.
Qed.
Corollary always_deep b x : (forall x y, R x y -> x < b) -> (forall n, deep R n x) <-> cyclic R x.
Proof.
  intros Hb. split; intros H; [now apply (deep_iff_cyclic b)|]. destruct H as (y & l & H1 & Ne & B). intros n. eapply deep_reach; eauto. eapply cycle_deep; eauto.
Qed.
End Paths.

Section Graphs.
Context {A : Type}.
Variable atom_eq : A -> A -> bool.
Variable classes : nat -> cls.
Variable heap : list (node A).
Notation refers := (refers classes heap).
Notation parts := (parts classes).
Notation walk := (walk classes heap).
Notation print := (print classes heap).
Notation equal := (equal atom_eq classes heap).

Lemma refers_bound P x y : refers P x y -> x < length heap.
Proof. intros H. apply nth_error_Some. destruct H; congruence. Qed.

Lemma set_slots_in (ps : list prop) (s : list (nat * val A)) k v :
  In (k, v) (set_slots ps s) <-> exists p, In p ps /\ p_name p = k /\ slot s k = Some v.
Proof.
  induction ps as [|p ps IH]; cbn; [split; [intros []|intros (p & [] & _)]|].
  destruct (slot s (p_name p)) as [w|] eqn:E; cbn; rewrite IH; split.
  - intros [Z|(q & H)]; [injection Z as <- <-; exists p; auto|exists q; tauto].
  - intros (q & [->|I] & <- & H); [left; congruence|right; exists q; auto].
  - intros (q & H). exists q; tauto.
  - intros (q & [->|I] & <- & H); [congruence|exists q; auto].
Qed.
Lemma number_in (l : list (val A)) v : In v l <-> exists k, In (k, v) (number l).
Proof.
  unfold number. generalize 0. induction l as [|w l IH]; intros s; cbn; [split; [intros []|intros (k & [])]|]. split.
  - intros [->|I]; [exists s; auto|]. apply (IH (S s)) in I as (k & I). exists k. auto.
  - intros (k & [Z|I]); [injection Z as _ ->; auto|right; apply (IH (S s)); eauto].
Qed.
(** What is followed *)
Lemma parts_refers sel (P : cls -> prop -> Prop) x nd y : (forall c p, In p (sel c) <-> In p (c_props c) /\ P c p) ->
  nth_error heap x = Some nd -> (exists k, In (k, VR y) (parts sel nd)) <-> refers P x y.
Proof.
  intros HP E. destruct nd as [c s|c l|c l]; cbn.
  - split.
    + intros (k & I). apply set_slots_in in I as (p & I & <- & Es). apply HP in I as [I1 I2]. eapply by_slot; eauto.
    + intros H. inversion H as [c' s' p E' I1 I2 Es|c' l E' I|c' l k E' I]; rewrite E in E'; try discriminate E'. injection E' as <- <-.
      exists (p_name p). apply set_slots_in. exists p. split; [apply HP; auto|auto].
  - rewrite <- number_in. split; [intros I; eapply by_item; eauto|].
    intros H. inversion H as [c' s' p E' I1 I2 Es|c' m E' I|c' m k E' I]; rewrite E in E'; try discriminate E'. injection E' as <- <-. auto.
  - split; [intros (k & I); eapply by_key; eauto|].
    intros H. inversion H as [c' s' p E' I1 I2 Es|c' m E' I|c' m k E' I]; rewrite E in E'; try discriminate E'. injection E' as <- <-. eauto.
Qed.

Lemma each_none (f : val A -> option (tree A)) l : each f l = None <-> exists k v, In (k, v) l /\ f v = None.
Proof.
  induction l as [|[k v] l IH]; cbn; [split; [discriminate|intros (k & v & [] & _)]|].
  destruct (f v) eqn:E.
  - destruct (each f l) eqn:E2.
    + split; [discriminate|]. intros (j & w & [Z|I] & H); [injection Z as <- <-; congruence|]. assert (Z : Some l0 = None) by (apply IH; eauto). discriminate Z.
    + split; auto. intros _. destruct (proj1 IH eq_refl) as (j & w & I & H). eauto.
  - split; auto. intros _. exists k, v. auto.
Qed.

Lemma walk_none sel P n x : (forall c p, In p (sel c) <-> In p (c_props c) /\ P c p) ->
  walk sel n (VR x) = None <-> deep (refers P) n x.
Proof.
  intros HP. revert x. induction n as [|n IH]; intros x; cbn.
  - split; auto. intros _. exists [], x. split; [constructor|auto].
  - rewrite deep_S. destruct (nth_error heap x) as [nd|] eqn:E.
    + transitivity (each (walk sel n) (parts sel nd) = None).
      { destruct (each _ _); cbn; split; congruence. }
      rewrite each_none. split.
      * intros (k & v & I & H). destruct v as [a|y]; [destruct n; discriminate H|]. exists y. split; [|now apply IH].
        eapply parts_refers; eauto.
      * intros (y & H & D). apply (parts_refers sel P x nd y HP E) in H as (k & I). exists k, (VR y). split; auto. now apply IH.
    + split; [discriminate|]. intros (y & H & _). apply refers_bound in H. apply nth_error_None in E. lia.
Qed.

Lemma json_sel e c p : In p (json_props e c) <-> In p (c_props c) /\ json_prop e c p.
Proof.
  unfold json_props, json_prop. rewrite filter_In, andb_true_iff, orb_true_iff, negb_true_iff. tauto.
Qed.
Lemma key_sel c p : In p (key_props c) <-> In p (c_props c) /\ key_prop c p.
Proof.
  unfold key_props, key_prop. destruct (c_key c) as [|k ks].
  - rewrite filter_In, negb_true_iff. split; [tauto|]. intros (H1 & [H2|(H2 & _)]); [tauto|now destruct H2].
  - rewrite filter_In, existsb_exists. split.
    + intros (H1 & q & I & E). apply Nat.eqb_eq in E as <-. split; auto. right. split; auto. discriminate.
    + intros (H1 & [(Z & _)|(_ & I)]); [discriminate Z|]. split; auto. exists (p_name p). split; auto. apply Nat.eqb_refl.
Qed.
Lemma eq_sel c p : In p (eq_props c) <-> In p (c_props c) /\ compared_prop c p.
Proof. unfold eq_props, compared_prop. now rewrite filter_In, negb_true_iff. Qed.
Lemma all_sel c p : In p (all_props c) <-> In p (c_props c) /\ any_prop c p.
Proof. unfold all_props, any_prop. tauto. Qed.

(** Printing *)
Definition isd (x : nat) : bool := match nth_error heap x with Some (Dct _ _) => true | _ => false end.
Notation R := (refers any_prop).
Lemma isd_no_dict x : isd x = false <-> no_dict heap x.
Proof.
  unfold isd, no_dict. destruct (nth_error heap x) as [[]|]; split; intros; try discriminate; auto. exfalso. eapply H. eauto.
Qed.
Fixpoint rsteps (n : nat) (w : list nat) (x : nat) : Prop :=
  match n with
  | 0 => True
  | S n => exists y, R x y /\ if isd x then ~ In x w /\ rsteps n (x :: w) y else rsteps n w y
  end.
Lemma print_none n w x : print n w (VR x) = None <-> rsteps n w x.
Proof.
  revert w x. induction n as [|n IH]; intros w x; cbn; [tauto|]. unfold isd.
  destruct (nth_error heap x) as [[c s|c l|c l]|] eqn:E.
  - transitivity (each (print n w) (parts all_props (Rec c s)) = None); [cbn; destruct (each _ _); cbn; split; congruence|].
    rewrite each_none. split.
    + intros (k & v & I & H). destruct v as [a|y]; [destruct n; discriminate H|]. exists y. split; [|now apply IH].
      apply (parts_refers all_props any_prop x _ y all_sel E). eauto.
    + intros (y & H & D). apply (parts_refers all_props any_prop x _ y all_sel E) in H as (k & I). exists k, (VR y). split; auto. now apply IH.
  - transitivity (each (print n w) (parts all_props (Lst c l)) = None); [cbn; destruct (each _ _); cbn; split; congruence|].
    rewrite each_none. split.
    + intros (k & v & I & H). destruct v as [a|y]; [destruct n; discriminate H|]. exists y. split; [|now apply IH].
      apply (parts_refers all_props any_prop x _ y all_sel E). eauto.
    + intros (y & H & D). apply (parts_refers all_props any_prop x _ y all_sel E) in H as (k & I). exists k, (VR y). split; auto. now apply IH.
  - destruct (existsb (Nat.eqb x) w) eqn:Ex.
    + split; [discriminate|]. intros (y & _ & H & _). exfalso. apply H. apply existsb_exists in Ex as (z & I & Z). now apply Nat.eqb_eq in Z as ->.
    + assert (Nin : ~ In x w).
      { intros I. assert (Z : existsb (Nat.eqb x) w = true) by (apply existsb_exists; exists x; split; auto; apply Nat.eqb_refl). congruence. }
      transitivity (each (print n (x :: w)) l = None); [destruct (each _ _); cbn; split; congruence|].
      rewrite each_none. split.
      * intros (k & v & I & H). destruct v as [a|y]; [destruct n; discriminate H|]. exists y. split; [eapply by_key; eauto|split; auto; now apply IH].
      * intros (y & H & _ & D). apply (parts_refers all_props any_prop x _ y all_sel E) in H as (k & I). exists k, (VR y). split; auto. now apply IH.
  - split; [discriminate|]. intros (y & H & _). apply refers_bound in H. apply nth_error_None in E. lia.
Qed.
Lemma rsteps_less n m w x : m <= n -> rsteps n w x -> rsteps m w x.
Proof.
  revert m w x. induction n as [|n IH]; intros [|m] w x Le H; cbn; auto; [lia|].
  destruct H as (y & H1 & H2). exists y. split; auto. destruct (isd x); [destruct H2; split; auto|]; apply IH; auto; lia.
Qed.
(** Along a path without repetition *)
Lemma rsteps_along x l y n : by_way R x l y -> NoDup l -> forall w, (forall z, In z l -> ~ In z w) ->
  (forall w', rsteps n w' y) -> rsteps (length l + n) w x.
Proof.
  induction 1 as [x|x z l y H B IH]; intros N w D Hy; [apply Hy|]. cbn [length Nat.add]. cbn. exists z. split; auto.
  inversion N as [|? ? N1 N2]; subst. destruct (isd x).
  - split; [apply D; now left|]. apply IH; auto. intros u I [<-|J]; [auto|]. apply (D u); auto. now right.
  - apply IH; auto. intros u I. apply D. now right.
Qed.
Lemma rsteps_round l y : by_way R y l y -> l <> [] -> (forall z, In z l -> no_dict heap z) -> forall n w, rsteps n w y.
Proof.
  intros B Ne D.
  assert (G : forall k n x m, length m <= k -> by_way R x m y -> (forall z, In z m -> no_dict heap z) -> (forall w, rsteps n w y) -> forall w, rsteps (length m + n) w x).
  { intros k n x m _ Bm. induction Bm as [x|x z m y' H Bm IH]; intros Dm Hy w; [apply Hy|]. cbn. exists z. split; auto.
    assert (E : isd x = false) by (apply isd_no_dict, Dm; now left). rewrite E. apply IH; auto. intros u I. apply Dm. now right. }
  induction n as [|n IH]; intros w; [exact I|].
  apply (rsteps_less (length l + n)); [destruct l; [contradiction|cbn; lia]|]. apply (G (length l)); auto.
Qed.
(** A long walk without a dict, or a dict soon *)
Lemma rsteps_split k n w x : rsteps (k + n) w x ->
  (exists l y, by_way R x l y /\ length l = k /\ forall z, In z l -> no_dict heap z) \/
  (exists d y, isd d = true /\ ~ In d w /\ reaches R x y /\ R d y /\ exists m, n <= S m /\ rsteps m (d :: w) y).
Proof.
  revert x. induction k as [|k IH]; intros x H; cbn in H.
  - left. exists [], x. split; [constructor|]. split; auto. intros z [].
  - destruct H as (y & H1 & H2). destruct (isd x) eqn:Ex.
    + right. exists x, y. destruct H2 as [H2 H3]. split; auto. split; auto. split; [exists [x]; econstructor; [exact H1|constructor]|]. split; auto.
      exists (k + n). split; auto. lia.
    + destruct (IH y H2) as [(l & z & B & L & D)|(d & z & D1 & D2 & D3 & D4)].
      * left. exists (x :: l), z. split; [econstructor; eauto|]. split; [cbn; auto|]. intros u [<-|I]; auto. now apply isd_no_dict.
      * right. exists d, z. split; auto. split; auto. split; [eapply reaches_step; eauto|auto].
Qed.
Fixpoint bound (k : nat) : nat := S (length heap) + match k with 0 => 0 | S k => S (bound k) end.
Lemma rsteps_bound k : forall w x, length heap - length w <= k -> NoDup w -> (forall z, In z w -> z < length heap) ->
  rsteps (bound k) w x -> cyclic_through R (no_dict heap) x.
Proof.
  assert (Base : forall x n w, rsteps (S (length heap) + n) w x -> cyclic_through R (no_dict heap) x \/
    exists d y, isd d = true /\ ~ In d w /\ reaches R x y /\ R d y /\ exists m, n <= S m /\ rsteps m (d :: w) y).
  { intros x n w H. apply rsteps_split in H as [(l & y & B & L & D)|H]; [|auto]. left.
    assert (Hb : forall z, In z l -> z < length heap).
    { clear L D. induction B as [|a b l c Hr B IHB]; intros u I; [destruct I|destruct I as [<-|I]; [eapply refers_bound; eauto|auto]]. }
    destruct (twice l (length heap) Hb) as (a & l1 & l2 & l3 & E); [lia|]. destruct (repeated R x l y a l1 l2 l3 B E) as (H1 & H2).
    exists a, (a :: l2). split; auto. split; [discriminate|]. split; auto. intros z I. apply D. subst l. apply in_or_app. right.
    destruct I as [<-|I]; [now left|]. right. apply in_or_app. now left. }
  assert (Dlt : forall d, isd d = true -> d < length heap).
  { intros d. unfold isd. intros H. apply nth_error_Some. destruct (nth_error heap d); congruence. }
  induction k as [|k IH]; intros w x Le N W H.
  - apply (Base x 0 w) in H as [C|(d & y & D1 & D2 & _)]; auto. exfalso.
    assert (I : incl (d :: w) (seq 0 (length heap))) by (intros z [<-|I]; apply in_seq; [specialize (Dlt _ D1)|specialize (W z I)]; lia).
    apply NoDup_incl_length in I; [|now constructor]. rewrite seq_length in I. cbn in I. lia.
  - apply (Base x (S (bound k)) w) in H as [C|(d & y & D1 & D2 & D3 & D4 & m & Lm & H)]; auto.
    destruct (IH (d :: w) y) as (z & l & H1 & H2).
    + cbn. lia.
    + now constructor.
    + intros z [<-|I]; auto.
    + apply (rsteps_less m); auto. lia.
    + exists z, l. split; auto. eapply reaches_trans; eauto.
Qed.
Theorem print_cyclic x : (forall n, rsteps n [] x) <-> cyclic_through R (no_dict heap) x.
Proof.
  split.
  - intros H. apply (rsteps_bound (length heap) [] x); [cbn; lia|constructor|intros z []|apply H].
  - intros (y & l & (m & B) & Ne & C & D) n. destruct (simple R x m y B) as (m' & B' & N').
    apply (rsteps_less (length m' + n)); [lia|]. apply (rsteps_along x m' y n B' N'); [intros z _ []|]. intros w. now apply (rsteps_round l).
Qed.

(** Comparing *)
Notation E := (refers compared_prop).
Lemma slots_eq_none eq (ps : list prop) (s t : list (nat * val A)) : slots_eq eq ps s t = None ->
  exists p v w, In p ps /\ slot s (p_name p) = Some v /\ slot t (p_name p) = Some w /\ eq v w = None.
Proof.
  induction ps as [|p ps IH]; cbn; [discriminate|].
  destruct (slot s (p_name p)) as [v|] eqn:Es, (slot t (p_name p)) as [w|] eqn:Et; try discriminate.
  - destruct (eq v w) as [[|]|] eqn:Ee; try discriminate; intros H.
    + destruct (IH H) as (q & v' & w' & I & H'). exists q, v', w'. tauto.
    + exists p, v, w. auto.
  - intros H. destruct (IH H) as (q & v' & w' & I & H'). exists q, v', w'. tauto.
Qed.
Lemma items_eq_none eq (l m : list (val A)) : items_eq eq l m = None -> exists v w, In v l /\ In w m /\ eq v w = None.
Proof.
  revert m. induction l as [|v l IH]; intros [|w m]; cbn; try discriminate.
  destruct (same v w).
  - intros H. destruct (IH m H) as (v' & w' & H'). exists v', w'. tauto.
  - destruct (eq v w) as [[|]|] eqn:Ee; try discriminate; intros H; [|exists v, w; auto].
    destruct (IH m H) as (v' & w' & H'). exists v', w'. tauto.
Qed.
Lemma slot_in (l : list (nat * val A)) k v : slot l k = Some v -> In (k, v) l.
Proof.
  induction l as [|[j w] l IH]; cbn; [discriminate|]. destruct (Nat.eqb_spec j k) as [->|]; [intros Z; injection Z as ->; auto|auto].
Qed.
Lemma dict_eq_none eq (l m : list (nat * val A)) : dict_eq eq l m = None -> exists j k v w, In (j, v) l /\ In (k, w) m /\ eq v w = None.
Proof.
  induction l as [|[j v] l IH]; cbn; [discriminate|]. destruct (slot m j) as [w|] eqn:Es; [|discriminate].
  destruct (same v w).
  - intros H. destruct (IH H) as (a & b & v' & w' & H'). exists a, b, v', w'. tauto.
  - destruct (eq v w) as [[|]|] eqn:Ee; try discriminate; intros H.
    + destruct (IH H) as (a & b & v' & w' & H'). exists a, b, v', w'. tauto.
    + exists j, j, v, w. split; auto. split; auto. now apply slot_in.
Qed.
Lemma equal_none n v w : equal n v w = None -> exists x y, v = VR x /\ w = VR y /\ deep E n x /\ deep E n y.
Proof.
  revert v w. induction n as [|n IH]; intros [a|x] [b|y] H; try discriminate H; exists x, y; (split; [reflexivity|]); (split; [reflexivity|]).
  - split; [exists [], x|exists [], y]; (split; [constructor|reflexivity]).
  - cbn in H. destruct (nth_error heap x) as [[c s|c l|c l]|] eqn:Ex, (nth_error heap y) as [[d t|d m|d m]|] eqn:Ey; try discriminate H.
    + destruct (Nat.eqb_spec c d) as [<-|]; [|discriminate H]. apply slots_eq_none in H as (p & v & w & I & Hs & Ht & He).
      apply IH in He as (x' & y' & -> & -> & D1 & D2). apply eq_sel in I as [I1 I2]. rewrite !deep_S. split; [exists x'|exists y']; split; auto; eapply by_slot; eauto.
    + destruct (_ && _); [|discriminate H]. apply items_eq_none in H as (v & w & I1 & I2 & He).
      apply IH in He as (x' & y' & -> & -> & D1 & D2). rewrite !deep_S. split; [exists x'|exists y']; split; auto; eapply by_item; eauto.
    + destruct (_ && _); [|discriminate H]. apply dict_eq_none in H as (j & k & v & w & I1 & I2 & He).
      apply IH in He as (x' & y' & -> & -> & D1 & D2). rewrite !deep_S. split; [exists x'|exists y']; split; auto; eapply by_key; eauto.
Qed.

(** Twins *)
Section Twins.
Variable T : nat -> nat -> Prop.
Hypothesis HT : twins heap atom_eq T.
Hypothesis HD : dicts_ok heap.
Notation vt := (vtwin atom_eq T).

Lemma slot_unique (l : list (nat * val A)) k v : NoDup (map fst l) -> In (k, v) l -> slot l k = Some v.
Proof.
  induction l as [|[j w] l IH]; cbn; intros N I; [destruct I|]. inversion N as [|? ? N1 N2]; subst. destruct I as [Z|I].
  - injection Z as -> ->. now rewrite Nat.eqb_refl.
  - destruct (Nat.eqb_spec j k) as [->|]; auto. destruct N1. apply (in_map fst) in I. exact I.
Qed.
(** A comparison that never says no: it fails to end iff it does so for one pair. *)
Lemma slots_eq_yes eq (ps : list prop) (s t : list (nat * val A)) :
  (forall p, In p ps -> otwin atom_eq T (slot s (p_name p)) (slot t (p_name p))) -> (forall v w, vt v w -> eq v w <> Some false) ->
  slots_eq eq ps s t <> Some false /\
  forall p v w, In p ps -> slot s (p_name p) = Some v -> slot t (p_name p) = Some w -> eq v w = None -> slots_eq eq ps s t = None.
Proof.
  intros Ht He. induction ps as [|p ps IH]; cbn; [split; [discriminate|intros p v w []]|].
  destruct IH as [IH1 IH2]; [intros q I; apply Ht; now right|].
  specialize (Ht p (or_introl eq_refl)). inversion Ht as [E1 E2|v w Hvw E1 E2].
  - split; auto. intros q v w [<-|I] Hs Ht' Hn; [congruence|eauto].
  - specialize (He v w Hvw). destruct (eq v w) as [[|]|] eqn:Ee; [|congruence|split; [discriminate|reflexivity]].
    split; auto. intros q v' w' [<-|I] Hs Ht' Hn; [congruence|eauto].
Qed.
Lemma twin_differ v w : vt v w -> same v w = false.
Proof. intros [a b _|x y H]; cbn; auto. apply Nat.eqb_neq. now apply HT. Qed.
Lemma items_eq_yes eq (l m : list (val A)) : Forall2 vt l m -> (forall v w, vt v w -> eq v w <> Some false) ->
  items_eq eq l m <> Some false /\
  forall v, In v l -> (forall w, vt v w -> eq v w = None) -> items_eq eq l m = None.
Proof.
  intros F He. induction F as [|v w l m H F [IH1 IH2]]; cbn; [split; [discriminate|intros v []]|].
  rewrite (twin_differ v w H). specialize (He v w H). destruct (eq v w) as [[|]|] eqn:Ee; [|congruence|split; [discriminate|reflexivity]].
  split; auto. intros u [<-|I] Hn; [rewrite (Hn w H) in Ee; discriminate|eauto].
Qed.
Lemma dict_eq_yes eq (l m : list (nat * val A)) : (forall k v, In (k, v) l -> exists w, slot m k = Some w /\ vt v w) -> (forall v w, vt v w -> eq v w <> Some false) ->
  dict_eq eq l m <> Some false /\
  forall k v, In (k, v) l -> (forall w, vt v w -> eq v w = None) -> dict_eq eq l m = None.
Proof.
  intros F He. induction l as [|[k v] l IH]; cbn; [split; [discriminate|intros k v []]|].
  destruct IH as [IH1 IH2]; [intros j u I; apply F; now right|].
  destruct (F k v (or_introl eq_refl)) as (w & -> & H). rewrite (twin_differ v w H).
  specialize (He v w H). destruct (eq v w) as [[|]|] eqn:Ee; [|congruence|split; [discriminate|reflexivity]].
  split; auto. intros j u [Z|I] Hn; [injection Z as <- <-; rewrite (Hn w H) in Ee; discriminate|eauto].
Qed.
Lemma vt_fun v : forall x, v = VR x -> forall w, vt v w -> exists y, w = VR y /\ T x y.
Proof. intros x -> w H. inversion H; subst. eauto. Qed.

Lemma equal_twins n v w : vt v w -> equal n v w <> Some false /\ forall x, v = VR x -> deep E n x -> equal n v w = None.
Proof.
  revert v w. induction n as [|n IH]; intros v w H.
  - destruct H as [a b H|x y H]; cbn; [rewrite H|]; split; try discriminate; auto.
  - destruct H as [a b H|x y H]; [cbn; rewrite H; split; discriminate|]. destruct (HT x y H) as (_ & a & b & Ex & Ey & N). cbn. rewrite Ex, Ey.
    assert (IH1 : forall v w, vt v w -> equal n v w <> Some false) by (intros v w Hv; apply (IH v w Hv)).
    destruct N as [c s t Hs|c l m F|c l m L F].
    + rewrite Nat.eqb_refl. destruct (slots_eq_yes (equal n) (eq_props (classes c)) s t (fun p _ => Hs (p_name p)) IH1) as [S1 S2]. split; auto.
      intros x' Z D. injection Z as <-. apply deep_S in D as (z & Hr & D).
      inversion Hr as [c' s' p E' I1 I2 Es|c' l E' I|c' l k E' I]; rewrite Ex in E'; try discriminate E'. injection E' as <- <-.
      specialize (Hs (p_name p)). rewrite Es in Hs. inversion Hs as [|v w Hvw E1 E2]; subst.
      apply (S2 p (VR z) w); auto; [apply eq_sel; auto|]. apply (proj2 (IH (VR z) w Hvw) z eq_refl D).
    + rewrite Nat.eqb_refl. assert (L : length l = length m) by (clear -F; induction F; cbn; auto). rewrite L, Nat.eqb_refl. cbn [andb]. destruct (items_eq_yes (equal n) l m F IH1) as [S1 S2]. split; auto.
      intros x' Z D. injection Z as <-. apply deep_S in D as (z & Hr & D).
      inversion Hr as [c' s' p E' I1 I2 Es|c' l' E' I|c' l' k E' I]; rewrite Ex in E'; try discriminate E'. injection E' as <- <-.
      apply (S2 (VR z) I). intros w Hw. apply (proj2 (IH (VR z) w Hw) z eq_refl D).
    + rewrite Nat.eqb_refl. rewrite L, Nat.eqb_refl. cbn [andb].
      assert (F' : forall k v, In (k, v) l -> exists w, slot m k = Some w /\ vt v w).
      { intros k v I. specialize (F k). rewrite (slot_unique l k v (HD x c l Ex) I) in F. inversion F as [|v' w Hvw E1 E2]; subst. eauto. }
      destruct (dict_eq_yes (equal n) l m F' IH1) as [S1 S2]. split; auto.
      intros x' Z D. injection Z as <-. apply deep_S in D as (z & Hr & D).
      inversion Hr as [c' s' p E' I1 I2 Es|c' l' E' I|c' l' k E' I]; rewrite Ex in E'; try discriminate E'. injection E' as <- <-.
      apply (S2 k (VR z) I). intros w Hw. apply (proj2 (IH (VR z) w Hw) z eq_refl D).
Qed.
End Twins.
End Graphs.
