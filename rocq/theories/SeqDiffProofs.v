From Coq Require Import List Arith Bool Lia Permutation.
From Verif Require Import Prelude SeqDiffModel.
Import ListNotations.

Section SeqDiff.
Context {K I : Type}.
Variable keqb : K -> K -> bool.
Variable ieqb : I -> I -> bool.

(** *** Specification *)

(** how often a value occurs among the items *)
Definition count (k : K) (l : list (I * K)) : nat := length (filter (fun x => keqb k (snd x)) l).

(** The item at position [i] of [a] has no partner in [b]: [b] has no more of its value than
    [a] has before [i]. *)
Definition surplus (a b : list (I * K)) (i : I) : Prop :=
  exists k l1 l2, a = l1 ++ (i, k) :: l2 /\ count k b <= count k l1.

(** Positions [i] of [a] and [j] of [b] hold the same value for the same time. *)
Definition paired (a b : list (I * K)) (i j : I) : Prop :=
  exists k k' l1 l2 m1 m2, a = l1 ++ (i, k) :: l2 /\ b = m1 ++ (j, k') :: m2 /\
    keqb k k' = true /\ count k l1 = count k m1.

Definition set_orders (o : orders K I) : Prop :=
  (forall l, Permutation (o_unchanged o l) l) /\ (forall l, Permutation (o_removed o l) l) /\
  (forall l, Permutation (o_added o l) l) /\ (forall l, Permutation (o_modified o l) l).

Hypothesis krefl : forall x, keqb x x = true.
Hypothesis ksym : forall x y, keqb x y = true -> keqb y x = true.
Hypothesis ktrans : forall x y z, keqb x y = true -> keqb y z = true -> keqb x z = true.
Hypothesis ieq : forall i j, ieqb i j = true <-> i = j.

Notation counter_get := (counter_get keqb).
Notation counter_incr := (counter_incr keqb).
Notation tag := (tag keqb).
Notation tmem := (tmem keqb).
Notation lookup := (lookup keqb).
Notation teqb := (teqb keqb).

Lemma keqb_l x y z : keqb x y = true -> keqb x z = keqb y z.
Proof.
  intros H. destruct (keqb y z) eqn:E; [eapply ktrans; eauto|].
  destruct (keqb x z) eqn:E2; auto. rewrite (ktrans y x z) in E; auto.
Qed.

Lemma count_app k l m : count k (l ++ m) = count k l + count k m.
Proof. unfold count. rewrite filter_app, app_length. reflexivity. Qed.

Lemma count_cons k i v l : count k ((i, v) :: l) = (if keqb k v then 1 else 0) + count k l.
Proof. unfold count. cbn [filter snd]. destruct (keqb k v); reflexivity. Qed.

Lemma count_eqb k k' l : keqb k k' = true -> count k l = count k' l.
Proof.
  intros H. induction l as [|[i v] l IH]; auto. rewrite !count_cons, IH, (keqb_l k k' v) by auto. reflexivity.
Qed.

Lemma counter_incr_get seen v k : counter_get (counter_incr seen v) k = counter_get seen k + (if keqb v k then 1 else 0).
Proof.
  induction seen as [|[x n] t IH]; cbn [SeqDiffModel.counter_incr SeqDiffModel.counter_get].
  - destruct (keqb v k); reflexivity.
  - destruct (keqb x v) eqn:E; cbn [SeqDiffModel.counter_get].
    + rewrite <- (keqb_l x v k E). destruct (keqb x k); lia.
    + destruct (keqb x k) eqn:E2; auto.
      destruct (keqb v k) eqn:E3; [|lia]. rewrite (ktrans x k v) in E; auto; discriminate.
Qed.

Lemma tag_in l : forall seen k n i, In ((k, n), i) (tag seen l) <->
  exists l1 l2, l = l1 ++ (i, k) :: l2 /\ n = counter_get seen k + count k l1.
Proof.
  induction l as [|[j v] t IH]; intros seen k n i; cbn [SeqDiffModel.tag In].
  - split; [intros []|]. intros (l1&l2&E&_). destruct l1; discriminate.
  - rewrite IH. split.
    + intros [E|(l1&l2&->&->)].
      * inversion E; subst. exists [], t. split; [auto|unfold count; cbn; lia].
      * exists ((j, v) :: l1), l2. split; auto. rewrite counter_incr_get, count_cons.
        destruct (keqb v k) eqn:E1, (keqb k v) eqn:E2; try lia.
        -- rewrite (ksym v k) in E2; auto; discriminate.
        -- rewrite (ksym k v) in E1; auto; discriminate.
    + intros ([|[j' v'] l1]&l2&E&->).
      * cbn [app] in E. inversion E; subst. left. unfold count. cbn. f_equal. f_equal. lia.
      * cbn [app] in E. inversion E; subst. right. exists l1, l2. split; auto.
        rewrite counter_incr_get, count_cons.
        destruct (keqb v' k) eqn:E1, (keqb k v') eqn:E2; try lia.
        -- rewrite (ksym v' k) in E2; auto; discriminate.
        -- rewrite (ksym k v') in E1; auto; discriminate.
Qed.

Lemma tag0_in l k n i : In ((k, n), i) (tag [] l) <-> exists l1 l2, l = l1 ++ (i, k) :: l2 /\ n = count k l1.
Proof. rewrite tag_in. cbn. reflexivity. Qed.

Lemma teqb_true x y : teqb x y = true <-> keqb (fst x) (fst y) = true /\ snd x = snd y.
Proof. unfold SeqDiffModel.teqb. rewrite andb_true_iff, Nat.eqb_eq. reflexivity. Qed.

(** the first [n]-th occurrence *)
Lemma nth_occurrence k l : forall n, n < count k l <->
  exists l1 i k' l2, l = l1 ++ (i, k') :: l2 /\ keqb k k' = true /\ count k l1 = n.
Proof.
  induction l as [|[i v] t IH]; intros n.
  - split; [unfold count; cbn; lia|]. intros (l1&i&k'&l2&E&_). destruct l1; discriminate.
  - rewrite count_cons. destruct (keqb k v) eqn:E.
    + destruct n as [|n].
      * split; [|lia]. intros _. exists [], i, v, t. repeat split; auto.
      * split.
        -- intros H. destruct (proj1 (IH n)) as (l1&j&k'&l2&->&E2&E3); [lia|].
           exists ((i, v) :: l1), j, k', l2. repeat split; auto. rewrite count_cons, E. lia.
        -- intros (l1&j&k'&l2&E1&E2&E3). destruct l1 as [|[i' v'] l1]; [unfold count in E3; discriminate|].
           cbn [app] in E1. inversion E1; subst. rewrite count_cons, E in E3.
           assert (n < count k (l1 ++ (j, k') :: l2)) by (apply IH; exists l1, j, k', l2; repeat split; auto; lia).
           lia.
    + split.
      * intros H. destruct (proj1 (IH n)) as (l1&j&k'&l2&->&E2&E3); [lia|].
        exists ((i, v) :: l1), j, k', l2. repeat split; auto. rewrite count_cons, E. lia.
      * intros (l1&j&k'&l2&E1&E2&E3). destruct l1 as [|[i' v'] l1].
        -- cbn [app] in E1. inversion E1; subst. congruence.
        -- cbn [app] in E1. inversion E1; subst. rewrite count_cons, E. cbn [Nat.add].
           apply IH. exists l1, j, k', l2. auto.
Qed.

Lemma tmem_count k n l : tmem (k, n) (map fst (tag [] l)) = true <-> n < count k l.
Proof.
  unfold SeqDiffModel.tmem. rewrite existsb_exists, nth_occurrence. split.
  - intros ([k' n']&Hin&E). apply teqb_true in E as [E1 E2]. cbn in E1, E2. subst n'.
    apply in_map_iff in Hin as ([[k2 n2] i]&E&Hin). cbn in E. inversion E; subst.
    apply tag0_in in Hin as (l1&l2&->&->). exists l1, i, k', l2. repeat split; auto. now apply count_eqb.
  - intros (l1&i&k'&l2&->&E&<-). exists (k', count k l1). split.
    + apply in_map_iff. exists ((k', count k l1), i). split; auto. apply tag0_in. exists l1, l2. split; auto.
      now apply count_eqb.
    + apply teqb_true. auto.
Qed.

Lemma tmem_count_false k n l : tmem (k, n) (map fst (tag [] l)) = false <-> count k l <= n.
Proof.
  pose proof (tmem_count k n l). destruct (tmem (k, n) _) eqn:E; split; intros; try discriminate.
  - assert (n < count k l) by now apply H. lia.
  - destruct (Nat.lt_ge_cases n (count k l)) as [C|C]; auto. apply H in C. discriminate.
  - reflexivity.
Qed.

(** two occurrences of equal rank are the same *)
Lemma same_occurrence k k' : forall l1 i m1 j l2 m2, l1 ++ (i, k) :: l2 = m1 ++ (j, k') :: m2 ->
  keqb k k' = true -> count k l1 = count k m1 -> l1 = m1 /\ i = j /\ k = k' /\ l2 = m2.
Proof.
  induction l1 as [|[a x] l1 IH]; intros i m1 j l2 m2 E Ek Ec; destruct m1 as [|[b y] m1]; cbn [app] in E; inversion E; subst.
  - auto.
  - rewrite count_cons, krefl in Ec. unfold count in Ec at 1. cbn in Ec. lia.
  - rewrite count_cons in Ec. unfold count in Ec at 2. cbn in Ec. rewrite Ek in Ec. lia.
  - rewrite !count_cons in Ec. destruct (IH i m1 j l2 m2 H2 Ek ltac:(lia)) as (->&->&->&->). auto.
Qed.

Lemma tag_nodup (l : list (I * K)) : forall seen, NoDup (map fst (tag seen l)) /\
  forall x y, In x (tag seen l) -> In y (tag seen l) -> teqb (fst x) (fst y) = true -> x = y.
Proof.
  intros seen.
  assert (U : forall x y, In x (tag seen l) -> In y (tag seen l) -> teqb (fst x) (fst y) = true -> x = y).
  { intros [[k n] i] [[k' n'] j] Hx Hy E. apply teqb_true in E as [E1 E2]. cbn in E1, E2. subst n'.
    apply tag_in in Hx as (l1&l2&El&Ex), Hy as (m1&m2&Em&Ey). rewrite El in Em.
    assert (Ec : counter_get seen k = counter_get seen k').
    { clear - E1 ktrans ksym krefl. induction seen as [|[x n] t IH]; auto. cbn.
      destruct (keqb x k) eqn:A, (keqb x k') eqn:B; auto.
      - rewrite (ktrans x k k') in B; auto; discriminate.
      - rewrite (ktrans x k' k) in A; auto; discriminate. }
    rewrite (count_eqb k' k) in Ey by auto.
    apply same_occurrence in Em as (->&->&->&->); auto. lia. }
  split; auto.
  assert (D : NoDup (tag seen l)).
  { clear U. revert seen. induction l as [|[i v] t IH]; intros seen; cbn [SeqDiffModel.tag]; constructor; auto.
    intros H. apply tag_in in H as (l1&l2&_&E). rewrite counter_incr_get, krefl in E. lia. }
  clear - D U krefl. induction D as [|x t Hx D IH]; cbn [map]; constructor.
  - intros H. apply in_map_iff in H as (y&E&Hy). apply Hx.
    rewrite (U x y); auto; [now left|now right|]. rewrite E. apply teqb_true. auto.
  - apply IH. intros a b Ha Hb. apply U; now right.
Qed.

Lemma lookup_in x (l : list ((K * nat) * I)) i : lookup x l = Some i -> exists y, In (y, i) l /\ teqb x y = true.
Proof.
  induction l as [|[y j] t IH]; cbn [SeqDiffModel.lookup]; [discriminate|].
  destruct (teqb x y) eqn:E.
  - intros H. inversion H; subst. exists y. split; auto. now left.
  - intros H. destruct (IH H) as (z&Hz&E2). exists z. split; auto. now right.
Qed.

Lemma lookup_total x (l : list ((K * nat) * I)) : tmem x (map fst l) = true -> exists i, lookup x l = Some i.
Proof.
  induction l as [|[y j] t IH]; cbn; [discriminate|]. destruct (teqb x y); eauto.
Qed.

Lemma lookup_spec k n l i : lookup (k, n) (tag [] l) = Some i <->
  exists l1 k' l2, l = l1 ++ (i, k') :: l2 /\ keqb k k' = true /\ count k l1 = n.
Proof.
  split.
  - intros H. apply lookup_in in H as ([k' n']&Hin&E). apply teqb_true in E as [E1 E2]. cbn in *. subst n'.
    apply tag0_in in Hin as (l1&l2&->&->). exists l1, k', l2. repeat split; auto. now apply count_eqb.
  - intros (l1&k'&l2&->&E&<-).
    assert (T : tmem (k, count k l1) (map fst (tag [] (l1 ++ (i, k') :: l2))) = true).
    { apply tmem_count, nth_occurrence. exists l1, i, k', l2. auto. }
    apply lookup_total in T as [j Hj]. rewrite Hj. f_equal.
    apply lookup_in in Hj as ([k2 n2]&Hin&E2). apply teqb_true in E2 as [E2 E3]. cbn in *. subst n2.
    apply tag0_in in Hin as (m1&m2&Em&Ec).
    symmetry. eapply (same_occurrence k' k2 l1 i m1 j); eauto.
    rewrite (count_eqb k' k l1), Ec; auto. apply count_eqb. eauto.
Qed.

(** A generic fact: [positions] of a list of tags *)
Lemma positions_in xs (l : list ((K * nat) * I)) i : In i (positions keqb xs l) <-> exists x, In x xs /\ lookup x l = Some i.
Proof.
  unfold positions. rewrite in_flat_map. split.
  - intros (x&Hx&H). exists x. split; auto. destruct (lookup x l); [destruct H as [<-|[]]; auto|destruct H].
  - intros (x&Hx&H). exists x. split; auto. rewrite H. now left.
Qed.

Lemma removed_in a b i :
  In i (positions keqb (filter (fun x => negb (tmem x (map fst (tag [] b)))) (map fst (tag [] a))) (tag [] a)) <-> surplus a b i.
Proof.
  rewrite positions_in. split.
  - intros ([k n]&Hx&Hl). apply filter_In in Hx as [Hx Hn]. apply negb_true_iff in Hn.
    apply tmem_count_false in Hn. apply lookup_spec in Hl as (l1&k'&l2&->&E&Ec).
    exists k', l1, l2. split; auto. rewrite <- !(count_eqb k k') by auto. lia.
  - intros (k&l1&l2&->&H). exists (k, count k l1). split.
    + apply filter_In. split.
      * apply in_map_iff. exists ((k, count k l1), i). split; auto. apply tag0_in. eauto.
      * apply negb_true_iff. now apply tmem_count_false.
    + apply lookup_spec. exists l1, k, l2. auto.
Qed.

Lemma imem_in i l : imem ieqb i l = true <-> In i l.
Proof.
  unfold imem. rewrite existsb_exists. split.
  - intros (j&Hj&E). apply ieq in E. now subst.
  - intros H. exists i. split; auto. now apply ieq.
Qed.

Lemma positions_perm xs ys (l : list ((K * nat) * I)) : Permutation xs ys -> Permutation (positions keqb xs l) (positions keqb ys l).
Proof. intros H. unfold positions. now apply Permutation_flat_map. Qed.

(** distinct positions *)
Lemma position_unique (l : list (I * K)) l1 l2 m1 m2 i k k' : NoDup (map fst l) ->
  l = l1 ++ (i, k) :: l2 -> l = m1 ++ (i, k') :: m2 -> l1 = m1 /\ k = k' /\ l2 = m2.
Proof.
  intros D -> H. revert m1 H D. induction l1 as [|[a x] l1 IH]; intros m1 H D; destruct m1 as [|[b y] m1]; cbn [app] in H; inversion H; subst; auto.
  - exfalso. cbn in D. inversion D; subst. apply H2. rewrite map_app. apply in_or_app. right. now left.
  - exfalso. cbn in D. inversion D; subst. apply H2. rewrite map_app. apply in_or_app. right. now left.
  - cbn in D. inversion D; subst. destruct (IH m1) as (->&->&->); auto.
Qed.

Lemma positions_nodup xs (l : list (I * K)) : NoDup (map fst l) -> NoDup xs -> incl xs (map fst (tag [] l)) ->
  NoDup (positions keqb xs (tag [] l)).
Proof.
  intros Dl D Hi. induction D as [|x t Hx D IH]; [constructor|].
  cbn [positions flat_map]. fold (positions keqb t (tag [] l)).
  assert (Hi' : incl t (map fst (tag [] l))) by (intros y Hy; apply Hi; now right).
  destruct (lookup x (tag [] l)) as [i|] eqn:E; cbn [app]; auto.
  constructor; auto. intros H. apply positions_in in H as (y&Hy&Ey). apply Hx.
  destruct x as [k n], y as [k2 n2].
  assert (Hk : In (k, n) (map fst (tag [] l))) by (apply Hi; now left).
  assert (Hk2 : In (k2, n2) (map fst (tag [] l))) by (apply Hi'; auto).
  apply lookup_spec in E as (l1&k'&l2&El&E1&E2), Ey as (m1&k3&m2&Em&E3&E4).
  destruct (position_unique l l1 l2 m1 m2 i k' k3 Dl El Em) as (->&->&->).
  assert (keqb k k2 = true) by eauto.
  assert (n = n2) by (rewrite <- E2, <- E4; now apply count_eqb).
  apply in_map_iff in Hk as ([x1 i1]&Ex&Hk), Hk2 as ([x2 i2]&Ey&Hk2). cbn in Ex, Ey. subst x1 x2.
  assert (X : ((k, n), i1) = ((k2, n2), i2)).
  { apply (proj2 (tag_nodup l [])); auto. apply teqb_true. auto. }
  inversion X; subst. auto.
Qed.

Section Entries.
Variable o : orders K I.
Hypothesis Ho : set_orders o.
Variables unchanged moved : bool.
Variables a b : list (I * K).
Hypothesis Da : NoDup (map fst a).
Hypothesis Db : NoDup (map fst b).

Notation ta := (tag [] a).
Notation tb := (tag [] b).
Notation removed := (filter (fun x => negb (tmem x (map fst tb))) (map fst ta)).
Notation added := (filter (fun x => negb (tmem x (map fst ta))) (map fst tb)).
Notation same := (filter (fun x => tmem x (map fst tb)) (map fst ta)).

Definition same_entries := 
   flat_map (fun x =>
       match lookup x ta, lookup x tb with
       | Some i, Some j =>
           if moved && negb (ieqb i j) then [(Moved, Some i, Some j)]
           else if unchanged then [(NoChange, Some i, Some j)] else []
       | _, _ => []
       end) (o_unchanged o same).

Lemma surplus_dec i : {In i (positions keqb removed ta)} + {~ In i (positions keqb removed ta)}.
Proof. destruct (imem ieqb i (positions keqb removed ta)) eqn:E; [left|right]; rewrite <- imem_in; congruence. Qed.

Lemma same_in_ab k n : In (k, n) same <-> In (k, n) (map fst ta) /\ n < count k b.
Proof. rewrite filter_In, tmem_count. reflexivity. Qed.

Lemma paired_spec i j : paired a b i j <->
  exists x, In x same /\ lookup x ta = Some i /\ lookup x tb = Some j.
Proof.
  split.
  - intros (k&k'&l1&l2&m1&m2&Ea&Eb&E&Ec). exists (k, count k l1).
    assert (La : lookup (k, count k l1) ta = Some i) by (apply lookup_spec; exists l1, k, l2; auto).
    assert (Lb : lookup (k, count k l1) tb = Some j) by (apply lookup_spec; exists m1, k', m2; auto).
    repeat split; auto. apply same_in_ab. split.
    + apply in_map_iff. exists ((k, count k l1), i). split; auto. apply tag0_in. eauto.
    + apply nth_occurrence. exists m1, j, k', m2. auto.
  - intros ([k n]&Hx&La&Lb). apply lookup_spec in La as (l1&k1&l2&Ea&E1&C1), Lb as (m1&k2&m2&Eb&E2&C2).
    exists k1, k2, l1, l2, m1, m2. repeat split; auto.
    + eauto.
    + rewrite <- !(count_eqb k k1) by auto. congruence.
Qed.

Lemma same_entries_in e : In e same_entries <->
  match e with
  | (Moved, Some i, Some j) => moved = true /\ paired a b i j /\ i <> j
  | (NoChange, Some i, Some j) => unchanged = true /\ paired a b i j /\ (moved = true -> i = j)
  | _ => False
  end.
Proof.
  unfold same_entries. rewrite in_flat_map. split.
  - intros (x&Hx&H). apply (Permutation_in _ (proj1 Ho _)) in Hx.
    destruct (lookup x ta) as [i|] eqn:Li; [|destruct H]. destruct (lookup x tb) as [j|] eqn:Lj; [|destruct H].
    assert (P : paired a b i j) by (apply paired_spec; eauto).
    destruct (moved && negb (ieqb i j)) eqn:Em.
    + destruct H as [<-|[]]. apply andb_true_iff in Em as [-> En]. repeat split; auto.
      intros ->. apply negb_true_iff in En. rewrite (proj2 (ieq j j) eq_refl) in En. discriminate.
    + destruct unchanged; [|destruct H]. destruct H as [<-|[]]. repeat split; auto.
      intros M. rewrite M in Em. cbn in Em. apply negb_false_iff in Em. now apply ieq.
  - destruct e as [[[] [i|]] [j|]]; try tauto.
    + intros (U&P&M). apply paired_spec in P as (x&Hx&Li&Lj). exists x. split.
      * apply (Permutation_in _ (Permutation_sym (proj1 Ho _))). auto.
      * rewrite Li, Lj, U. destruct moved; cbn.
        -- rewrite (M eq_refl), (proj2 (ieq j j) eq_refl). now left.
        -- now left.
    + intros (M&P&N). apply paired_spec in P as (x&Hx&Li&Lj). exists x. split.
      * apply (Permutation_in _ (Permutation_sym (proj1 Ho _))). auto.
      * rewrite Li, Lj, M. destruct (ieqb i j) eqn:E; [apply ieq in E; congruence|]. now left.
Qed.

Definition rm := positions keqb removed ta.
Definition ad := positions keqb added tb.
Definition md := filter (fun i => imem ieqb i ad) rm.

Lemma rm_in i : In i rm <-> surplus a b i.
Proof. apply removed_in. Qed.
Lemma ad_in i : In i ad <-> surplus b a i.
Proof. apply removed_in. Qed.
Lemma md_in i : In i md <-> surplus a b i /\ surplus b a i.
Proof. unfold md. rewrite filter_In, imem_in, rm_in, ad_in. reflexivity. Qed.

Lemma seq_diff_unfold : seq_diff keqb ieqb o unchanged moved a b =
  (if unchanged || moved then same_entries else []) ++
  flat_map (fun i => if imem ieqb i md then [] else [(Removed, Some i, None)]) (positions keqb (o_removed o removed) ta) ++
  flat_map (fun i => if imem ieqb i md then [] else [(Added, None, Some i)]) (positions keqb (o_added o added) tb) ++
  map (fun i => (Modified, Some i, Some i)) (o_modified o md).
Proof. reflexivity. Qed.

Lemma rm_perm : Permutation (positions keqb (o_removed o removed) ta) rm.
Proof. apply positions_perm. apply Ho. Qed.
Lemma ad_perm : Permutation (positions keqb (o_added o added) tb) ad.
Proof. apply positions_perm. apply Ho. Qed.

Lemma entries_in e : In e (seq_diff keqb ieqb o unchanged moved a b) <->
  match e with
  | (Removed, Some i, None) => surplus a b i /\ ~ surplus b a i
  | (Added, None, Some i) => surplus b a i /\ ~ surplus a b i
  | (Modified, Some i, Some j) => i = j /\ surplus a b i /\ surplus b a i
  | (Moved, Some i, Some j) => moved = true /\ paired a b i j /\ i <> j
  | (NoChange, Some i, Some j) => unchanged = true /\ paired a b i j /\ (moved = true -> i = j)
  | _ => False
  end.
Proof.
  rewrite seq_diff_unfold, !in_app_iff.
  assert (S : In e (if unchanged || moved then same_entries else []) <-> In e same_entries).
  { destruct (unchanged || moved) eqn:E; [reflexivity|]. apply orb_false_iff in E as [Eu Em].
    split; [intros []|]. intros HS. apply same_entries_in in HS. destruct e as [[[] [i|]] [j|]]; try tauto.
    - destruct HS; congruence.
    - destruct HS; congruence. }
  rewrite S, same_entries_in. clear S.
  assert (R : In e (flat_map (fun i => if imem ieqb i md then [] else [(Removed, Some i, None)]) (positions keqb (o_removed o removed) ta)) <->
    exists i, e = (Removed, Some i, None) /\ surplus a b i /\ ~ surplus b a i).
  { rewrite in_flat_map. split.
    - intros (i&Hi&H). apply (Permutation_in _ rm_perm), rm_in in Hi. exists i.
      destruct (imem ieqb i md) eqn:E; [destruct H|]; destruct H as [<-|[]]. repeat split; auto.
      intros C. assert (In i md) as X by (apply md_in; auto). apply imem_in in X. congruence.
    - intros (i&->&Hi&N). exists i. split; [apply (Permutation_in _ (Permutation_sym rm_perm)), rm_in; auto|].
      destruct (imem ieqb i md) eqn:E; [|now left]. apply imem_in, md_in in E. tauto. }
  assert (A : In e (flat_map (fun i => if imem ieqb i md then [] else [(Added, None, Some i)]) (positions keqb (o_added o added) tb)) <->
    exists i, e = (Added, None, Some i) /\ surplus b a i /\ ~ surplus a b i).
  { rewrite in_flat_map. split.
    - intros (i&Hi&H). apply (Permutation_in _ ad_perm), ad_in in Hi. exists i.
      destruct (imem ieqb i md) eqn:E; [destruct H|]; destruct H as [<-|[]]. repeat split; auto.
      intros C. assert (In i md) as X by (apply md_in; auto). apply imem_in in X. congruence.
    - intros (i&->&Hi&N). exists i. split; [apply (Permutation_in _ (Permutation_sym ad_perm)), ad_in; auto|].
      destruct (imem ieqb i md) eqn:E; [|now left]. apply imem_in, md_in in E. tauto. }
  assert (M : In e (map (fun i => (Modified, Some i, Some i)) (o_modified o md)) <->
    exists i, e = (Modified, Some i, Some i) /\ surplus a b i /\ surplus b a i).
  { rewrite in_map_iff. split.
    - intros (i&<-&Hi). exists i. split; auto. apply md_in. eapply Permutation_in; [apply Ho|]; auto.
    - intros (i&->&Hi). exists i. split; auto. apply md_in in Hi.
      eapply Permutation_in; [apply Permutation_sym, Ho|]; auto. }
  rewrite R, A, M. destruct e as [[[] [i|]] [j|]]; split; intros H;
    try (destruct H as [H|[(x&E&?)|[(x&E&?)|(x&E&?)]]]; try discriminate; try (inversion E; subst); tauto);
    try tauto.
  - right. right. left. eauto.
  - right. left. eauto.
  - destruct H as (->&?). right. right. right. eauto.
Qed.

Lemma flat_nodup {X Y} (f : X -> list Y) l : NoDup l -> (forall x, In x l -> NoDup (f x)) ->
  (forall x y e, In x l -> In y l -> In e (f x) -> In e (f y) -> x = y) -> NoDup (flat_map f l).
Proof.
  intros D Hf Hx. induction D as [|x t Hn D IH]; cbn [flat_map]; [constructor|].
  assert (IH' : NoDup (flat_map f t)).
  { apply IH; intros; [apply Hf; now right|]. eapply Hx; eauto; now right. }
  assert (Dj : forall e, In e (f x) -> ~ In e (flat_map f t)).
  { intros e He H. apply in_flat_map in H as (y&Hy&Hey). apply Hn.
    rewrite (Hx x y e); auto; [now left|now right]. }
  assert (Nx : NoDup (f x)) by (apply Hf; now left).
  revert Nx Dj. generalize (f x) as l1. clear - IH'. intros l1 N Dj.
  induction N as [|e u He N IHu]; cbn [app]; auto. constructor.
  - intros H. apply in_app_or in H as [H|H]; [tauto|]. apply (Dj e); auto. now left.
  - apply IHu. intros e' He'. apply Dj. now right.
Qed.

Lemma NoDup_app_intro {X} (l m : list X) : NoDup l -> NoDup m -> (forall x, In x l -> ~ In x m) -> NoDup (l ++ m).
Proof.
  intros Dl Dm H. induction Dl as [|x t Hx Dt IH]; cbn [app]; auto. constructor.
  - intros C. apply in_app_or in C as [C|C]; [tauto|]. apply (H x); auto. now left.
  - apply IH. intros y Hy. apply H. now right.
Qed.

Lemma filter_NoDup {X} (f : X -> bool) l : NoDup l -> NoDup (filter f l).
Proof.
  induction 1; cbn [filter]; [constructor|]. destruct (f x); auto. constructor; auto.
  intros C. apply filter_In in C. tauto.
Qed.

Lemma rm_nodup : NoDup rm.
Proof.
  apply positions_nodup; auto.
  - apply filter_NoDup. apply tag_nodup.
  - intros x Hx. apply filter_In in Hx. tauto.
Qed.
Lemma ad_nodup : NoDup ad.
Proof.
  apply positions_nodup; auto.
  - apply filter_NoDup. apply tag_nodup.
  - intros x Hx. apply filter_In in Hx. tauto.
Qed.
Lemma md_nodup : NoDup md.
Proof. apply filter_NoDup. apply rm_nodup. Qed.

(** Positions of pairs determine each other. *)
Lemma paired_fun i j j' : paired a b i j -> paired a b i j' -> j = j'.
Proof.
  intros (k&k'&l1&l2&m1&m2&Ea&Eb&E&Ec) (k2&k2'&l1'&l2'&m1'&m2'&Ea'&Eb'&E'&Ec').
  destruct (position_unique a l1 l2 l1' l2' i k k2 Da Ea Ea') as (->&->&->).
  rewrite Eb in Eb'. assert (keqb k' k2' = true) by eauto.
  eapply same_occurrence in Eb' as (_&?&_); eauto.
  rewrite <- !(count_eqb k2 k') by auto. congruence.
Qed.

Lemma entries_nodup : NoDup (seq_diff keqb ieqb o unchanged moved a b).
Proof.
  rewrite seq_diff_unfold.
  assert (S : NoDup (if unchanged || moved then same_entries else [])).
  { destruct (unchanged || moved); [|constructor]. unfold same_entries. apply flat_nodup.
    - eapply Permutation_NoDup; [apply Permutation_sym, Ho|]. apply filter_NoDup. apply tag_nodup.
    - intros x _. destruct (lookup x ta); [|constructor]. destruct (lookup x tb); [|constructor].
      destruct (moved && negb (ieqb i i0)); [repeat constructor; auto|]. destruct unchanged; repeat constructor; auto.
    - intros [k n] [k2 n2] e Hx Hy He1 He2.
      assert (G : forall x, In e (match lookup x ta with Some i => match lookup x tb with Some j =>
           if moved && negb (ieqb i j) then [(Moved, Some i, Some j)]
           else if unchanged then [(NoChange, Some i, Some j)] else [] | None => [] end | None => [] end) ->
           exists i, snd (fst e) = Some i /\ lookup x ta = Some i).
      { intros x H. destruct (lookup x ta) as [i|]; [|destruct H]. destruct (lookup x tb) as [j|]; [|destruct H].
        destruct (moved && negb (ieqb i j)); [destruct H as [<-|[]]; exists i; auto|].
        revert H. case unchanged; intros H'; [destruct H' as [<-|[]]; exists i; auto|destruct H']. }
      destruct (G _ He1) as (i&E1&L1), (G _ He2) as (i'&E2&L2). rewrite E1 in E2. inversion E2; subst i'. clear E1 E2.
      pose proof (Permutation_in _ (proj1 Ho _) Hx) as Hx'. pose proof (Permutation_in _ (proj1 Ho _) Hy) as Hy'.
      apply filter_In in Hx' as [Hx' _], Hy' as [Hy' _].
      apply in_map_iff in Hx' as ([x1 i1]&Ex&Hx'), Hy' as ([x2 i2]&Ey&Hy'). cbn in Ex, Ey. subst x1 x2.
      apply lookup_spec in L1 as (l1&k'&l2&El&E1&C1), L2 as (m1&k3&m2&Em&E3&C4).
      destruct (position_unique a l1 l2 m1 m2 i k' k3 Da El Em) as (->&->&->).
      assert (keqb k k2 = true) by eauto.
      assert (n = n2) by (rewrite <- C1, <- C4; now apply count_eqb).
      assert (X : ((k, n), i1) = ((k2, n2), i2)).
      { apply (proj2 (tag_nodup a [])); auto. apply teqb_true. auto. }
      inversion X; subst. auto. }
  assert (R : NoDup (flat_map (fun i => if imem ieqb i md then [] else [(Removed, Some i, @None I)]) (positions keqb (o_removed o removed) ta))).
  { apply flat_nodup.
    - eapply Permutation_NoDup; [apply Permutation_sym, rm_perm|]. apply rm_nodup.
    - intros x _. destruct (imem ieqb x md); repeat constructor; auto.
    - intros x y e _ _ Hx Hy. destruct (imem ieqb x md); [destruct Hx|]. destruct (imem ieqb y md); [destruct Hy|].
      destruct Hx as [<-|[]], Hy as [E|[]]. now inversion E. }
  assert (A : NoDup (flat_map (fun i => if imem ieqb i md then [] else [(Added, @None I, Some i)]) (positions keqb (o_added o added) tb))).
  { apply flat_nodup.
    - eapply Permutation_NoDup; [apply Permutation_sym, ad_perm|]. apply ad_nodup.
    - intros x _. destruct (imem ieqb x md); repeat constructor; auto.
    - intros x y e _ _ Hx Hy. destruct (imem ieqb x md); [destruct Hx|]. destruct (imem ieqb y md); [destruct Hy|].
      destruct Hx as [<-|[]], Hy as [E|[]]. now inversion E. }
  assert (M : NoDup (map (fun i : I => (Modified, Some i, Some i)) (o_modified o md))).
  { apply FinFun.Injective_map_NoDup; [intros x y E; now inversion E|].
    eapply Permutation_NoDup; [apply Permutation_sym, Ho|]. apply md_nodup. }
  assert (Rt : forall e, In e (flat_map (fun i => if imem ieqb i md then [] else [(Removed, Some i, @None I)]) (positions keqb (o_removed o removed) ta)) -> fst (fst e) = Removed).
  { intros e H. apply in_flat_map in H as (i&_&H). destruct (imem ieqb i md); [destruct H|]; destruct H as [<-|[]]; auto. }
  assert (At : forall e, In e (flat_map (fun i => if imem ieqb i md then [] else [(Added, @None I, Some i)]) (positions keqb (o_added o added) tb)) -> fst (fst e) = Added).
  { intros e H. apply in_flat_map in H as (i&_&H). destruct (imem ieqb i md); [destruct H|]; destruct H as [<-|[]]; auto. }
  assert (Mt : forall e, In e (map (fun i : I => (Modified, Some i, Some i)) (o_modified o md)) -> fst (fst e) = Modified).
  { intros e H. apply in_map_iff in H as (i&<-&_). auto. }
  apply NoDup_app_intro; auto.
  - apply NoDup_app_intro; auto.
    + apply NoDup_app_intro; auto. intros x Hx Hy. apply At in Hx. apply Mt in Hy. congruence.
    + intros x Hx Hy. apply Rt in Hx. apply in_app_or in Hy as [Hy|Hy]; [apply At in Hy|apply Mt in Hy]; congruence.
  - intros x Hx Hy. destruct (unchanged || moved); [|destruct Hx]. apply same_entries_in in Hx.
    destruct x as [[[] [i|]] [j|]]; try tauto;
      apply in_app_or in Hy as [Hy|Hy]; [apply Rt in Hy| |apply Rt in Hy|];
      try discriminate; apply in_app_or in Hy as [Hy|Hy]; [apply At in Hy|apply Mt in Hy|apply At in Hy|apply Mt in Hy]; discriminate.
Qed.

End Entries.
End SeqDiff.
