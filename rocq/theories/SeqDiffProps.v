(** C28 (and the simple part of C29): comparing simple lists and dicts. *)
From Coq Require Import String List Arith NArith ZArith Bool Lia Permutation.
From Verif Require Import Prelude TextModel SeqDiffModel SeqDiffProofs.
Import ListNotations.

Section Abstract.
Context {K I : Type}.
Variable keqb : K -> K -> bool.
Variable ieqb : I -> I -> bool.

(** The equality of hashable values is an equivalence, that of positions is equality. *)
Definition equalities : Prop :=
  (forall x, keqb x x = true) /\ (forall x y, keqb x y = true -> keqb y x = true) /\
  (forall x y z, keqb x y = true -> keqb y z = true -> keqb x z = true) /\
  (forall i j, ieqb i j = true <-> i = j).

Notation seq_diff := (seq_diff keqb ieqb).
Notation count := (count keqb).
Notation surplus := (surplus keqb).
Notation paired := (paired keqb).

Section Fix.
Hypothesis E : equalities.
Variable o : orders K I.
Hypothesis Ho : set_orders o.
Variables a b : list (I * K).
Hypothesis Da : NoDup (map fst a).
Hypothesis Db : NoDup (map fst b).

Lemma exact unchanged moved e : In e (seq_diff o unchanged moved a b) <->
  match e with
  | (Removed, Some i, None) => surplus a b i /\ ~ surplus b a i
  | (Added, None, Some i) => surplus b a i /\ ~ surplus a b i
  | (Modified, Some i, Some j) => i = j /\ surplus a b i /\ surplus b a i
  | (Moved, Some i, Some j) => moved = true /\ paired a b i j /\ i <> j
  | (NoChange, Some i, Some j) => unchanged = true /\ paired a b i j /\ (moved = true -> i = j)
  | _ => False
  end.
Proof. destruct E as (E1&E2&E3&E4). now apply entries_in. Qed.

Lemma nodup unchanged moved : NoDup (seq_diff o unchanged moved a b).
Proof. destruct E as (E1&E2&E3&E4). now apply entries_nodup. Qed.

End Fix.

(** Every item has a partner iff no value occurs more often. *)
Lemma no_surplus (E : equalities) (a b : list (I * K)) : (forall i, ~ surplus a b i) <-> forall k, count k a <= count k b.
Proof.
  destruct E as (E1&E2&E3&E4). split.
  - intros H k. destruct (Nat.le_gt_cases (count k a) (count k b)) as [C|C]; auto. exfalso.
    apply (nth_occurrence keqb) in C as (l1&i&k'&l2&->&Ek&Ec).
    apply (H i). exists k', l1, l2. split; auto.
    rewrite <- !(count_eqb keqb E2 E3 k k') by auto. lia.
  - intros H i (k&l1&l2&->&C). specialize (H k).
    rewrite (count_app keqb), (count_cons keqb), E1 in H. lia.
Qed.

End Abstract.

Section Props.
Context {A U I : Type}.
Variable aeqb : A -> A -> bool.
Variable a_isnone : A -> bool.
Variable repr : U -> str.
Variable norm : str -> str.
Variable ignore_empty_slots : bool.
Variable cas : item A U -> item A U.
Variable ieqb : I -> I -> bool.

Definition hashable_equality : Prop :=
  (forall x, aeqb x x = true) /\ (forall x y, aeqb x y = true -> aeqb y x = true) /\
  (forall x y z, aeqb x y = true -> aeqb y z = true -> aeqb x z = true).

Hypothesis HA : hashable_equality.
Hypothesis HI : forall i j, ieqb i j = true <-> i = j.

Notation keyed := (keyed a_isnone repr norm ignore_empty_slots cas).
Notation diff := (simple_diff aeqb a_isnone repr norm ignore_empty_slots cas ieqb).
Notation keyb := (keyb aeqb).

(** How many of the items have the normalised value [k]. *)
Definition occurs (k : key A) (l : list (I * item A U)) : nat := count keyb k (keyed l).

(** the item at [i] has no partner, see SeqDiffProofs *)
Notation lonely a b i := (surplus keyb (keyed a) (keyed b) i).
Notation partners a b i j := (paired keyb (keyed a) (keyed b) i j).

Lemma key_equalities : equalities keyb ieqb.
Proof.
  destruct HA as (A1&A2&A3). repeat split.
  - intros [s|a]; cbn; auto. apply str_eqb_refl.
  - intros [s|a] [t|b]; cbn; auto. rewrite !str_eqb_eq. congruence.
  - intros [s|a] [t|b] [u|c]; cbn; eauto; try discriminate. rewrite !str_eqb_eq. congruence.
  - apply HI.
  - apply HI.
Qed.

Lemma keyed_nodup (l : list (I * item A U)) : NoDup (map fst l) -> NoDup (map fst (keyed l)).
Proof.
  assert (G : forall i (l : list (I * item A U)), In i (map fst (keyed l)) -> In i (map fst l)).
  { intros i m. induction m as [|x t IH]; cbn; auto. destruct (item_key _ _ _ _ _ _); cbn; tauto. }
  induction l as [|x t IH]; cbn; auto. intros D. inversion D; subst.
  destruct (item_key _ _ _ _ _ _); cbn; auto. constructor; auto.
Qed.

Section Fix.
Variable o : orders (key A) I.
Hypothesis Ho : set_orders o.
Variables a b : list (I * item A U).
Hypothesis Da : NoDup (map fst a).
Hypothesis Db : NoDup (map fst b).

(** The entries, exactly: an item without partner is reported REMOVED (ADDED), unless its
    position has no partner on the other side either, in which case the position is
    MODIFIED; pairs are reported only on demand. *)
Theorem C28_entries : forall unchanged moved e, In e (diff o unchanged moved a b) <->
  match e with
  | (Removed, Some i, None) => lonely a b i /\ ~ lonely b a i
  | (Added, None, Some i) => lonely b a i /\ ~ lonely a b i
  | (Modified, Some i, Some j) => i = j /\ lonely a b i /\ lonely b a i
  | (Moved, Some i, Some j) => moved = true /\ partners a b i j /\ i <> j
  | (NoChange, Some i, Some j) => unchanged = true /\ partners a b i j /\ (moved = true -> i = j)
  | _ => False
  end.
Proof. intros. apply exact; auto using key_equalities, keyed_nodup. Qed.

Theorem C28_no_duplicates : forall unchanged moved, NoDup (diff o unchanged moved a b).
Proof. intros. apply nodup; auto using key_equalities, keyed_nodup. Qed.

(** Nothing is reported iff the same normalised values occur equally often. *)
Theorem C28_empty_iff_same_multiset : diff o false false a b = [] <-> forall k, occurs k a = occurs k b.
Proof.
  pose proof key_equalities as E.
  assert (Na := no_surplus keyb ieqb E (keyed a) (keyed b)).
  assert (Nb := no_surplus keyb ieqb E (keyed b) (keyed a)).
  split.
  - intros H.
    assert (X : forall i, ~ lonely a b i /\ ~ lonely b a i).
    { intros i. 
      assert (N1 : ~ (lonely a b i /\ ~ lonely b a i)).
      { intros C. apply (C28_entries false false (Removed, Some i, None)) in C. rewrite H in C. destruct C. }
      assert (N2 : ~ (lonely b a i /\ ~ lonely a b i)).
      { intros C. apply (C28_entries false false (Added, None, Some i)) in C. rewrite H in C. destruct C. }
      assert (N3 : ~ (lonely a b i /\ lonely b a i)).
      { intros C. assert (D : i = i /\ lonely a b i /\ lonely b a i) by tauto.
        apply (C28_entries false false (Modified, Some i, Some i)) in D. rewrite H in D. destruct D. }
      destruct key_equalities as (E1&E2&E3&E4).
      assert (Dec : lonely b a i \/ ~ lonely b a i).
      { rewrite <- (removed_in keyb E1 E2 E3 (keyed b) (keyed a) i).
        match goal with |- In i ?l \/ _ => destruct (imem ieqb i l) eqn:M end.
        - left. now apply (imem_in ieqb E4).
        - right. intros C. apply (imem_in ieqb E4) in C. congruence. }
      tauto. }
    intros k. apply Nat.le_antisymm.
    + apply (proj1 Na). intros i. apply X.
    + apply (proj1 Nb). intros i. apply X.
  - intros H. destruct (diff o false false a b) as [|e l] eqn:D; auto. exfalso.
    assert (I1 : In e (diff o false false a b)) by (rewrite D; now left).
    apply C28_entries in I1.
    assert (Na' : forall i, ~ lonely a b i) by (apply (proj2 Na); intros k; apply Nat.eq_le_incl, H).
    assert (Nb' : forall i, ~ lonely b a i) by (apply (proj2 Nb); intros k; apply Nat.eq_le_incl; symmetry; apply H).
    destruct e as [[[] [i|]] [j|]]; try tauto; destruct I1 as [U1 U2]; try discriminate.
    + exact (Nb' j U1).
    + exact (Na' i U1).
    + exact (Na' i (proj1 U2)).
Qed.

(** Each position occurs at most once per side. *)
Theorem C28_positions_once : forall unchanged moved,
  (forall e e' i, In e (diff o unchanged moved a b) -> In e' (diff o unchanged moved a b) ->
     snd (fst e) = Some i -> snd (fst e') = Some i -> e = e') /\
  (forall e e' j, In e (diff o unchanged moved a b) -> In e' (diff o unchanged moved a b) ->
     snd e = Some j -> snd e' = Some j -> e = e').
Proof.
  intros unchanged moved. pose proof key_equalities as (E1&E2&E3&E4).
  assert (P1 : forall (a b : list (I * item A U)) i j j', NoDup (map fst a) -> NoDup (map fst b) ->
     partners a b i j -> partners a b i j' -> j = j').
  { intros x y i j j' Dx Dy. apply paired_fun; auto using keyed_nodup. }
  assert (P2 : forall (a b : list (I * item A U)) i j, partners a b i j -> partners b a j i).
  { intros x y i j (k&k'&l1&l2&m1&m2&Ea&Eb&Ek&Ec). exists k', k, m1, m2, l1, l2. repeat split; auto.
    rewrite <- !(count_eqb keyb E2 E3 k k') by auto. auto. }
  assert (P3 : forall (a b : list (I * item A U)) i j, NoDup (map fst a) -> partners a b i j -> ~ lonely a b i).
  { intros x y i j Dx (k&k'&l1&l2&m1&m2&Ea&Eb&Ek&Ec) (k2&n1&n2&Ea2&C).
    apply keyed_nodup in Dx.
    destruct (position_unique (keyed x) l1 l2 n1 n2 i k k2 Dx Ea Ea2) as (->&->&->).
    rewrite Eb, (count_app keyb), (count_cons keyb), Ek in C. lia. }
  assert (P4 : forall i j, partners a b i j -> ~ lonely a b i /\ ~ lonely b a j).
  { intros i j H. split; [eapply P3; eauto|]. apply P2 in H. eapply P3; eauto. }
  assert (P1a : forall i j j', partners a b i j -> partners a b i j' -> j = j') by (intros i j j' H H'; exact (P1 a b i j j' Da Db H H')).
  assert (P1b : forall i i' j, partners a b i j -> partners a b i' j -> i = i').
  { intros i i' j H H'. apply P2 in H, H'. exact (P1 b a j i i' Db Da H H'). }
  split.
  - intros [[d [i1|]] j1] [[d' [i2|]] j2] i He He' Ei Ei'; cbn in Ei, Ei'; try discriminate.
    inversion Ei; inversion Ei'; subst. apply C28_entries in He. apply C28_entries in He'.
    destruct d, j1 as [j1|]; try tauto; destruct d', j2 as [j2|]; try tauto;
    repeat match goal with H : _ /\ _ |- _ => destruct H end; subst; auto; try tauto;
    try match goal with H : partners a b ?i ?j, H2 : lonely a b ?i |- _ => exfalso; exact (proj1 (P4 i j H) H2) end;
    match goal with H : partners a b ?i ?x, H2 : partners a b ?i ?y |- _ => pose proof (P1a i x y H H2); subst end;
    auto; exfalso; intuition congruence.
  - intros [[d i1] [j1|]] [[d' i2] [j2|]] j He He' Ei Ei'; cbn in Ei, Ei'; try discriminate.
    inversion Ei; inversion Ei'; subst. apply C28_entries in He. apply C28_entries in He'.
    destruct d, i1 as [i1|]; try tauto; destruct d', i2 as [i2|]; try tauto;
    repeat match goal with H : _ /\ _ |- _ => destruct H end; subst; auto; try tauto;
    try match goal with H : partners a b ?i ?j, H2 : lonely b a ?j |- _ => exfalso; exact (proj2 (P4 i j H) H2) end;
    match goal with H : partners a b ?x ?i, H2 : partners a b ?y ?i |- _ => pose proof (P1b x y i H H2); subst end;
    auto; exfalso; intuition congruence.
Qed.

(** An item that has no partner holds a value in surplus on its side. *)
Theorem C28_lonely_is_surplus : forall i, lonely a b i ->
  exists v k, In (i, v) a /\ item_key a_isnone repr norm ignore_empty_slots cas v = Some k /\
    occurs k b < occurs k a.
Proof.
  pose proof key_equalities as (E1&E2&E3&E4).
  intros i (k&l1&l2&Ek&C).
  assert (Hin : In (i, k) (keyed a)) by (rewrite Ek; apply in_or_app; right; now left).
  unfold SeqDiffModel.keyed in Hin. apply in_flat_map in Hin as ([j v]&Hv&H). cbn in H.
  destruct (item_key _ _ _ _ _ v) as [k'|] eqn:Ev; [|destruct H]. destruct H as [H|[]].
  inversion H; subst. exists v, k. repeat split; auto.
  unfold occurs. rewrite Ek. rewrite (count_app keyb), (count_cons keyb), E1. lia.
Qed.

End Fix.

(** C29 for simple lists and dicts: swapping the arguments swaps the sides and exchanges
    ADDED and REMOVED. *)
Definition swap (e : entry I) : entry I :=
  let '(d, x, y) := e in
  (match d with Added => Removed | Removed => Added | _ => d end, y, x).

Theorem C29_simple : forall o o' unchanged moved a b, set_orders o -> set_orders o' ->
  NoDup (map fst a) -> NoDup (map fst b) ->
  Permutation (diff o' unchanged moved b a) (map swap (diff o unchanged moved a b)).
Proof.
  intros o o' un mo a b Ho Ho' Da Db. pose proof key_equalities as (E1&E2&E3&E4).
  assert (P2 : forall (a b : list (I * item A U)) i j, partners a b i j -> partners b a j i).
  { intros x y i j (k&k'&l1&l2&m1&m2&Ea&Eb&Ek&Ec). exists k', k, m1, m2, l1, l2. repeat split; auto.
    rewrite <- !(count_eqb keyb E2 E3 k k') by auto. auto. }
  assert (SS : forall e, swap (swap e) = e) by (intros [[[] x] y]; reflexivity).
  apply NoDup_Permutation.
  - now apply C28_no_duplicates.
  - apply FinFun.Injective_map_NoDup; [|now apply C28_no_duplicates].
    intros x y H. rewrite <- (SS x), <- (SS y). now f_equal.
  - intros e. rewrite in_map_iff.
    assert (G : In e (diff o' un mo b a) <-> In (swap e) (diff o un mo a b)).
    { rewrite !C28_entries by auto. destruct e as [[[] [i|]] [j|]]; cbn; try tauto.
      - split; intros (A1&A2&A3); repeat split; auto; intros M; symmetry; auto.
      - split; intros (->&A2&A3); auto.
      - split; intros (A1&A2&A3); repeat split; auto. }
    rewrite G. split.
    + intros H. exists (swap e). auto.
    + intros (x&<-&Hx). now rewrite SS.
Qed.

End Props.

(** Numbers of entries of one type *)
Definition how_many {I} (d : dtype) (l : list (dtype * option I * option I)) : nat :=
  length (filter (fun e => match fst (fst e), d with
    | NoChange, NoChange | Added, Added | Removed, Removed | Modified, Modified | Moved, Moved => true
    | _, _ => false end) l).

Section Lengths.
Context {A U I : Type}.
Variable aeqb : A -> A -> bool.
Variable a_isnone : A -> bool.
Variable repr : U -> str.
Variable norm : str -> str.
Variable ignore_empty_slots : bool.
Variable cas : item A U -> item A U.
Variable ieqb : I -> I -> bool.
Hypothesis HA : hashable_equality aeqb.
Hypothesis HI : forall i j, ieqb i j = true <-> i = j.
Notation keyed := (keyed a_isnone repr norm ignore_empty_slots cas).
Notation diff := (simple_diff aeqb a_isnone repr norm ignore_empty_slots cas ieqb).
Notation keyb := (keyb aeqb).

Lemma how_many_app {J} d (l m : list (dtype * option J * option J)) : how_many d (l ++ m) = how_many d l + how_many d m.
Proof. unfold how_many. now rewrite filter_app, app_length. Qed.

(** removals minus additions is the difference of the lengths (of what is compared) *)
Theorem C28_lengths : forall o unchanged moved (a b : list (I * item A U)), set_orders o ->
  NoDup (map fst a) -> NoDup (map fst b) ->
  how_many Removed (diff o unchanged moved a b) + length (keyed b) =
  how_many Added (diff o unchanged moved a b) + length (keyed a).
Proof.
  intros o un mo a b Ho Da Db.
  pose proof (key_equalities aeqb ieqb HA HI) as (E1&E2&E3&E4).
  apply (keyed_nodup a_isnone repr norm ignore_empty_slots cas) in Da, Db.
  unfold simple_diff. revert Da Db. generalize (keyed a) as x, (keyed b) as y. clear a b. intros a b Da Db.
  rewrite (seq_diff_unfold keyb ieqb). rewrite !how_many_app.
  set (ta := tag keyb [] a). set (tb := tag keyb [] b).
  set (R := filter (fun x => negb (tmem keyb x (map fst tb))) (map fst ta)).
  set (D := filter (fun x => negb (tmem keyb x (map fst ta))) (map fst tb)).
  set (M := md keyb ieqb a b).
  assert (S0 : forall d, d = Removed \/ d = Added -> how_many d (if un || mo then same_entries keyb ieqb o un mo a b else []) = 0).
  { intros d Hd. destruct (un || mo); [|destruct Hd; subst; reflexivity]. 
    assert (Q : forall l : list (dtype * option I * option I), (forall e, In e l -> fst (fst e) = Moved \/ fst (fst e) = NoChange) -> how_many d l = 0).
    { induction l as [|e l IH]; auto. intros H. unfold how_many. cbn [filter].
      destruct (H e (or_introl eq_refl)) as [-> | ->]; destruct Hd; subst; apply IH; intros; apply H; now right. }
    apply Q. intros e He.
    apply (same_entries_in keyb ieqb E1 E2 E3 E4 o Ho) in He. destruct e as [[[] [i|]] [j|]]; cbn; tauto. }
  rewrite !S0 by auto.
  assert (M0 : forall d l, d = Removed \/ d = Added -> how_many d (map (fun i : I => (Modified, Some i, Some i)) l) = 0).
  { intros d l [-> | ->]; induction l; auto. }
  rewrite !M0 by auto.
  assert (R1 : forall l, how_many Removed (flat_map (fun i => if imem ieqb i M then [] else [(Removed, Some i, @None I)]) l)
     = length (filter (fun i => negb (imem ieqb i M)) l)).
  { intros l. induction l as [|i l IH]; auto. cbn [flat_map]. rewrite how_many_app, IH. cbn [filter].
    destruct (imem ieqb i M); reflexivity. }
  assert (R2 : forall l, how_many Added (flat_map (fun i => if imem ieqb i M then [] else [(Removed, Some i, @None I)]) l) = 0).
  { intros l. induction l as [|i l IH]; auto. cbn [flat_map]. rewrite how_many_app, IH. destruct (imem ieqb i M); reflexivity. }
  assert (A1 : forall l, how_many Added (flat_map (fun i => if imem ieqb i M then [] else [(Added, @None I, Some i)]) l)
     = length (filter (fun i => negb (imem ieqb i M)) l)).
  { intros l. induction l as [|i l IH]; auto. cbn [flat_map]. rewrite how_many_app, IH. cbn [filter].
    destruct (imem ieqb i M); reflexivity. }
  assert (A2 : forall l, how_many Removed (flat_map (fun i => if imem ieqb i M then [] else [(Added, @None I, Some i)]) l) = 0).
  { intros l. induction l as [|i l IH]; auto. cbn [flat_map]. rewrite how_many_app, IH. destruct (imem ieqb i M); reflexivity. }
  rewrite R1, R2, A1, A2.
  assert (FL : forall X (f : X -> bool) l, length (filter f l) + length (filter (fun x => negb (f x)) l) = length l).
  { intros X f l. induction l as [|x l IH]; auto. cbn. destruct (f x); cbn; lia. }
  assert (PL : forall l l' (f : I -> bool), Permutation l l' -> length (filter f l) = length (filter f l')).
  { intros l l' f P. apply Permutation_length. induction P; cbn; auto.
    - destruct (f x); auto.
    - destruct (f y), (f x); auto. constructor.
    - etransitivity; eauto. }
  rewrite (PL _ _ _ (rm_perm keyb o Ho a b)), (PL _ _ _ (ad_perm keyb o Ho a b)).
  set (rm := rm keyb a b). set (ad := ad keyb a b).
  assert (Hr : length (filter (fun i => imem ieqb i M) rm) = length M).
  { f_equal. unfold M, md. fold rm ad. 
    assert (G : forall l, (forall i, In i l -> In i rm) -> filter (fun i => imem ieqb i (filter (fun i => imem ieqb i ad) rm)) l = filter (fun i => imem ieqb i ad) l).
    { induction l as [|i l IH]; intros Hl; auto. cbn [filter].
      rewrite IH by (intros; apply Hl; now right).
      assert (imem ieqb i (filter (fun i => imem ieqb i ad) rm) = imem ieqb i ad) as ->; auto.
      destruct (imem ieqb i ad) eqn:F.
      - apply (imem_in ieqb E4). apply filter_In. split; auto. apply Hl. now left.
      - destruct (imem ieqb i (filter _ rm)) eqn:F2; auto. apply (imem_in ieqb E4), filter_In in F2. destruct F2; congruence. }
    now apply G. }
  assert (Ha : length (filter (fun i => imem ieqb i M) ad) = length M).
  { apply Permutation_length. apply NoDup_Permutation.
    - apply filter_NoDup. apply (ad_nodup keyb E1 E2 E3); auto.
    - apply filter_NoDup. apply (rm_nodup keyb E1 E2 E3); auto.
    - intros i. rewrite filter_In, (imem_in ieqb E4). unfold M. rewrite (md_in keyb ieqb E1 E2 E3 E4).
      unfold ad. rewrite (ad_in keyb E1 E2 E3). tauto. }
  pose proof (FL _ (fun i => imem ieqb i M) rm) as F1. pose proof (FL _ (fun i => imem ieqb i M) ad) as F2.
  (* lengths of rm and ad *)
  assert (LP : forall l (xs : list (key A * nat)), (forall x, In x xs -> tmem keyb x (map fst (tag keyb [] l)) = true) ->
     length (positions keyb xs (tag keyb (I:=I) [] l)) = length xs).
  { intros l xs H. induction xs as [|x xs IH]; auto. cbn [positions flat_map]. rewrite app_length.
    fold (positions keyb xs (tag keyb [] l)). rewrite IH by (intros; apply H; now right).
    destruct (lookup_total keyb x (tag keyb [] l) (H x (or_introl eq_refl))) as [i ->]. reflexivity. }
  assert (Self : forall l x, In x (map fst (tag keyb (I:=I) [] l)) -> tmem keyb x (map fst (tag keyb [] l)) = true).
  { intros l x Hx. unfold tmem. apply existsb_exists. exists x. split; auto. unfold teqb. now rewrite E1, Nat.eqb_refl. }
  assert (Lr : length rm = length R).
  { apply LP. intros x Hx. apply filter_In in Hx as [Hx _]. auto. }
  assert (La : length ad = length D).
  { apply LP. intros x Hx. apply filter_In in Hx as [Hx _]. auto. }
  pose proof (FL _ (fun x => tmem keyb x (map fst tb)) (map fst ta)) as G1. fold R in G1.
  pose proof (FL _ (fun x => tmem keyb x (map fst ta)) (map fst tb)) as G2. fold D in G2.
  assert (Lt : forall l seen, length (map fst (tag keyb (I:=I) seen l)) = length l).
  { induction l as [|[i v] l IH]; intros seen; cbn; auto. }
  pose proof (Lt a [] : length (map fst ta) = length a) as La'.
  pose proof (Lt b [] : length (map fst tb) = length b) as Lb'.
  (* the common part has the same size on both sides *)
  assert (Cm : length (filter (fun x => tmem keyb x (map fst tb)) (map fst ta)) = length (filter (fun x => tmem keyb x (map fst ta)) (map fst tb))).
  { assert (Le : forall a b : list (I * key A), length (filter (fun x => tmem keyb x (map fst (tag keyb [] b))) (map fst (tag keyb [] a))) <=
        length (filter (fun x => tmem keyb x (map fst (tag keyb [] a))) (map fst (tag keyb [] b)))).
    { clear - E1 E2 E3 E4 HI. intros a b.
      set (find := fun x => find (teqb keyb x) (map fst (tag keyb [] b))).
      set (l := filter (fun x => tmem keyb x (map fst (tag keyb [] b))) (map fst (tag keyb [] a))).
      assert (Tot : forall x, In x l -> exists y, find x = Some y /\ teqb keyb x y = true /\ In y (map fst (tag keyb [] b))).
      { intros x Hx. apply filter_In in Hx as [_ Hx]. unfold tmem in Hx. apply existsb_exists in Hx as (y&Hy&Ey).
        destruct (find x) as [z|] eqn:F.
        - apply List.find_some in F as [F1 F2]. exists z. auto.
        - eapply List.find_none in F; eauto. congruence. }
      transitivity (length (map (fun x => match find x with Some y => y | None => x end) l)); [now rewrite map_length|].
      apply NoDup_incl_length.
      - assert (Dl : NoDup l) by (apply filter_NoDup; apply (tag_nodup keyb E1 E2 E3)).
        assert (Sub : forall x, In x l -> In x (map fst (tag keyb [] a))) by (intros x Hx; apply filter_In in Hx; tauto).
        clear - Dl Tot Sub E1 E2 E3. induction Dl as [|x l Hx Dl IH]; cbn; constructor.
        + intros C. apply in_map_iff in C as (y&Ey&Hy). apply Hx.
          destruct (Tot x (or_introl eq_refl)) as (u&Fu&Eu&_), (Tot y (or_intror Hy)) as (v&Fv&Ev&_).
          rewrite Fu, Fv in Ey. subst v.
          assert (Txy : teqb keyb x y = true).
          { apply teqb_true in Eu as [A1 A2], Ev as [B1 B2]. apply teqb_true. split; [eapply E3; eauto|congruence]. }
          pose proof (Sub x (or_introl eq_refl)) as Sx. pose proof (Sub y (or_intror Hy)) as Sy.
          apply in_map_iff in Sx as ([x0 i]&Q1&Sx), Sy as ([y0 j]&Q2&Sy). cbn in Q1, Q2. subst x0 y0.
          assert (Z : (x, i) = (y, j)) by (apply (proj2 (tag_nodup keyb E1 E2 E3 a [])); auto).
          inversion Z; subst. auto.
        + apply IH; intros; [apply Tot|apply Sub]; now right.
      - intros y Hy. apply in_map_iff in Hy as (x&Ex&Hx). destruct (Tot x Hx) as (z&Fz&Ez&Hz). rewrite Fz in Ex. subst z.
        apply filter_In. split; auto. apply filter_In in Hx as [Hx _]. unfold tmem. apply existsb_exists.
        exists x. split; auto. apply teqb_true in Ez as [A1 A2]. apply teqb_true. split; auto. }
    apply Nat.le_antisymm; apply Le. }
  cbn beta in *. fold R in G1. fold D in G2. lia.
Qed.

End Lengths.

(** *** Examples *)

Definition ex_id : orders (key Z) nat := {| o_unchanged := fun l => l; o_removed := fun l => l; o_added := fun l => l; o_modified := fun l => l |}.
Definition ex_rev : orders (key Z) nat := {| o_unchanged := @rev _; o_removed := @rev _; o_added := @rev _; o_modified := @rev _ |}.
(** atoms are numbers, lists of lists of numbers are not hashable *)
Definition ex_repr (l : list nat) : str := match l with [1] => s2l "[1]" | _ => s2l "[]" end.
Definition ex_lower (s : str) : str := s.
Definition ex_diff o un mo := list_diff (A:=Z) (U:=list nat) Z.eqb (fun _ => false) ex_repr ex_lower false (fun x => x) o un mo.
Definition ex_a : list (item Z (list nat)) := [IAtom 1%Z; IAtom 2%Z; IText (s2l "x"); IAtom 1%Z; IAtom 7%Z].
Definition ex_b : list (item Z (list nat)) := [IAtom 2%Z; IAtom 3%Z; IText (s2l "x"); IAtom 1%Z].

Lemma seq_nodup n k : NoDup (seq k n).
Proof. apply seq_NoDup. Qed.
Lemma enumerate_nodup {X} (l : list X) : NoDup (map fst (enumerate l)).
Proof.
  unfold enumerate. assert (map fst (combine (seq 0 (length l)) l) = seq 0 (length l)) as ->; [|apply seq_NoDup].
  generalize 0 as k. induction l as [|x l IH]; intros k; cbn; [reflexivity|]. now rewrite IH.
Qed.

Example C28_case : ex_diff ex_id true true ex_a ex_b =
    [(Moved, Some 0, Some 3); (Moved, Some 1, Some 0); (NoChange, Some 2, Some 2);
     (Removed, Some 3, None); (Removed, Some 4, None); (Added, None, Some 1)] /\
  set_orders ex_id /\ hashable_equality Z.eqb /\
  NoDup (map fst (enumerate ex_a)) /\ NoDup (map fst (enumerate ex_b)) /\
  ex_diff ex_id false false [IAtom 1%Z; IAtom 2%Z] [IAtom 1%Z; IAtom 5%Z] = [(Modified, Some 1, Some 1)].
Proof.
  split; [reflexivity|]. split; [repeat split; intros; apply Permutation_refl|]. split; [|repeat split; auto using enumerate_nodup].
  split; [apply Z.eqb_refl|]. split; [intros x y; rewrite !Z.eqb_eq; congruence|intros x y z; rewrite !Z.eqb_eq; congruence].
Qed.

Example C29_simple_case : set_orders ex_rev /\
  ex_diff ex_rev true true ex_b ex_a =
    [(Moved, Some 3, Some 0); (NoChange, Some 2, Some 2); (Moved, Some 0, Some 1);
     (Removed, Some 1, None); (Added, None, Some 4); (Added, None, Some 3)].
Proof. split; [repeat split; intros; apply Permutation_sym, Permutation_rev|reflexivity]. Qed.

(** FINDING: items that are not hashable are replaced by the text of their repr
    (diff.py:815-816), so that the list [[1]] and the text "[1]" compare as the same item. *)
Theorem C28_repr_confusion_refuted :
  ~ forall (repr : list nat -> str) (a b : list (item Z (list nat))),
      list_diff Z.eqb (fun _ => false) repr (fun s => s) false (fun x => x) ex_id false false a b = [] ->
      Permutation a b.
Proof.
  intros H. specialize (H ex_repr [IUnhash [1]] [IText (s2l "[1]")] eq_refl).
  apply Permutation_length_1_inv in H. discriminate.
Qed.

Print Assumptions C28_entries.
Print Assumptions C28_no_duplicates.
Print Assumptions C28_empty_iff_same_multiset.
Print Assumptions C28_positions_once.
Print Assumptions C28_lonely_is_surplus.
Print Assumptions C29_simple.
Print Assumptions C28_lengths.
Print Assumptions C28_repr_confusion_refuted.
