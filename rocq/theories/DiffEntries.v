(** Which entries a comparison yields. *)
From Coq Require Import List Arith NArith ZArith Bool Lia Permutation.
From Verif Require Import Prelude SelPathModel FSModel PySeq MFSModel ValModel EqModel EqProofs SeqDiffModel SeqDiffProofs
  SeqDiffProps FuzzyModel FuzzyProps FuzzyFlip MFSProofs DiffModel DiffProofs DiffSwap DiffTotal DiffExact.
Import ListNotations.

(** ** Specification *)
Section Spec.
Context {A C : Type}.
Variable W : classes A C.
Notation val := (val A C).
Notation prop := (prop A C).
Variable veqb : val -> val -> bool.
Variable repr : val -> str.
Variable a_hash : A -> bool.
Variable opt : options.
Variable record_id : rtype C -> option mfs -> val -> res val.

Notation seen := (seen (A := A) (C := C) opt).
Notation counted := (counted W repr a_hash opt).
Notation identified := (identified record_id).

(** [p] is a property to compare of [a] and [b], which have the same type *)
Definition slots (a b : val) (p : prop) : Prop :=
  same_type a b /\ exists c, class_of a = Some c /\ In p (props W c) /\ compared opt p.
(** [a] is a list or a dict, or a collection of values without an item type *)
Definition loose (a : val) : Prop :=
  plain a \/ collection a /\ exists c, class_of a = Some c /\ ValModel.item W c = IPlain.
(** [a] is a collection of records *)
Definition strict (a : val) : Prop :=
  collection a /\ exists c d, class_of a = Some c /\ ValModel.item W c = IRec d.
(** what is said about matching items, on demand *)
Definition matching (t : dtype) (i j : elem) : Prop :=
  (t = Moved /\ o_moved opt = true /\ i <> j) \/
  (t = NoChange /\ o_unchanged_ opt = true /\ (o_moved opt = true -> i = j)).

(** Which of the items left over when comparing [a], found at the first path, with [b], found
    at the second one, are paired although their identities differ: this is up to fuzzy
    matching.  [fair] is what is known about it. *)
Definition pairing : Type := list elem -> list elem -> val -> val -> elem -> elem -> Prop.
Variable near : pairing.

(** [change fa fb a b t p q]: an entry of type [t] is due with the path [p] in the base [a] and
    [q] in the other [b], where these were found at [fa] and [fb]. *)
Inductive change : list elem -> list elem -> val -> val -> dtype -> list elem -> list elem -> Prop :=
| slot_removed fa fb a b p u : slots a b p -> seen p a = Some u -> seen p b = None ->
    change fa fb a b Removed [EStr (p_name p)] [EStr (p_name p)]
| slot_added fa fb a b p v : slots a b p -> seen p a = None -> seen p b = Some v ->
    change fa fb a b Added [EStr (p_name p)] [EStr (p_name p)]
| slot_modified fa fb a b p u v : slots a b p -> seen p a = Some u -> seen p b = Some v ->
    ~ same_type u v -> veqb u v = false -> change fa fb a b Modified [EStr (p_name p)] [EStr (p_name p)]
| slot_same fa fb a b p u v : slots a b p -> seen p a = Some u -> seen p b = Some v ->
    ~ same_type u v -> veqb u v = true -> o_unchanged_ opt = true -> change fa fb a b NoChange [EStr (p_name p)] [EStr (p_name p)]
| slot_inside fa fb a b p u v t q r : slots a b p -> seen p a = Some u -> seen p b = Some v ->
    same_type u v -> change (fa ++ [EStr (p_name p)]) (fb ++ [EStr (p_name p)]) u v t q r -> change fa fb a b t (EStr (p_name p) :: q) (EStr (p_name p) :: r)
| item_removed fa fb a b i : same_type a b -> loose a -> surplus veqb (counted a) (counted b) i ->
    ~ surplus veqb (counted b) (counted a) i -> change fa fb a b Removed [i] []
| item_added fa fb a b i : same_type a b -> loose a -> surplus veqb (counted b) (counted a) i ->
    ~ surplus veqb (counted a) (counted b) i -> change fa fb a b Added [] [i]
| item_modified fa fb a b i : same_type a b -> loose a -> surplus veqb (counted a) (counted b) i ->
    surplus veqb (counted b) (counted a) i -> change fa fb a b Modified [i] [i]
| item_same fa fb a b t i j : same_type a b -> loose a -> paired veqb (counted a) (counted b) i j ->
    matching t i j -> change fa fb a b t [i] [j]
| record_removed fa fb a b i : same_type a b -> strict a -> surplus (keqb veqb) (identified a) (identified b) i ->
    (forall j, ~ near fa fb a b i j) -> change fa fb a b Removed [i] []
| record_added fa fb a b i : same_type a b -> strict a -> surplus (keqb veqb) (identified b) (identified a) i ->
    (forall j, ~ near fa fb a b j i) -> change fa fb a b Added [] [i]
| record_same fa fb a b t i j : same_type a b -> strict a -> paired (keqb veqb) (identified a) (identified b) i j ->
    matching t i j -> change fa fb a b t [i] [j]
| record_inside fa fb a b i j x y t q r : same_type a b -> strict a -> paired (keqb veqb) (identified a) (identified b) i j ->
    In (i, x) (contents a) -> In (j, y) (contents b) -> change (fa ++ [i]) (fb ++ [j]) x y t q r -> change fa fb a b t (i :: q) (j :: r)
| record_near fa fb a b i j x y t q r : same_type a b -> strict a -> near fa fb a b i j ->
    In (i, x) (contents a) -> In (j, y) (contents b) -> change (fa ++ [i]) (fb ++ [j]) x y t q r -> change fa fb a b t (i :: q) (j :: r)
| record_near_moved fa fb a b i j x y : same_type a b -> strict a -> near fa fb a b i j ->
    In (i, x) (contents a) -> In (j, y) (contents b) -> o_moved opt = true -> i <> j -> change fa fb a b Moved [i] [j].

(** A path leads to a value, as far as comparison sees it. *)
Inductive at_path : val -> list elem -> val -> Prop :=
| at_here v : at_path v [] v
| at_slot v c p u q w : class_of v = Some c -> In p (props W c) -> seen p v = Some u -> at_path u q w ->
    at_path v (EStr (p_name p) :: q) w
| at_item v k u q w : In (k, u) (contents v) -> at_path u q w -> at_path v (k :: q) w.

(** Fuzzy matching pairs, if at all, items left over whose identities share something truthy;
    no item twice; and best first: if two items left over could be paired but are not paired with
    each other, one of them is paired in a match at least as good (see C32 for the quality). *)
Definition fair (falsy : val -> bool) : Prop := forall fa fb a b, same_type a b -> strict a -> wfv W a -> wfv W b ->
  (forall i j, near fa fb a b i j -> o_fuzzy opt = true /\
     surplus (keqb veqb) (identified a) (identified b) i /\ surplus (keqb veqb) (identified b) (identified a) j /\
     exists x y, In (i, x) (identified a) /\ In (j, y) (identified b) /\ shares veqb falsy x y) /\
  (forall i j j', near fa fb a b i j -> near fa fb a b i j' -> j = j') /\
  (forall i i' j, near fa fb a b i j -> near fa fb a b i' j -> i = i') /\
  (forall i j x y m, o_fuzzy opt = true ->
     surplus (keqb veqb) (identified a) (identified b) i -> surplus (keqb veqb) (identified b) (identified a) j ->
     In (i, x) (identified a) -> In (j, y) (identified b) -> shares veqb falsy x y -> quality veqb falsy x y m ->
     exists i' j' x' y' m', near fa fb a b i' j' /\ (i' = i \/ j' = j) /\
       In (i', x') (identified a) /\ In (j', y') (identified b) /\ quality veqb falsy x' y' m' /\ (m <= m')%Z).
End Spec.

Section Entries.
Context {A C : Type}.
Variable W : classes A C.
Variable ceqb : C -> C -> bool.
Notation val := (val A C).
Notation prop := (prop A C).
Variable veqb : val -> val -> bool.
Variable hashable : val -> bool.
Variable repr : val -> str.
Variable a_hash a_falsy : A -> bool.
Variable a_items : A -> res (list (elem * val)).
Variable opt : options.
Variable record_id : rtype C -> option mfs -> val -> res val.
Variable ord : list elem -> list elem -> dorders (A := A) (C := C).

Hypothesis ord_ok : forall fa fb, orders_ok (ord fa fb).
Hypothesis vrefl : forall v, veqb v v = true.
Hypothesis vsym : forall u v, veqb u v = true -> veqb v u = true.
Hypothesis vtrans : forall u v w, veqb u v = true -> veqb v w = true -> veqb u w = true.
Hypothesis ceq : forall c d, ceqb c d = true <-> c = d.
Hypothesis keeps : keeps_wf W.
Hypothesis defaults : default_options opt.
(** with fuzzy matching, unchanged items are not reported, and equal values have equal truth *)
Hypothesis few : o_fuzzy opt = true -> o_unchanged_ opt = false.
Hypothesis truth_ok : o_fuzzy opt = true -> forall u v, veqb u v = true -> v_falsy a_falsy u = v_falsy a_falsy v.

Notation seen := (seen (A := A) (C := C) opt).
Notation counted := (counted W repr a_hash opt).
Notation identity := (identity record_id).
Notation identified := (identified record_id).
Notation diff := (diff W ceqb veqb hashable repr a_hash a_falsy a_items opt record_id ord).
Notation dispatch := (dispatch W ceqb veqb hashable repr a_hash a_falsy a_items opt record_id ord).
Notation records_iter := (records_iter veqb hashable a_falsy a_items opt record_id ord).
Notation list_iter := (list_iter W veqb hashable repr a_hash a_items opt ord).
Notation collection_iter := (collection_iter W veqb hashable repr a_hash a_falsy a_items opt record_id ord).
Notation record_iter := (record_iter W ceqb veqb opt).
Notation slot_diff := (slot_diff ceqb veqb opt).
Notation wfv := (wfv W).
Notation slot_seen := (slot_seen opt defaults).

(** The items paired by fuzzy matching, with the iteration orders of the two sets. *)
Definition near (fa fb : list elem) (a b : val) (i j : elem) : Prop :=
  let ta := tag (keqb veqb) [] (identified a) in
  let tb := tag (keqb veqb) [] (identified b) in
  let removed := filter (fun x => negb (kmem veqb x (map fst tb))) (map fst ta) in
  let added := filter (fun x => negb (kmem veqb x (map fst ta))) (map fst tb) in
  o_fuzzy opt = true /\ exists x y,
    In (x, y) (fuzzy_match veqb (v_falsy a_falsy) (so_fuzzy_a (ord fa fb) removed) (so_fuzzy_b (ord fa fb) added)) /\
    lookup (keqb veqb) x ta = Some i /\ lookup (keqb veqb) y tb = Some j.
Notation change := (change W veqb repr a_hash opt record_id near).

(** its members *)
Lemma near_sets fa fb (a b : val) : wfv a -> wfv b -> o_fuzzy opt = true ->
  let ta := tag (keqb veqb) [] (identified a) in
  let tb := tag (keqb veqb) [] (identified b) in
  let removed := filter (fun x => negb (kmem veqb x (map fst tb))) (map fst ta) in
  let added := filter (fun x => negb (kmem veqb x (map fst ta))) (map fst tb) in
  atoms_ok veqb (v_falsy a_falsy) /\ is_set veqb removed /\ is_set veqb added /\
    is_set veqb (so_fuzzy_a (ord fa fb) removed) /\ is_set veqb (so_fuzzy_b (ord fa fb) added).
Proof.
  intros Wa Wb Of ta tb removed added. pose proof (key_equalities veqb vrefl vsym vtrans) as KE. destruct KE as (E1&E2&E3&_).
  destruct (ord_ok fa fb) as (_&_&_&Ofa&Ofb&_).
  assert (S1 : is_set veqb removed) by (apply set_filter, tagged_set; auto).
  assert (S2 : is_set veqb added) by (apply set_filter, tagged_set; auto).
  split; [repeat split; auto|]. split; auto. split; auto. split; [eapply set_perm; [apply Ofa|exact S1]|eapply set_perm; [apply Ofb|exact S2]].
Qed.


Section Near.
Variables (fa fb : list elem) (a b : val).
Hypothesis Wa : wfv a.
Hypothesis Wb : wfv b.
Hypothesis Of : o_fuzzy opt = true.
Let ta := tag (keqb veqb) [] (identified a).
Let tb := tag (keqb veqb) [] (identified b).
Let removed := filter (fun x => negb (kmem veqb x (map fst tb))) (map fst ta).
Let added := filter (fun x => negb (kmem veqb x (map fst ta))) (map fst tb).
Let pairs := fuzzy_match veqb (v_falsy a_falsy) (so_fuzzy_a (ord fa fb) removed) (so_fuzzy_b (ord fa fb) added).

Lemma pairs_in x y : In (x, y) pairs -> In x removed /\ In y added /\ shares veqb (v_falsy a_falsy) (fst x) (fst y).
Proof.
  intros H. destruct (near_sets fa fb a b Wa Wb Of) as (AO&_&_&S1&S2). destruct (ord_ok fa fb) as (_&_&_&Ofa&Ofb&_).
  apply (C32_pairs_share veqb (v_falsy a_falsy)) in H as (H1&H2&H3); auto.
  split; [exact (Permutation_in _ (Ofa _) H1)|]. split; [exact (Permutation_in _ (Ofb _) H2)|auto].
Qed.

Lemma near_iff i j : near fa fb a b i j <-> exists x y, In (x, y) pairs /\ lookup (keqb veqb) x ta = Some i /\ lookup (keqb veqb) y tb = Some j.
Proof. split; [intros [_ H]; exact H|intros H; split; auto]. Qed.

Lemma added_lookup y : In y added -> exists j, lookup (keqb veqb) y tb = Some j.
Proof.
  intros H. destruct (key_equalities veqb vrefl vsym vtrans) as (E1&E2&E3&_). apply filter_In in H as [H _].
  apply (lookup_total (keqb veqb)). now apply (tmem_self (keqb veqb) E1).
Qed.
Lemma removed_lookup x : In x removed -> exists i, lookup (keqb veqb) x ta = Some i.
Proof.
  intros H. destruct (key_equalities veqb vrefl vsym vtrans) as (E1&E2&E3&_). apply filter_In in H as [H _].
  apply (lookup_total (keqb veqb)). now apply (tmem_self (keqb veqb) E1).
Qed.

Lemma key_unique v x y i : wfv v -> In x (map fst (tag (keqb veqb) [] (identified v))) -> In y (map fst (tag (keqb veqb) [] (identified v))) ->
  lookup (keqb veqb) x (tag (keqb veqb) [] (identified v)) = Some i -> lookup (keqb veqb) y (tag (keqb veqb) [] (identified v)) = Some i -> x = y.
Proof.
  intros Wv I1 I2 L1 L2. destruct x as [k n], y as [k2 n2].
  apply in_map_iff in I1 as ([x1 i1]&X1&I1), I2 as ([x2 i2]&X2&I2). cbn in X1, X2. subst.
  assert (D : NoDup (map fst (identified v))) by (unfold DiffExact.identified; rewrite map_fst_map; now apply (contents_nodup W)).
  exact (lookup_inj _ _ (key_equalities veqb vrefl vsym vtrans) _ D k n k2 n2 i i1 i2 I1 I2 L1 L2).
Qed.
Lemma removed_unique x y i : In x removed -> In y removed -> lookup (keqb veqb) x ta = Some i -> lookup (keqb veqb) y ta = Some i -> x = y.
Proof. intros Ix Iy. apply filter_In in Ix as [Ix _], Iy as [Iy _]. now apply (key_unique a). Qed.
Lemma added_unique x y i : In x added -> In y added -> lookup (keqb veqb) x tb = Some i -> lookup (keqb veqb) y tb = Some i -> x = y.
Proof. intros Ix Iy. apply filter_In in Ix as [Ix _], Iy as [Iy _]. now apply (key_unique b). Qed.

Lemma near_removed z i : In z removed -> lookup (keqb veqb) z ta = Some i ->
  (kmem veqb z (map fst pairs) = true <-> exists j, near fa fb a b i j).
Proof.
  intros Iz Lz. destruct (near_sets fa fb a b Wa Wb Of) as (AO&S1&_&_&_).
  assert (Inc : incl (map fst pairs) removed).
  { intros x H. apply in_map_iff in H as ([x' y]&E&H). cbn in E. subst. now apply pairs_in in H. }
  change (kmem veqb z (map fst pairs)) with (tgmem veqb z (map fst pairs)).
  rewrite (tgmem_in veqb (v_falsy a_falsy) AO removed z (map fst pairs) S1 Iz Inc). split.
  - intros H. apply in_map_iff in H as ([x y]&E&H). cbn in E. subst x.
    destruct (pairs_in z y H) as (_&Iy&_). destruct (added_lookup y Iy) as [j Lj]. exists j. apply near_iff. eauto.
  - intros [j H]. apply near_iff in H as (x&y&H&Lx&Ly). rewrite (removed_unique z x i Iz (proj1 (pairs_in x y H)) Lz Lx).
    apply in_map_iff. exists (x, y). auto.
Qed.
Lemma near_added z i : In z added -> lookup (keqb veqb) z tb = Some i ->
  (kmem veqb z (map snd pairs) = true <-> exists j, near fa fb a b j i).
Proof.
  intros Iz Lz. destruct (near_sets fa fb a b Wa Wb Of) as (AO&_&S1&_&_).
  assert (Inc : incl (map snd pairs) added).
  { intros y H. apply in_map_iff in H as ([x' y']&E&H). cbn in E. subst. now apply pairs_in in H. }
  change (kmem veqb z (map snd pairs)) with (tgmem veqb z (map snd pairs)).
  rewrite (tgmem_in veqb (v_falsy a_falsy) AO added z (map snd pairs) S1 Iz Inc). split.
  - intros H. apply in_map_iff in H as ([x y]&E&H). cbn in E. subst y.
    destruct (pairs_in x z H) as (Ix&_&_). destruct (removed_lookup x Ix) as [j Lj]. exists j. apply near_iff. eauto.
  - intros [j H]. apply near_iff in H as (x&y&H&Lx&Ly). rewrite (added_unique z y i Iz (proj1 (proj2 (pairs_in x y H))) Lz Ly).
    apply in_map_iff. exists (x, y). auto.
Qed.
Lemma nodup_fst {X Y} (l : list (X * Y)) x y y' : NoDup (map fst l) -> In (x, y) l -> In (x, y') l -> y = y'.
Proof.
  induction l as [|[u v] l IHl]; intros D I1 I2; [destruct I1|]. cbn [map fst] in D. inversion_clear D as [|? ? D1 D2].
  destruct I1 as [I1|I1], I2 as [I2|I2]; try congruence; auto.
  - inversion I1; subst. destruct D1. apply in_map_iff. exists (x, y'). auto.
  - inversion I2; subst. destruct D1. apply in_map_iff. exists (x, y). auto.
Qed.
Lemma nodup_snd {X Y} (l : list (X * Y)) x x' y : NoDup (map snd l) -> In (x, y) l -> In (x', y) l -> x = x'.
Proof.
  induction l as [|[u v] l IHl]; intros D I1 I2; [destruct I1|]. cbn [map snd] in D. inversion_clear D as [|? ? D1 D2].
  destruct I1 as [I1|I1], I2 as [I2|I2]; try congruence; auto.
  - inversion I1; subst. destruct D1. apply in_map_iff. exists (x', y). auto.
  - inversion I2; subst. destruct D1. apply in_map_iff. exists (x, y). auto.
Qed.

Lemma near_once_l i j j' : near fa fb a b i j -> near fa fb a b i j' -> j = j'.
Proof.
  rewrite !near_iff. intros (x&y&H&Lx&Ly) (x'&y'&H'&Lx'&Ly').
  destruct (near_sets fa fb a b Wa Wb Of) as (AO&_&_&S1&S2).
  destruct (C32_each_once veqb (v_falsy a_falsy) AO _ _ S1 S2) as [D _].
  rewrite <- (removed_unique x x' i (proj1 (pairs_in _ _ H)) (proj1 (pairs_in _ _ H')) Lx Lx') in H'.
  rewrite (nodup_fst _ x y y' D H H') in Ly. congruence.
Qed.
Lemma near_once_r i i' j : near fa fb a b i j -> near fa fb a b i' j -> i = i'.
Proof.
  rewrite !near_iff. intros (x&y&H&Lx&Ly) (x'&y'&H'&Lx'&Ly').
  destruct (near_sets fa fb a b Wa Wb Of) as (AO&_&_&S1&S2).
  destruct (C32_each_once veqb (v_falsy a_falsy) AO _ _ S1 S2) as [_ D].
  rewrite <- (added_unique y y' j (proj1 (proj2 (pairs_in _ _ H))) (proj1 (proj2 (pairs_in _ _ H'))) Ly Ly') in H'.
  rewrite (nodup_snd _ x x' y D H H') in Lx. congruence.
Qed.
Lemma shares_eq x x' y y' : keqb veqb x x' = true -> keqb veqb y y' = true -> shares veqb (v_falsy a_falsy) x y -> shares veqb (v_falsy a_falsy) x' y'.
Proof.
  destruct (near_sets fa fb a b Wa Wb Of) as (AO&_). intros H1 H2 H.
  apply (score_shares veqb (v_falsy a_falsy)) in H. apply (score_shares veqb (v_falsy a_falsy)).
  now rewrite <- (score_eq veqb (v_falsy a_falsy) AO x x' y y').
Qed.
Lemma quality_eq x x' y y' m : keqb veqb x x' = true -> keqb veqb y y' = true -> quality veqb (v_falsy a_falsy) x y m -> quality veqb (v_falsy a_falsy) x' y' m.
Proof.
  destruct (near_sets fa fb a b Wa Wb Of) as (AO&_). intros H1 H2 H.
  rewrite (quality_fun veqb (v_falsy a_falsy) x y m H _ (score_quality veqb (v_falsy a_falsy) x y)).
  unfold w. rewrite (score_eq veqb (v_falsy a_falsy) AO x x' y y') by auto. apply (score_quality veqb (v_falsy a_falsy)).
Qed.
Lemma lookup_identity v k n i : lookup (keqb veqb) (k, n) (tag (keqb veqb) [] (identified v)) = Some i ->
  exists k', In (i, k') (identified v) /\ keqb veqb k k' = true.
Proof.
  intros H. destruct (key_equalities veqb vrefl vsym vtrans) as (E1&E2&E3&_).
  apply (lookup_spec (keqb veqb) E1 E2 E3) in H as (l1&k'&l2&E&Ek&_). exists k'. split; auto. rewrite E. apply in_or_app. right. now left.
Qed.
Lemma surplus_lookup (u v : val) i : surplus (keqb veqb) (identified u) (identified v) i <->
  exists x, In x (filter (fun x => negb (kmem veqb x (map fst (tag (keqb veqb) [] (identified v))))) (map fst (tag (keqb veqb) [] (identified u)))) /\
    lookup (keqb veqb) x (tag (keqb veqb) [] (identified u)) = Some i.
Proof.
  destruct (key_equalities veqb vrefl vsym vtrans) as (E1&E2&E3&_).
  rewrite <- (removed_in (keqb veqb) E1 E2 E3 (identified u) (identified v) i). apply (positions_in (keqb veqb)).
Qed.
Lemma one_identity v i k k' : wfv v -> In (i, k) (identified v) -> In (i, k') (identified v) -> k = k'.
Proof.
  intros Wv. apply nodup_fst. unfold DiffExact.identified. rewrite map_fst_map. now apply (contents_nodup W).
Qed.
End Near.

Lemma near_fair : fair W veqb opt record_id near (v_falsy a_falsy).
Proof.
  intros fa fb a b T S Wa Wb. split; [|split; [|split]].
  - intros i j H. pose proof (proj1 H) as Of. split; auto. apply (near_iff fa fb a b Of) in H as ([k n]&[k2 n2]&H&L1&L2).
    destruct (pairs_in fa fb a b Wa Wb Of _ _ H) as (I1&I2&Sh).
    split; [apply surplus_lookup; eauto|]. split; [apply surplus_lookup; eauto|].
    apply lookup_identity in L1 as (x&Ix&Ex), L2 as (y&Iy&Ey). exists x, y. split; auto. split; auto. apply (shares_eq fa fb a b Wa Wb Of k x k2 y); auto.
  - intros i j j' H. pose proof (proj1 H) as Of. revert H. now apply near_once_l.
  - intros i i' j H. pose proof (proj1 H) as Of. revert H. now apply near_once_r.
  - intros i j x y m Of S1 S2 Ix Iy Sh Q. apply surplus_lookup in S1 as ([k n]&I1&L1), S2 as ([k2 n2]&I2&L2).
    destruct (near_sets fa fb a b Wa Wb Of) as (AO&_&_&T1&T2). destruct (ord_ok fa fb) as (_&_&_&Ofa&Ofb&_).
    destruct (lookup_identity _ _ _ _ L1) as (x0&Ix0&Ex), (lookup_identity _ _ _ _ L2) as (y0&Iy0&Ey).
    assert (x0 = x) as -> by (eapply one_identity; [exact Wa| |]; eauto). assert (y0 = y) as -> by (eapply one_identity; [exact Wb| |]; eauto).
    pose proof (key_equalities veqb vrefl vsym vtrans) as (E1&E2&E3&_).
    destruct (C32_best_first veqb (v_falsy a_falsy) AO _ _ T1 T2 (k, n) (k2, n2) m) as (x'&y'&q'&H&Or&Q'&Le).
    + exact (Permutation_in _ (Permutation_sym (Ofa _)) I1).
    + exact (Permutation_in _ (Permutation_sym (Ofb _)) I2).
    + cbn [fst]. apply (shares_eq fa fb a b Wa Wb Of x k y k2); auto.
    + cbn [fst]. apply (quality_eq fa fb a b Wa Wb Of x k y k2); auto.
    + destruct (pairs_in fa fb a b Wa Wb Of _ _ H) as (I1'&I2'&_).
      destruct (removed_lookup a b x' I1') as [i' L1'], (added_lookup a b y' I2') as [j' L2'].
      destruct x' as [k' n'], y' as [k2' n2'].
      destruct (lookup_identity _ _ _ _ L1') as (x1&Ix1&Ex1), (lookup_identity _ _ _ _ L2') as (y1&Iy1&Ey1).
      exists i', j', x1, y1, q'. split; [apply near_iff; eauto|]. split.
      * destruct Or as [Or|Or]; [left|right]; rewrite Or in *; congruence.
      * split; auto. split; auto. split; auto. cbn [fst] in Q'. apply (quality_eq fa fb a b Wa Wb Of k' x1 k2' y1); auto.
Qed.

(** [l] has exactly the entries at [fa], [fb] which [P] says *)
Definition exactly (fa fb : list elem) (P : dtype -> list elem -> list elem -> Prop) (l : list dentry) : Prop :=
  forall e, In e l <-> exists t q r, e = (t, fa ++ q, fb ++ r) /\ P t q r.

Lemma exactly_app fa fb P Q l m : exactly fa fb P l -> exactly fa fb Q m -> exactly fa fb (fun t q r => P t q r \/ Q t q r) (l ++ m).
Proof.
  intros H1 H2 e. rewrite in_app_iff, (H1 e), (H2 e). split.
  - intros [(t&q&r&->&H)|(t&q&r&->&H)]; exists t, q, r; auto.
  - intros (t&q&r&->&[H|H]); [left|right]; exists t, q, r; auto.
Qed.
Lemma exactly_iff fa fb P Q l : (forall t q r, P t q r <-> Q t q r) -> exactly fa fb P l -> exactly fa fb Q l.
Proof. intros E H e. rewrite (H e). split; intros (t&q&r&->&X); exists t, q, r; split; auto; now apply E. Qed.
Lemma exactly_nil fa fb : exactly fa fb (fun _ _ _ => False) [].
Proof. intros e. split; [intros []|]. intros (t&q&r&_&[]). Qed.
Lemma exactly_one fa fb t q r : exactly fa fb (fun t' q' r' => t' = t /\ q' = q /\ r' = r) [(t, fa ++ q, fb ++ r)].
Proof.
  intros e. cbn [In]. split.
  - intros [<-|[]]. exists t, q, r. auto.
  - intros (t'&q'&r'&->&->&->&->). now left.
Qed.
Lemma exactly_sub fa fb i j P l : exactly (fa ++ [i]) (fb ++ [j]) P l ->
  exactly fa fb (fun t q r => exists q' r', q = i :: q' /\ r = j :: r' /\ P t q' r') l.
Proof.
  intros H e. rewrite (H e). split.
  - intros (t&q&r&->&X). exists t, (i :: q), (j :: r). rewrite <- !app_assoc. split; auto. exists q, r. auto.
  - intros (t&q&r&->&q'&r'&->&->&X). exists t, q', r'. rewrite <- !app_assoc. auto.
Qed.
Lemma exactly_concat {X} fa fb (f : X -> res (list dentry)) (P : X -> dtype -> list elem -> list elem -> Prop) xs l :
  concatM f xs = Ok l -> (forall x u, In x xs -> f x = Ok u -> exactly fa fb (P x) u) ->
  exactly fa fb (fun t q r => exists x, In x xs /\ P x t q r) l.
Proof.
  revert l. induction xs as [|x xs IH]; cbn [concatM]; intros l H F.
  - inversion H; subst. intros e. split; [intros []|]. intros (t&q&r&_&x&[]&_).
  - apply bind_ok in H as (u&Hu&H). apply bind_ok in H as (v&Hv&H). inversion H; subst.
    pose proof (exactly_app _ _ _ _ _ _ (F x u (or_introl eq_refl) Hu) (IH v Hv (fun y w I => F y w (or_intror I)))) as G.
    eapply exactly_iff; [|exact G]. intros t q r. cbn. split.
    + intros [H1|(y&I&H1)]; eauto.
    + intros (y&[<-|I]&H1); eauto.
Qed.

(** *** plain lists, dicts, untyped collections *)
Definition items_change (a b : val) (t : dtype) (q r : list elem) : Prop :=
  (exists i, surplus veqb (counted a) (counted b) i /\ ~ surplus veqb (counted b) (counted a) i /\ t = Removed /\ q = [i] /\ r = []) \/
  (exists i, surplus veqb (counted b) (counted a) i /\ ~ surplus veqb (counted a) (counted b) i /\ t = Added /\ q = [] /\ r = [i]) \/
  (exists i, surplus veqb (counted a) (counted b) i /\ surplus veqb (counted b) (counted a) i /\ t = Modified /\ q = [i] /\ r = [i]) \/
  (exists i j, paired veqb (counted a) (counted b) i j /\ matching opt t i j /\ q = [i] /\ r = [j]).

Lemma list_entries a b fa fb l : same_type a b -> loose W a -> wfv a -> wfv b -> list_iter a b fa fb = Ok l ->
  exactly fa fb (items_change a b) l.
Proof.
  unfold items_change.
  intros T P Wa Wb. destruct defaults as (De&Di&Dd&Df&Dr).
  assert (P' : plain a \/ collection a) by (destruct P as [P|[P _]]; auto).
  assert (Q : plain b \/ collection b) by (destruct a, b; try (destruct T; fail); tauto).
  unfold DiffModel.list_iter. rewrite Dd. intros H.
  apply bind_ok in H as (ga&Ga&H). apply bind_ok in H as (ka&Ka&H).
  apply bind_ok in H as (gb&Gb&H). apply bind_ok in H as (kb&Kb&H).
  apply gen_contents in Ga; auto. apply gen_contents in Gb; auto. subst ga gb.
  apply (counted_keys W hashable repr a_hash opt defaults) in Ka, Kb. fold (counted a) in Ka. fold (counted b) in Kb. subst ka kb.
  assert (Da : NoDup (map fst (counted a))) by (unfold DiffExact.counted; rewrite map_fst_map; now apply (contents_nodup W)).
  assert (Db : NoDup (map fst (counted b))) by (unfold DiffExact.counted; rewrite map_fst_map; now apply (contents_nodup W)).
  pose proof (exact veqb elem_eqb (veq_equalities veqb vrefl vsym vtrans) (so_seq (ord fa fb)) (proj1 (ord_ok fa fb)) (counted a) (counted b)
    (o_unchanged_ opt) (o_moved opt)) as X.
  inversion H as [H']. clear H. intros e. rewrite in_map_iff. split.
  - intros ([[t i] j]&<-&I). cbn [fst snd]. apply X in I. unfold matching.
    destruct t, i as [i|], j as [j|]; try (destruct I; fail); cbn [place].
    + destruct I as (I1&I2&I3). exists NoChange, [i], [j]. split; auto. do 3 right. exists i, j. auto 8.
    + destruct I as (I1&I2). exists Added, [], [j]. rewrite app_nil_r. split; auto. right. left. exists j. auto 8.
    + destruct I as (I1&I2). exists Removed, [i], []. rewrite app_nil_r. split; auto. left. exists i. auto 8.
    + destruct I as (<-&I1&I2). exists Modified, [i], [i]. split; auto. do 2 right. left. exists i. auto 8.
    + destruct I as (I1&I2&I3). exists Moved, [i], [j]. split; auto. do 3 right. exists i, j. auto 8.
  - intros (t&q&r&->&[(i&I1&I2&->&->&->)|[(i&I1&I2&->&->&->)|[(i&I1&I2&->&->&->)|(i&j&I1&[(->&I2&I3)|(->&I2&I3)]&->&->)]]]).
    + exists (Removed, Some i, None). cbn [fst snd place]. rewrite app_nil_r. split; auto. apply X. auto.
    + exists (Added, None, Some i). cbn [fst snd place]. rewrite app_nil_r. split; auto. apply X. auto.
    + exists (Modified, Some i, Some i). split; auto. apply X. auto.
    + exists (Moved, Some i, Some j). split; auto. apply X. auto.
    + exists (NoChange, Some i, Some j). split; auto. apply X. auto.
Qed.

(** *** one slot *)
Definition slot_change (fa fb : list elem) (a b : val) (p : prop) (t : dtype) (q r : list elem) : Prop :=
  compared opt p /\
  match seen p a, seen p b with
  | None, None => False
  | Some _, None => t = Removed /\ q = [EStr (p_name p)] /\ r = [EStr (p_name p)]
  | None, Some _ => t = Added /\ q = [EStr (p_name p)] /\ r = [EStr (p_name p)]
  | Some u, Some v =>
      (same_type u v /\ exists q' r', q = EStr (p_name p) :: q' /\ r = EStr (p_name p) :: r' /\
        change (fa ++ [EStr (p_name p)]) (fb ++ [EStr (p_name p)]) u v t q' r') \/
      (~ same_type u v /\ q = [EStr (p_name p)] /\ r = [EStr (p_name p)] /\
        (veqb u v = false /\ t = Modified \/ veqb u v = true /\ o_unchanged_ opt = true /\ t = NoChange))
  end.

Definition records_change (fa fb : list elem) (a b : val) (t : dtype) (q r : list elem) : Prop :=
  (exists i j x y q' r', paired (keqb veqb) (identified a) (identified b) i j /\ In (i, x) (contents a) /\ In (j, y) (contents b) /\
     q = i :: q' /\ r = j :: r' /\ change (fa ++ [i]) (fb ++ [j]) x y t q' r') \/
  (exists i j, near fa fb a b i j /\
    ((exists x y q' r', In (i, x) (contents a) /\ In (j, y) (contents b) /\
      q = i :: q' /\ r = j :: r' /\ change (fa ++ [i]) (fb ++ [j]) x y t q' r') \/
     (exists x y, In (i, x) (contents a) /\ In (j, y) (contents b) /\ t = Moved /\ o_moved opt = true /\ i <> j /\ q = [i] /\ r = [j]))) \/
  (exists i j, paired (keqb veqb) (identified a) (identified b) i j /\ matching opt t i j /\ q = [i] /\ r = [j]) \/
  (exists i, (surplus (keqb veqb) (identified a) (identified b) i /\ forall j, ~ near fa fb a b i j) /\ t = Removed /\ q = [i] /\ r = []) \/
  (exists i, (surplus (keqb veqb) (identified b) (identified a) i /\ forall j, ~ near fa fb a b j i) /\ t = Added /\ q = [] /\ r = [i]).

Lemma change_iff fa fb a b : same_type a b -> forall t q r, change fa fb a b t q r <->
  (exists c p, class_of a = Some c /\ In p (props W c) /\ slot_change fa fb a b p t q r) \/
  (loose W a /\ items_change a b t q r) \/ (strict W a /\ records_change fa fb a b t q r).
Proof.
  intros T t q r. unfold slot_change, items_change, records_change. split.
  - intros H. destruct H as [fa fb a b p u (_&c&X&Y&Z) Ea Eb|fa fb a b p v (_&c&X&Y&Z) Ea Eb|fa fb a b p u v (_&c&X&Y&Z) Ea Eb Nu Ev|fa fb a b p u v (_&c&X&Y&Z) Ea Eb Nu Ev Eu
      |fa fb a b p u v t q r (_&c&X&Y&Z) Ea Eb Tu Ch|fa fb a b i _ L S N|fa fb a b i _ L S N|fa fb a b i _ L S N|fa fb a b t i j _ L S N
      |fa fb a b i _ L S N|fa fb a b i _ L S N|fa fb a b t i j _ L S N|fa fb a b i j x y t q r _ L S Ix Iy Ch
      |fa fb a b i j x y t q r _ L S Ix Iy Ch|fa fb a b i j x y _ L S Ix Iy M N].
    + left. exists c, p. rewrite Ea, Eb. auto 8.
    + left. exists c, p. rewrite Ea, Eb. auto 8.
    + left. exists c, p. rewrite Ea, Eb. auto 12.
    + left. exists c, p. rewrite Ea, Eb. auto 12.
    + left. exists c, p. rewrite Ea, Eb. repeat split; auto. left. split; auto. eauto 8.
    + right. left. split; auto. left. eauto 8.
    + right. left. split; auto. right. left. eauto 8.
    + right. left. split; auto. do 2 right. left. eauto 8.
    + right. left. split; auto. do 3 right. eauto 8.
    + right. right. split; auto. do 3 right. left. eauto 8.
    + right. right. split; auto. do 4 right. eauto 8.
    + right. right. split; auto. do 2 right. left. eauto 8.
    + right. right. split; auto. left. exists i, j, x, y, q, r. auto 8.
    + right. right. split; auto. right. left. exists i, j. split; auto. left. exists x, y, q, r. auto 8.
    + right. right. split; auto. right. left. exists i, j. split; auto. right. exists x, y. auto 8.
  - intros [(c&p&Ec&Ip&Cp&H)|[(L&H)|(S&H)]].
    + assert (Sl : slots W opt a b p) by (split; eauto).
      destruct (DiffExact.seen opt p a) as [u|] eqn:Ea, (DiffExact.seen opt p b) as [v|] eqn:Eb.
      * destruct H as [(Tu&q'&r'&->&->&H)|(Nu&->&->&[(H&->)|(H&Hu&->)])].
        -- eapply slot_inside; eauto.
        -- eapply slot_modified; eauto.
        -- eapply slot_same; eauto.
      * destruct H as (->&->&->). eapply slot_removed; eauto.
      * destruct H as (->&->&->). eapply slot_added; eauto.
      * destruct H.
    + destruct H as [(i&I1&I2&->&->&->)|[(i&I1&I2&->&->&->)|[(i&I1&I2&->&->&->)|(i&j&I1&I2&->&->)]]].
      * now apply item_removed.
      * now apply item_added.
      * now apply item_modified.
      * now apply item_same.
    + destruct H as [(i&j&x&y&q'&r'&I1&I2&I3&->&->&I4)|[(i&j&I1&[(x&y&q'&r'&I2&I3&->&->&I4)|(x&y&X1&X2&->&I2&I3&->&->)])|
        [(i&j&I1&I2&->&->)|[(i&(I1&I2)&->&->&->)|(i&(I1&I2)&->&->&->)]]]].
      * eapply record_inside; eauto.
      * eapply record_near; eauto.
      * eapply record_near_moved; eauto.
      * now apply record_same.
      * now apply record_removed.
      * now apply record_added.
Qed.

Section Step.
Variable rec : val -> val -> list elem -> list elem -> res (list dentry).
Hypothesis IH : forall a b fa fb l, same_type a b \/ (class_of a <> None /\ class_of b <> None) -> wfv a -> wfv b ->
  rec a b fa fb = Ok l -> same_type a b /\ exactly fa fb (change fa fb a b) l.

Lemma slot_entries c a b fa fb p l : In p (props W c) -> wfv a -> wfv b -> slot_diff rec a b fa fb p = Ok l ->
  exactly fa fb (slot_change fa fb a b p) l.
Proof.
  intros Ip Wa Wb. destruct defaults as (De&Di&Dd&Df&Dr).
  unfold DiffModel.slot_diff, is_filtered, slot_change. rewrite Df, orb_false_r.
  destruct (negb (o_extraneous opt) && p_extraneous p) eqn:Ex.
  { intros H. inversion H. eapply exactly_iff; [|apply exactly_nil]. intros t q r. split; [intros []|].
    intros [[c1|c1] _]; rewrite c1 in Ex; [discriminate|]. rewrite andb_false_r in Ex. discriminate. }
  assert (Cp : compared opt p).
  { unfold compared. destruct (o_extraneous opt); auto. }
  pose proof (slot_seen p a) as Sa. pose proof (slot_seen p b) as Sb.
  destruct (seen p a) as [u|] eqn:Ea; [destruct Sa as [Sa Na]|]; (destruct (seen p b) as [v|] eqn:Eb; [destruct Sb as [Sb Nb]|]);
    rewrite Sa, Sb; rewrite ?De, ?Dd; cbn [is_nothing]; rewrite ?Na, ?Nb; cbn [xorb andb orb negb].
  - assert (Wu : wfv u) by exact (seen_wf W opt keeps p c a u Ip Wa Ea). assert (Wv : wfv v) by exact (seen_wf W opt keeps p c b v Ip Wb Eb).
    destruct (types_match ceqb u v) eqn:T; cbn [orb].
    + apply (same_type_iff ceqb ceq) in T. rewrite (comparable_type u v T). cbn [orb andb]. intros H.
      apply bind_ok in H as (m&Hm&H). assert (m = l) as -> by congruence.
      destruct (IH _ _ _ _ _ (or_introl T) Wu Wv Hm) as [_ X]. eapply exactly_iff; [|exact (exactly_sub _ _ _ _ _ _ X)].
      intros t q r. cbv beta. tauto.
    + apply (same_type_false ceqb ceq) in T. rewrite andb_false_r.
      destruct (veqb u v) eqn:Ev; cbn [negb].
      * destruct (o_unchanged_ opt) eqn:Eu; intros H; inversion H.
        -- eapply exactly_iff; [|apply exactly_one]. intros t q r. cbv beta. intuition congruence.
        -- eapply exactly_iff; [|apply exactly_nil]. intros t q r. cbv beta. intuition congruence.
      * intros H; inversion H. eapply exactly_iff; [|apply exactly_one]. intros t q r. cbv beta. intuition congruence.
  - rewrite orb_false_r. replace (types_match ceqb u VNothing) with false by now destruct u. rewrite andb_false_r. intros H.
    assert (l = [(Removed, fa ++ [EStr (p_name p)], fb ++ [EStr (p_name p)])]) as -> by congruence.
    eapply exactly_iff; [|apply exactly_one]. intros t q r. cbv beta. intuition congruence.
  - replace (types_match ceqb VNothing v) with false by now destruct v. rewrite andb_false_r. intros H.
    assert (l = [(Added, fa ++ [EStr (p_name p)], fb ++ [EStr (p_name p)])]) as -> by congruence.
    eapply exactly_iff; [|apply exactly_one]. intros t q r. cbv beta. intuition congruence.
  - intros H. inversion H. eapply exactly_iff; [|apply exactly_nil]. intros t q r. cbv beta. intuition congruence.
Qed.

Lemma record_entries c a b fa fb l : class_of a = Some c -> wfv a -> wfv b -> record_iter rec a b fa fb = Ok l ->
  is_nothing b = false -> same_type a b /\ exactly fa fb (fun t q r => exists p, In p (props W c) /\ slot_change fa fb a b p t q r) l.
Proof.
  intros Ec Wa Wb H Nb. destruct defaults as (De&Di&Dd&Df&Dr). revert H.
  assert (Na : is_nothing a = false) by (destruct a; auto; discriminate).
  unfold DiffModel.record_iter. rewrite Dd, Na, Nb, Ec. cbn [negb andb orb].
  destruct (types_match ceqb a b) eqn:T; [|discriminate]. apply (same_type_iff ceqb ceq) in T. cbn [negb andb]. intros H. split; auto.
  eapply exactly_iff; [|eapply exactly_concat; [exact H|]].
  - intros t q r. cbv beta. split; intros (p&Ip&X); exists p; split; eauto; now apply all_properties_in.
  - intros p u Ip Hu. apply all_properties_in in Ip. now apply (slot_entries c).
Qed.

Lemma records_entries c d a b fa fb l : same_type a b -> collection a -> class_of a = Some c -> ValModel.item W c = IRec d ->
  wfv a -> wfv b -> records_iter rec d a b fa fb = Ok l ->
  exactly fa fb (records_change fa fb a b) l.
Proof.
  unfold records_change.
  intros T Ca Ec Ei Wa Wb. destruct defaults as (De&Di&Dd&Df&Dr).
  assert (Cb : collection b) by (destruct a, b; try (destruct T; fail); try (destruct Ca; fail); exact I).
  assert (Ecb : class_of b = Some c) by (destruct a, b; try (destruct T; fail); try (destruct Ca; fail); cbn in *; congruence).
  assert (Na : is_nothing a = false) by (destruct a; auto; destruct Ca).
  assert (Nb : is_nothing b = false) by (destruct b; auto; destruct Cb).
  unfold DiffModel.records_iter, id_selector. rewrite Df. cbn [bind]. rewrite Dr, Na, Nb. cbn [orb negb andb]. intros H.
  apply bind_ok in H as (ga&Ga&H). apply bind_ok in H as (ia&Ia&H).
  apply bind_ok in H as (gb&Gb&H). apply bind_ok in H as (ib&Ib&H).
  apply gen_contents in Ga; auto. apply gen_contents in Gb; auto. subst ga gb.
  apply (identified_keys hashable opt record_id defaults) in Ia, Ib. fold (identified a) in Ia. fold (identified b) in Ib. subst ia ib.
  pose proof (near_iff fa fb a b) as NI. pose proof (near_removed fa fb a b Wa Wb) as NR. pose proof (near_added fa fb a b Wa Wb) as NA.
  destruct (key_equalities veqb vrefl vsym vtrans) as (E1&E2&E3&E4) eqn:EE. clear EE.
  pose proof (removed_in (keqb veqb) E1 E2 E3 (identified a) (identified b)) as Ra.
  pose proof (removed_in (keqb veqb) E1 E2 E3 (identified b) (identified a)) as Rb.
  pose proof (paired_spec (keqb veqb) E1 E2 E3 (identified a) (identified b)) as Pab.
  set (ta := tag (keqb veqb) [] (identified a)) in *. set (tb := tag (keqb veqb) [] (identified b)) in *.
  change (tmem (keqb veqb)) with (kmem veqb) in Ra, Rb, Pab.
  set (removed := filter (fun x => negb (kmem veqb x (map fst tb))) (map fst ta)) in *.
  set (added := filter (fun x => negb (kmem veqb x (map fst ta))) (map fst tb)) in *.
  set (com := filter (fun x => kmem veqb x (map fst tb)) (map fst ta)) in *.
  cbv zeta in H. set (fm := fuzzy_match _ _ _ _) in *. set (pairs := if o_fuzzy opt then fm else []) in *.
  destruct (ord_ok fa fb) as (_&_&Oc&_&_&Ou&Or&Oad).
  pose proof (fun i x I => contents_rec W a c d i x Wa Ca Ec Ei I) as RA.
  pose proof (fun i x I => contents_rec W b c d i x Wb Cb Ecb Ei I) as RB.
  pose proof (fun i x I => contents_wf W a i x Wa I) as WA.
  pose proof (fun i x I => contents_wf W b i x Wb I) as WB.
  apply bind_ok in H as (l1&H1&H). apply bind_ok in H as (l2&H2&H). apply bind_ok in H as (l3&H3&H).
  apply bind_ok in H as (l4&H4&H). apply bind_ok in H as (l5&H5&H). cbn [app] in H. inversion H as [H']. clear H H' l.
  assert (NP : forall i j, near fa fb a b i j <-> exists x y, In (x, y) pairs /\ lookup (keqb veqb) x ta = Some i /\ lookup (keqb veqb) y tb = Some j).
  { intros i j. unfold pairs. destruct (o_fuzzy opt) eqn:Of; [now apply NI|]. split; [intros [Of' _]; congruence|intros (x&y&[]&_)]. }
  assert (NRm : forall z i, In z removed -> lookup (keqb veqb) z ta = Some i -> (kmem veqb z (map fst pairs) = true <-> exists j, near fa fb a b i j)).
  { intros z i Iz Lz. unfold pairs. destruct (o_fuzzy opt) eqn:Of; [now apply NR|]. split; [discriminate|intros (j&[Of' _]); congruence]. }
  assert (NAd : forall z i, In z added -> lookup (keqb veqb) z tb = Some i -> (kmem veqb z (map snd pairs) = true <-> exists j, near fa fb a b j i)).
  { intros z i Iz Lz. unfold pairs. destruct (o_fuzzy opt) eqn:Of; [now apply NA|]. split; [discriminate|intros (j&[Of' _]); congruence]. }
  assert (Fz : forall p, In p pairs -> o_unchanged_ opt = false).
  { intros p Ip. unfold pairs in Ip. destruct (o_fuzzy opt) eqn:Of; [auto|destruct Ip]. }
  clearbody pairs. clear fm NI NR NA.
  repeat apply exactly_app.
  - eapply exactly_iff; [|eapply (exactly_concat fa fb _ (fun z t q r => exists i j x y q' r', lookup (keqb veqb) z ta = Some i /\ lookup (keqb veqb) z tb = Some j /\
       In (i, x) (contents a) /\ In (j, y) (contents b) /\ q = i :: q' /\ r = j :: r' /\ change (fa ++ [i]) (fb ++ [j]) x y t q' r')); [exact H1|]].
    + intros t q r. cbv beta. split.
      * intros (z&Iz&i&j&x&y&q'&r'&La&Lb&Rest). exists i, j, x, y, q', r'. split; auto. apply Pab. exists z.
        split; auto. exact (Permutation_in _ (Oc _) Iz).
      * intros (i&j&x&y&q'&r'&Pij&Rest). apply Pab in Pij as (z&Iz&La&Lb). exists z.
        split; [exact (Permutation_in _ (Permutation_sym (Oc _)) Iz)|]. exists i, j, x, y, q', r'. auto.
    + intros z u _ Hu. cbv beta in Hu.
      apply bind_ok in Hu as (i&Hi&Hu). apply bind_ok in Hu as (x&Hx&Hu). apply bind_ok in Hu as (j&Hj&Hu). apply bind_ok in Hu as (y&Hy&Hu).
      pose proof (proj1 (val_at_iff W a i x Wa) Hx) as Ix. pose proof (proj1 (val_at_iff W b j y Wb) Hy) as Iy.
      apply (key_at_ok veqb) in Hi, Hj.
      destruct (IH x y _ _ u (or_intror (conj (RA _ _ Ix) (RB _ _ Iy))) (WA _ _ Ix) (WB _ _ Iy) Hu) as [_ X].
      eapply exactly_iff; [|exact (exactly_sub _ _ _ _ _ _ X)]. intros t q r. cbv beta. split.
      * intros (q'&r'&->&->&Ch). exists i, j, x, y, q', r'. auto 8.
      * intros (i'&j'&x'&y'&q'&r'&La&Lb&Ix'&Iy'&->&->&Ch). assert (i' = i) as -> by congruence. assert (j' = j) as -> by congruence.
        apply (val_at_iff W a i x' Wa) in Ix'. apply (val_at_iff W b j y' Wb) in Iy'.
        assert (x' = x) as -> by congruence. assert (y' = y) as -> by congruence. exists q', r'. auto.
  - eapply exactly_iff; [|eapply (exactly_concat fa fb _ (fun xy t q r => exists i j, lookup (keqb veqb) (fst xy) ta = Some i /\ lookup (keqb veqb) (snd xy) tb = Some j /\
       ((exists x y q' r', In (i, x) (contents a) /\ In (j, y) (contents b) /\ q = i :: q' /\ r = j :: r' /\ change (fa ++ [i]) (fb ++ [j]) x y t q' r') \/
        (exists x y, In (i, x) (contents a) /\ In (j, y) (contents b) /\ t = Moved /\ o_moved opt = true /\ i <> j /\ q = [i] /\ r = [j])))); [exact H2|]].
    + intros t q r. cbv beta. split.
      * intros ([z1 z2]&Iz&i&j&La&Lb&Rest). exists i, j. split; auto. apply NP. cbn [fst snd] in *. eauto.
      * intros (i&j&Nij&Rest). apply NP in Nij as (z1&z2&Iz&La&Lb). exists (z1, z2). split; auto. exists i, j. auto.
    + intros [z1 z2] u Iz Hu. cbn [fst snd] in *.
      apply bind_ok in Hu as (i&Hi&Hu). apply bind_ok in Hu as (x&Hx&Hu). apply bind_ok in Hu as (j&Hj&Hu). apply bind_ok in Hu as (y&Hy&Hu).
      apply bind_ok in Hu as (m&Hm&Hu).
      pose proof (proj1 (val_at_iff W a i x Wa) Hx) as Ix. pose proof (proj1 (val_at_iff W b j y Wb) Hy) as Iy.
      apply (key_at_ok veqb) in Hi, Hj. rewrite (Fz _ Iz) in Hu. cbn [andb] in Hu.
      destruct (IH x y _ _ m (or_intror (conj (RA _ _ Ix) (RB _ _ Iy))) (WA _ _ Ix) (WB _ _ Iy) Hm) as [_ X].
      assert (Ee : elem_eqb i j = true <-> i = j) by apply elem_eqb_iff.
      assert (Y : exactly fa fb (fun t q r => t = Moved /\ o_moved opt = true /\ i <> j /\ q = [i] /\ r = [j])
        (if o_moved opt && negb (elem_eqb i j) then [(Moved, fa ++ [i], fb ++ [j])] else [])).
      { destruct (o_moved opt && negb (elem_eqb i j)) eqn:Em.
        - apply andb_true_iff in Em as [Em En]. apply negb_true_iff in En. eapply exactly_iff; [|apply exactly_one].
          intros t q r. cbv beta. split; [|tauto]. intros (->&->&->). repeat split; auto. intros c1. apply Ee in c1. congruence.
        - eapply exactly_iff; [|apply exactly_nil]. intros t q r. cbv beta. split; [intros []|]. intros (_&M&N&_).
          rewrite M in Em. cbn in Em. apply negb_false_iff in Em. apply Ee in Em. auto. }
      inversion Hu. eapply exactly_iff; [|exact (exactly_app _ _ _ _ _ _ (exactly_sub _ _ _ _ _ _ X) Y)]. intros t q r. cbv beta. split.
      * intros [(q'&r'&->&->&Ch)|M]; exists i, j; split; auto; split; auto; [left; exists x, y, q', r'; auto 8|right; exists x, y; auto].
      * intros (i'&j'&La&Lb&M). assert (i' = i) as -> by congruence. assert (j' = j) as -> by congruence.
        destruct M as [(x'&y'&q'&r'&Ix'&Iy'&->&->&Ch)|(x'&y'&_&_&M)]; auto. left.
        apply (val_at_iff W a i x' Wa) in Ix'. apply (val_at_iff W b j y' Wb) in Iy'.
        assert (x' = x) as -> by congruence. assert (y' = y) as -> by congruence. exists q', r'. auto.
  - destruct (o_unchanged_ opt || o_moved opt) eqn:Eo.
    + eapply exactly_iff; [|eapply (exactly_concat fa fb _ (fun z t q r => exists i j, lookup (keqb veqb) z ta = Some i /\ lookup (keqb veqb) z tb = Some j /\
       matching opt t i j /\ q = [i] /\ r = [j])); [exact H3|]].
      * intros t q r. cbv beta. split.
        -- intros (z&Iz&i&j&La&Lb&Rest). exists i, j. split; auto. apply Pab. exists z. split; auto. exact (Permutation_in _ (Ou _) Iz).
        -- intros (i&j&Pij&Rest). apply Pab in Pij as (z&Iz&La&Lb). exists z.
           split; [exact (Permutation_in _ (Permutation_sym (Ou _)) Iz)|]. exists i, j. auto.
      * intros z u _ Hu. cbv beta in Hu. apply bind_ok in Hu as (i&Hi&Hu). apply bind_ok in Hu as (j&Hj&Hu). apply (key_at_ok veqb) in Hi, Hj.
        assert (Ee : elem_eqb i j = true <-> i = j) by apply elem_eqb_iff. unfold matching.
        destruct (o_moved opt && negb (elem_eqb i j)) eqn:Em; [|destruct (o_unchanged_ opt) eqn:Eu]; inversion Hu.
        -- apply andb_true_iff in Em as [Em En]. apply negb_true_iff in En. eapply exactly_iff; [|apply exactly_one]. intros t q r. cbv beta. split.
           ++ intros (->&->&->). exists i, j. repeat split; auto. left. repeat split; auto. intros c1. apply Ee in c1. congruence.
           ++ intros (i'&j'&La&Lb&M&->&->). assert (i' = i) as -> by congruence. assert (j' = j) as -> by congruence.
              destruct M as [(->&_)|(_&_&M)]; auto. rewrite (proj2 Ee (M Em)) in En. discriminate.
        -- eapply exactly_iff; [|apply exactly_one]. intros t q r. cbv beta. split.
           ++ intros (->&->&->). exists i, j. repeat split; auto. right. repeat split; auto. intros c1. rewrite c1 in Em. cbn in Em.
              apply negb_false_iff in Em. now apply Ee.
           ++ intros (i'&j'&La&Lb&M&->&->). assert (i' = i) as -> by congruence. assert (j' = j) as -> by congruence.
              destruct M as [(_&M1&M2)|(->&_)]; auto. rewrite M1 in Em. cbn in Em. apply negb_false_iff in Em. apply Ee in Em. congruence.
        -- cbn [orb] in Eo. rewrite Eo in Em. cbn in Em. apply negb_false_iff in Em. apply Ee in Em.
           eapply exactly_iff; [|apply exactly_nil]. intros t q r. cbv beta. split; [intros []|].
           intros (i'&j'&La&Lb&M&_). assert (i' = i) as -> by congruence. assert (j' = j) as -> by congruence.
           destruct M as [(_&_&M)|(_&M&_)]; congruence.
    + inversion H3. apply orb_false_iff in Eo as [Eu Em]. eapply exactly_iff; [|apply exactly_nil]. intros t q r. cbv beta. split; [intros []|].
      unfold matching. intros (i&j&_&[(_&M&_)|(_&M&_)]&_); congruence.
  - eapply exactly_iff; [|eapply (exactly_concat fa fb _ (fun z t q r => exists i, lookup (keqb veqb) z ta = Some i /\ t = Removed /\ q = [i] /\ r = [])); [exact H4|]].
    + intros t q r. cbv beta. split.
      * intros (z&Iz&i&Lz&Rest). exists i. split; auto. apply (Permutation_in _ (Or _)) in Iz. apply filter_In in Iz as [Iz Nz]. split.
        -- apply Ra. apply (positions_in (keqb veqb)). exists z. auto.
        -- intros j Nj. apply negb_true_iff in Nz. rewrite (proj2 (NRm z i Iz Lz) (ex_intro _ j Nj)) in Nz. discriminate.
      * intros (i&(Si&Ni)&Rest). apply Ra in Si. apply (positions_in (keqb veqb)) in Si as (z&Iz&Lz). exists z.
        split; [|exists i; auto]. apply (Permutation_in _ (Permutation_sym (Or _))). apply filter_In. split; auto.
        apply negb_true_iff. destruct (kmem veqb z (map fst pairs)) eqn:M; auto. apply (NRm z i Iz Lz) in M as [j Nj]. destruct (Ni j Nj).
    + intros z u _ Hu. cbv beta in Hu. apply bind_ok in Hu as (i&Hi&Hu). apply (key_at_ok veqb) in Hi. inversion Hu.
      replace fb with (fb ++ []) at 2 by apply app_nil_r. eapply exactly_iff; [|apply exactly_one]. intros t q r. cbv beta. split.
      * intros (->&->&->). eauto.
      * intros (i'&Lz&->&->&->). assert (i' = i) as -> by congruence. auto.
  - eapply exactly_iff; [|eapply (exactly_concat fa fb _ (fun z t q r => exists i, lookup (keqb veqb) z tb = Some i /\ t = Added /\ q = [] /\ r = [i])); [exact H5|]].
    + intros t q r. cbv beta. split.
      * intros (z&Iz&i&Lz&Rest). exists i. split; auto. apply (Permutation_in _ (Oad _)) in Iz. apply filter_In in Iz as [Iz Nz]. split.
        -- apply Rb. apply (positions_in (keqb veqb)). exists z. auto.
        -- intros j Nj. apply negb_true_iff in Nz. rewrite (proj2 (NAd z i Iz Lz) (ex_intro _ j Nj)) in Nz. discriminate.
      * intros (i&(Si&Ni)&Rest). apply Rb in Si. apply (positions_in (keqb veqb)) in Si as (z&Iz&Lz). exists z.
        split; [|exists i; auto]. apply (Permutation_in _ (Permutation_sym (Oad _))). apply filter_In. split; auto.
        apply negb_true_iff. destruct (kmem veqb z (map snd pairs)) eqn:M; auto. apply (NAd z i Iz Lz) in M as [j Nj]. destruct (Ni j Nj).
    + intros z u _ Hu. cbv beta in Hu. apply bind_ok in Hu as (i&Hi&Hu). apply (key_at_ok veqb) in Hi. inversion Hu.
      replace fa with (fa ++ []) at 2 by apply app_nil_r. eapply exactly_iff; [|apply exactly_one]. intros t q r. cbv beta. split.
      * intros (->&->&->). eauto.
      * intros (i'&Lz&->&->&->). assert (i' = i) as -> by congruence. auto.
Qed.
Lemma dispatch_entries a b fa fb l : same_type a b \/ (class_of a <> None /\ class_of b <> None) -> wfv a -> wfv b ->
  dispatch rec a b fa fb = Ok l -> same_type a b /\ exactly fa fb (change fa fb a b) l.
Proof.
  intros R Wa Wb. unfold DiffModel.dispatch.
  assert (Na : is_nothing a = false) by (destruct a; auto; destruct R as [R|[R _]]; [now destruct b|now destruct R]).
  assert (Nb : is_nothing b = false) by (destruct b; auto; destruct R as [R|[_ R]]; [now destruct a|now destruct R]).
  rewrite Na.
  assert (P : plain a -> list_iter a b fa fb = Ok l -> same_type a b /\ exactly fa fb (change fa fb a b) l).
  { intros Pa H. assert (T : same_type a b) by (destruct R as [R|[R _]]; auto; destruct a; try (destruct Pa; fail); now destruct R).
    split; auto. eapply exactly_iff; [|exact (list_entries a b fa fb l T (or_introl Pa) Wa Wb H)].
    intros t q r. rewrite (change_iff fa fb a b T). split.
    - intros X. right. left. split; auto. now left.
    - intros [(c&p&Ec&_)|[(_&X)|((S&_)&_)]]; auto; destruct a; try (destruct Pa; fail); try discriminate; destruct S. }
  assert (Q : forall c, collection a -> class_of a = Some c ->
     (do l <- collection_iter rec a b fa fb; do m <- record_iter rec a b fa fb; Ok (l ++ m)) = Ok l ->
     same_type a b /\ exactly fa fb (change fa fb a b) l).
  { intros c Ca Ec H. apply bind_ok in H as (l1&H1&H). apply bind_ok in H as (l2&H2&H). assert (l = l1 ++ l2) as -> by congruence. clear H.
    destruct (record_entries c a b fa fb l2 Ec Wa Wb H2 Nb) as [T X]. split; auto.
    revert H1. unfold DiffModel.collection_iter. rewrite Na, Ec. destruct (ValModel.item W c) as [|d|] eqn:Ei; [discriminate| |]; intros H1.
    - pose proof (records_entries c d a b fa fb l1 T Ca Ec Ei Wa Wb H1) as Y.
      eapply exactly_iff; [|exact (exactly_app _ _ _ _ _ _ Y X)]. intros t q r. rewrite (change_iff fa fb a b T). split.
      + intros [Z|(p&Ip&Z)]; [right; right; split; auto; split; eauto|left; eauto].
      + intros [(c'&p&Ec'&Ip&Z)|[([L|(_&c'&Ec'&L)]&_)|(_&Z)]]; auto.
        * right. exists p. split; auto. congruence.
        * destruct a; try (destruct Ca; fail); destruct L.
        * congruence.
    - assert (L : loose W a) by (right; split; eauto).
      pose proof (list_entries a b fa fb l1 T L Wa Wb H1) as Y.
      eapply exactly_iff; [|exact (exactly_app _ _ _ _ _ _ Y X)]. intros t q r. rewrite (change_iff fa fb a b T). split.
      + intros [Z|(p&Ip&Z)]; [right; left; auto|left; eauto].
      + intros [(c'&p&Ec'&Ip&Z)|[(_&Z)|((_&c'&d'&Ec'&S)&_)]]; auto.
        * right. exists p. split; auto. congruence.
        * congruence. }
  destruct a as [| | | | | |c sl|c sl la|c sl la]; try discriminate Na; try (destruct R as [[]|[R _]]; now destruct R).
  - apply P. exact I.
  - apply P. exact I.
  - intros H. destruct (record_entries c (VRec c sl) b fa fb l eq_refl Wa Wb H Nb) as [T X]. split; auto.
    eapply exactly_iff; [|exact X]. intros t q r. rewrite (change_iff fa fb (VRec c sl) b T). split.
    + intros (p&Ip&Z). left. exists c, p. auto.
    + intros [(c'&p&Ec&Ip&Z)|[([[]|[[] _]]&_)|(([]&_)&_)]]. cbn in Ec. inversion Ec; subst. eauto.
  - now apply (Q c).
  - now apply (Q c).
Qed.
End Step.

Lemma diff_entries n : forall a b fa fb l, same_type a b \/ (class_of a <> None /\ class_of b <> None) -> wfv a -> wfv b ->
  diff n a b fa fb = Ok l -> same_type a b /\ exactly fa fb (change fa fb a b) l.
Proof.
  induction n as [|n IHn]; intros a b fa fb l R Wa Wb; cbn [DiffModel.diff]; [discriminate|].
  now apply dispatch_entries.
Qed.
End Entries.
