From Coq Require Import List Arith NArith ZArith Bool Lia Permutation.
From Verif Require Import Prelude SelPathModel FSModel PySeq MFSModel ValModel EqModel EqProofs SeqDiffModel SeqDiffProofs
  SeqDiffProps FuzzyModel FuzzyProps FuzzyFlip MFSProofs DiffModel DiffProofs DiffSwap DiffTotal DiffExact DiffEntries RecurseSpec.
Import ListNotations.

Section Recurse.
Context {A C : Type}.
Variable W : classes A C.
Variable ceqb : C -> C -> bool.
Notation val := (val A C).
Notation prop := (prop A C).
Variable veqb : val -> val -> bool.
Variable hashable : val -> bool.
Variable repr : val -> str.
Variable a_hash a_falsy : A -> bool.
Variable a_items : A -> res (list (elem * val)).
(** the options without [recurse] *)
Variable opt : options.
Variable record_id : rtype C -> option mfs -> val -> res val.
Variable ord : list elem -> list elem -> dorders (A := A) (C := C).

Hypothesis ord_ok : forall fa fb, orders_ok (ord fa fb).
Hypothesis vrefl : forall v, veqb v v = true.
Hypothesis vsym : forall u v, veqb u v = true -> veqb v u = true.
Hypothesis vtrans : forall u v w, veqb u v = true -> veqb v w = true -> veqb u w = true.
Hypothesis ceq : forall c d, ceqb c d = true <-> c = d.
Hypothesis keeps : keeps_wf W.
Hypothesis defaults : default_options opt.

Definition opt' : options := mkOptions (o_text opt) (o_unchanged_ opt) (o_moved opt) (o_empty_slots opt) (o_empty_items opt) (o_duck opt)
  (o_extraneous opt) (o_filter opt) (o_fuzzy opt) true.

Notation seen := (seen (A := A) (C := C) opt).
Notation counted := (counted W repr a_hash opt).
Notation identified := (identified record_id).
Notation diff := (diff W ceqb veqb hashable repr a_hash a_falsy a_items opt' record_id ord).
Notation dispatch := (dispatch W ceqb veqb hashable repr a_hash a_falsy a_items opt' record_id ord).
Notation records_iter := (records_iter veqb hashable a_falsy a_items opt' record_id ord).
Notation list_iter := (list_iter W veqb hashable repr a_hash a_items opt ord).
Notation collection_iter := (collection_iter W veqb hashable repr a_hash a_falsy a_items opt' record_id ord).
Notation record_iter := (record_iter W ceqb veqb opt).
Notation slot_diff := (slot_diff ceqb veqb opt).
Notation wfv := (wfv W).
Notation slot_seen := (slot_seen opt defaults).
Notation differs := (differs W veqb repr a_hash opt).
Notation list_entries := (list_entries W veqb hashable repr a_hash a_items opt ord ord_ok vrefl vsym vtrans defaults).
Notation items_change := (items_change W veqb repr a_hash opt).

Definition slot_differs (a b : val) (p : prop) (t : dtype) (q r : list elem) : Prop :=
  compared opt p /\
  match seen p a, seen p b with
  | None, None => False
  | Some _, None => t = Removed /\ q = [EStr (p_name p)] /\ r = [EStr (p_name p)]
  | None, Some _ => t = Added /\ q = [EStr (p_name p)] /\ r = [EStr (p_name p)]
  | Some u, Some v =>
      (same_type u v /\ exists q' r', q = EStr (p_name p) :: q' /\ r = EStr (p_name p) :: r' /\ differs u v t q' r') \/
      (~ same_type u v /\ q = [EStr (p_name p)] /\ r = [EStr (p_name p)] /\
        (veqb u v = false /\ t = Modified \/ veqb u v = true /\ o_unchanged_ opt = true /\ t = NoChange))
  end.
Definition records_differ (a b : val) (t : dtype) (q r : list elem) : Prop :=
  (exists i x y q' r', In (i, x) (contents a) /\ In (i, y) (contents b) /\ q = i :: q' /\ r = i :: r' /\ differs x y t q' r') \/
  (exists i, has_item a i /\ ~ has_item b i /\ t = Removed /\ q = [i] /\ r = []) \/
  (exists i, has_item b i /\ ~ has_item a i /\ t = Added /\ q = [] /\ r = [i]).

Lemma differs_iff a b : same_type a b -> forall t q r, differs a b t q r <->
  (exists c p, class_of a = Some c /\ In p (props W c) /\ slot_differs a b p t q r) \/
  (loose W a /\ items_change a b t q r) \/ (strict W a /\ records_differ a b t q r).
Proof.
  intros T t q r. unfold slot_differs, DiffEntries.items_change, records_differ. split.
  - intros H. destruct H as [a b p u (_&c&X&Y&Z) Ea Eb|a b p v (_&c&X&Y&Z) Ea Eb|a b p u v (_&c&X&Y&Z) Ea Eb Nu Ev|a b p u v (_&c&X&Y&Z) Ea Eb Nu Ev Eu
      |a b p u v t q r (_&c&X&Y&Z) Ea Eb Tu Ch|a b i _ L S N|a b i _ L S N|a b i _ L S N|a b t i j _ L S N
      |a b i _ L S N|a b i _ L S N|a b i x y t q r _ L Ix Iy Ch].
    + left. exists c, p. rewrite Ea, Eb. auto 8.
    + left. exists c, p. rewrite Ea, Eb. auto 8.
    + left. exists c, p. rewrite Ea, Eb. auto 12.
    + left. exists c, p. rewrite Ea, Eb. auto 12.
    + left. exists c, p. rewrite Ea, Eb. repeat split; auto. left. split; auto. eauto 8.
    + right. left. split; auto. left. eauto 8.
    + right. left. split; auto. right. left. eauto 8.
    + right. left. split; auto. do 2 right. left. eauto 8.
    + right. left. split; auto. do 3 right. eauto 8.
    + right. right. split; auto. right. left. eauto 8.
    + right. right. split; auto. right. right. eauto 8.
    + right. right. split; auto. left. exists i, x, y, q, r. auto 8.
  - intros [(c&p&Ec&Ip&Cp&H)|[(L&H)|(S&H)]].
    + assert (Sl : slots W opt a b p) by (split; eauto).
      destruct (DiffExact.seen opt p a) as [u|] eqn:Ea, (DiffExact.seen opt p b) as [v|] eqn:Eb.
      * destruct H as [(Tu&q'&r'&->&->&H)|(Nu&->&->&[(H&->)|(H&Hu&->)])].
        -- eapply in_slot; eauto.
        -- eapply at_slot_modified; eauto.
        -- eapply at_slot_same; eauto.
      * destruct H as (->&->&->). eapply at_slot_removed; eauto.
      * destruct H as (->&->&->). eapply at_slot_added; eauto.
      * destruct H.
    + destruct H as [(i&I1&I2&->&->&->)|[(i&I1&I2&->&->&->)|[(i&I1&I2&->&->&->)|(i&j&I1&I2&->&->)]]].
      * now apply loose_removed.
      * now apply loose_added.
      * now apply loose_modified.
      * now apply loose_same.
    + destruct H as [(i&x&y&q'&r'&I2&I3&->&->&I4)|[(i&I1&I2&->&->&->)|(i&I1&I2&->&->&->)]].
      * eapply in_record; eauto.
      * now apply record_gone.
      * now apply record_new.
Qed.

Lemma emem_iff k l : emem k l = true <-> In k l.
Proof. unfold emem. rewrite existsb_exists. split; [intros (j & I & E); apply elem_eqb_iff in E as ->; auto|intros I; exists k; split; auto; now apply elem_eqb_iff]. Qed.
Lemma has_item_iff (v : val) k : has_item v k <-> In k (map fst (contents v)).
Proof. unfold has_item. rewrite in_map_iff. split; [intros (x & I); exists (k, x); auto|intros ([k' x] & E & I); cbn in E; subst; eauto]. Qed.

Section Step.
Variable rec : val -> val -> list elem -> list elem -> res (list dentry).
Hypothesis IH : forall a b fa fb l, same_type a b \/ (class_of a <> None /\ class_of b <> None) -> wfv a -> wfv b ->
  rec a b fa fb = Ok l -> same_type a b /\ exactly fa fb (differs a b) l.

Lemma slot_entries c a b fa fb p l : In p (props W c) -> wfv a -> wfv b -> slot_diff rec a b fa fb p = Ok l ->
  exactly fa fb (slot_differs a b p) l.
Proof.
  intros Ip Wa Wb. destruct defaults as (De&Di&Dd&Df&Dr).
  unfold DiffModel.slot_diff, is_filtered, slot_differs. rewrite Df, orb_false_r.
  destruct (negb (o_extraneous opt) && p_extraneous p) eqn:Ex.
  { intros H. inversion H. eapply exactly_iff; [|apply exactly_nil]. intros t q r. split; [intros []|].
    intros [[c1|c1] _]; rewrite c1 in Ex; [discriminate|]. rewrite andb_false_r in Ex. discriminate. }
  assert (Cp : compared opt p).
  { unfold compared. destruct (o_extraneous opt); auto. }
  pose proof (slot_seen p a) as Sa. pose proof (slot_seen p b) as Sb.
  destruct (seen p a) as [u|] eqn:Ea; [destruct Sa as [Sa Na]|]; (destruct (seen p b) as [v|] eqn:Eb; [destruct Sb as [Sb Nb]|]);
    rewrite Sa, Sb; rewrite ?De, ?Dd; cbn [is_nothing]; rewrite ?Na, ?Nb; cbn [xorb andb orb negb].
  - assert (Wu : wfv u) by exact (seen_wf W opt keeps p c a u Ip Wa Ea). assert (Wv : wfv v) by exact (seen_wf W opt keeps p c b v Ip Wb Eb).
    destruct (types_match ceqb u v) eqn:T; cbn [orb].
    + apply (same_type_iff ceqb ceq) in T. rewrite (comparable_type u v T). cbn [orb andb]. intros H.
      apply bind_ok in H as (m&Hm&H). assert (m = l) as -> by congruence.
      destruct (IH _ _ _ _ _ (or_introl T) Wu Wv Hm) as [_ X]. eapply exactly_iff; [|exact (exactly_sub _ _ _ _ _ _ X)].
      intros t q r. cbv beta. tauto.
    + apply (same_type_false ceqb ceq) in T. rewrite andb_false_r.
      destruct (veqb u v) eqn:Ev; cbn [negb].
      * destruct (o_unchanged_ opt) eqn:Eu; intros H; inversion H.
        -- eapply exactly_iff; [|apply exactly_one]. intros t q r. cbv beta. intuition congruence.
        -- eapply exactly_iff; [|apply exactly_nil]. intros t q r. cbv beta. intuition congruence.
      * intros H; inversion H. eapply exactly_iff; [|apply exactly_one]. intros t q r. cbv beta. intuition congruence.
  - rewrite orb_false_r. replace (types_match ceqb u VNothing) with false by now destruct u. rewrite andb_false_r. intros H.
    assert (l = [(Removed, fa ++ [EStr (p_name p)], fb ++ [EStr (p_name p)])]) as -> by congruence.
    eapply exactly_iff; [|apply exactly_one]. intros t q r. cbv beta. intuition congruence.
  - replace (types_match ceqb VNothing v) with false by now destruct v. rewrite andb_false_r. intros H.
    assert (l = [(Added, fa ++ [EStr (p_name p)], fb ++ [EStr (p_name p)])]) as -> by congruence.
    eapply exactly_iff; [|apply exactly_one]. intros t q r. cbv beta. intuition congruence.
  - intros H. inversion H. eapply exactly_iff; [|apply exactly_nil]. intros t q r. cbv beta. intuition congruence.
Qed.

Lemma record_entries c a b fa fb l : class_of a = Some c -> wfv a -> wfv b -> record_iter rec a b fa fb = Ok l ->
  is_nothing b = false -> same_type a b /\ exactly fa fb (fun t q r => exists p, In p (props W c) /\ slot_differs a b p t q r) l.
Proof.
  intros Ec Wa Wb H Nb. destruct defaults as (De&Di&Dd&Df&Dr). revert H.
  assert (Na : is_nothing a = false) by (destruct a; auto; discriminate).
  unfold DiffModel.record_iter. rewrite Dd, Na, Nb, Ec. cbn [negb andb orb].
  destruct (types_match ceqb a b) eqn:T; [|discriminate]. apply (same_type_iff ceqb ceq) in T. cbn [negb andb]. intros H. split; auto.
  eapply exactly_iff; [|eapply exactly_concat; [exact H|]].
  - intros t q r. cbv beta. split; intros (p&Ip&X); exists p; split; eauto; now apply all_properties_in.
  - intros p u Ip Hu. apply all_properties_in in Ip. now apply (slot_entries c).
Qed.


Lemma records_entries c d a b fa fb l : same_type a b -> collection a -> class_of a = Some c -> ValModel.item W c = IRec d ->
  wfv a -> wfv b -> records_iter rec d a b fa fb = Ok l ->
  exactly fa fb (records_differ a b) l.
Proof.
  intros T Ca Ec Ei Wa Wb. destruct defaults as (De&Di&Dd&Df&Dr).
  assert (Cb : collection b) by (destruct a, b; try (destruct T; fail); try (destruct Ca; fail); exact I).
  assert (Ecb : class_of b = Some c) by (destruct a, b; try (destruct T; fail); try (destruct Ca; fail); cbn in *; congruence).
  unfold DiffModel.records_iter, id_selector. change (o_filter opt') with (o_filter opt). rewrite Df. cbn [bind]. change (o_recurse opt') with true. cbn iota. intros H.
  apply bind_ok in H as (ga&Ga&H). apply bind_ok in H as (ia&Ia&H).
  apply bind_ok in H as (gb&Gb&H). apply bind_ok in H as (ib&Ib&H).
  apply gen_contents in Ga; auto. apply gen_contents in Gb; auto. subst ga gb.
  change (id_keys hashable opt' record_id d None fa) with (id_keys hashable opt record_id d None fa) in Ia, Ib.
  apply (identified_keys hashable opt record_id defaults) in Ia, Ib. subst ia ib.
  rewrite !tag_snd, !map_fst_map in H.
  destruct (ord_ok fa fb) as (_&Ok'&_).
  apply bind_ok in H as (l1&H1&H). inversion H as [H']. clear H H' l.
  pose proof (fun i x I => contents_rec W a c d i x Wa Ca Ec Ei I) as RA.
  pose proof (fun i x I => contents_rec W b c d i x Wb Cb Ecb Ei I) as RB.
  pose proof (fun i x I => contents_wf W a i x Wa I) as WA.
  pose proof (fun i x I => contents_wf W b i x Wb I) as WB.
  unfold records_differ. apply exactly_app; [|apply exactly_app].
  - eapply exactly_iff; [|eapply (exactly_concat fa fb _ (fun i t q r => exists x y q' r', In (i, x) (contents a) /\ In (i, y) (contents b) /\
      q = i :: q' /\ r = i :: r' /\ differs x y t q' r')); [exact H1|]].
    + intros t q r. cbv beta. split.
      * intros (i & _ & x & y & q' & r' & X). exists i, x, y, q', r'. exact X.
      * intros (i & x & y & q' & r' & I1 & I2 & X). exists i. split; [|exists x, y, q', r'; auto].
        apply (Permutation_in _ (Permutation_sym (Ok' _))). apply filter_In. split; [apply in_map_iff; exists (i, x); auto|].
        apply emem_iff, in_map_iff. exists (i, y). auto.
    + intros i u _ Hu. cbv beta in Hu. apply bind_ok in Hu as (x&Hx&Hu). apply bind_ok in Hu as (y&Hy&Hu).
      apply (val_at_iff W) in Hx; auto. apply (val_at_iff W) in Hy; auto.
      destruct (IH _ _ _ _ _ (or_intror (conj (RA _ _ Hx) (RB _ _ Hy))) (WA _ _ Hx) (WB _ _ Hy) Hu) as [_ X].
      eapply exactly_iff; [|exact (exactly_sub _ _ _ _ _ _ X)]. intros t q r. cbv beta. split.
      * intros (q' & r' & -> & -> & Y). exists x, y, q', r'. auto.
      * intros (x' & y' & q' & r' & I1 & I2 & -> & -> & Y). exists q', r'. split; auto. split; auto.
        apply (val_at_iff W) in Hx, Hy, I1, I2; auto. congruence.
  - intros e. rewrite in_map_iff. split.
    + intros (i & <- & I). apply (Permutation_in _ (Ok' _)) in I. apply filter_In in I as [I1 I2]. apply negb_true_iff in I2.
      exists Removed, [i], []. rewrite app_nil_r. split; auto. exists i. rewrite !has_item_iff. repeat split; auto.
      intros I. apply emem_iff in I. congruence.
    + intros (t & q & r & -> & i & I1 & I2 & -> & -> & ->). exists i. rewrite app_nil_r. split; auto.
      rewrite has_item_iff in I1, I2. apply (Permutation_in _ (Permutation_sym (Ok' _))). apply filter_In. split; auto.
      apply negb_true_iff. destruct (emem i _) eqn:E; auto. apply emem_iff in E. tauto.
  - intros e. rewrite in_map_iff. split.
    + intros (i & <- & I). apply (Permutation_in _ (Ok' _)) in I. apply filter_In in I as [I1 I2]. apply negb_true_iff in I2.
      exists Added, [], [i]. rewrite app_nil_r. split; auto. exists i. rewrite !has_item_iff. repeat split; auto.
      intros I. apply emem_iff in I. congruence.
    + intros (t & q & r & -> & i & I1 & I2 & -> & -> & ->). exists i. rewrite app_nil_r. split; auto.
      rewrite has_item_iff in I1, I2. apply (Permutation_in _ (Permutation_sym (Ok' _))). apply filter_In. split; auto.
      apply negb_true_iff. destruct (emem i _) eqn:E; auto. apply emem_iff in E. tauto.
Qed.
Lemma dispatch_entries a b fa fb l : same_type a b \/ (class_of a <> None /\ class_of b <> None) -> wfv a -> wfv b ->
  dispatch rec a b fa fb = Ok l -> same_type a b /\ exactly fa fb (differs a b) l.
Proof.
  intros R Wa Wb. unfold DiffModel.dispatch.
  change (DiffModel.list_iter W veqb hashable repr a_hash a_items opt' ord) with list_iter.
  change (DiffModel.record_iter W ceqb veqb opt') with record_iter.
  assert (Na : is_nothing a = false) by (destruct a; auto; destruct R as [R|[R _]]; [now destruct b|now destruct R]).
  assert (Nb : is_nothing b = false) by (destruct b; auto; destruct R as [R|[_ R]]; [now destruct a|now destruct R]).
  rewrite Na.
  assert (P : plain a -> list_iter a b fa fb = Ok l -> same_type a b /\ exactly fa fb (differs a b) l).
  { intros Pa H. assert (T : same_type a b) by (destruct R as [R|[R _]]; auto; destruct a; try (destruct Pa; fail); now destruct R).
    split; auto. eapply exactly_iff; [|exact (list_entries a b fa fb l T (or_introl Pa) Wa Wb H)].
    intros t q r. rewrite (differs_iff a b T). split.
    - intros X. right. left. split; auto. now left.
    - intros [(c&p&Ec&_)|[(_&X)|((S&_)&_)]]; auto; destruct a; try (destruct Pa; fail); try discriminate; destruct S. }
  assert (Q : forall c, collection a -> class_of a = Some c ->
     (do l <- collection_iter rec a b fa fb; do m <- record_iter rec a b fa fb; Ok (l ++ m)) = Ok l ->
     same_type a b /\ exactly fa fb (differs a b) l).
  { intros c Ca Ec H. apply bind_ok in H as (l1&H1&H). apply bind_ok in H as (l2&H2&H). assert (l = l1 ++ l2) as -> by congruence. clear H.
    destruct (record_entries c a b fa fb l2 Ec Wa Wb H2 Nb) as [T X]. split; auto.
    revert H1. unfold DiffModel.collection_iter.
    change (DiffModel.list_iter W veqb hashable repr a_hash a_items opt' ord) with list_iter. rewrite Na, Ec. destruct (ValModel.item W c) as [|d|] eqn:Ei; [discriminate| |]; intros H1.
    - pose proof (records_entries c d a b fa fb l1 T Ca Ec Ei Wa Wb H1) as Y.
      eapply exactly_iff; [|exact (exactly_app _ _ _ _ _ _ Y X)]. intros t q r. rewrite (differs_iff a b T). split.
      + intros [Z|(p&Ip&Z)]; [right; right; split; auto; split; eauto|left; eauto].
      + intros [(c'&p&Ec'&Ip&Z)|[([L|(_&c'&Ec'&L)]&_)|(_&Z)]]; auto.
        * right. exists p. split; auto. congruence.
        * destruct a; try (destruct Ca; fail); destruct L.
        * congruence.
    - assert (L : loose W a) by (right; split; eauto).
      pose proof (list_entries a b fa fb l1 T L Wa Wb H1) as Y.
      eapply exactly_iff; [|exact (exactly_app _ _ _ _ _ _ Y X)]. intros t q r. rewrite (differs_iff a b T). split.
      + intros [Z|(p&Ip&Z)]; [right; left; auto|left; eauto].
      + intros [(c'&p&Ec'&Ip&Z)|[(_&Z)|((_&c'&d'&Ec'&S)&_)]]; auto.
        * right. exists p. split; auto. congruence.
        * congruence. }
  destruct a as [| | | | | |c sl|c sl la|c sl la]; try discriminate Na; try (destruct R as [[]|[R _]]; now destruct R).
  - apply P. exact I.
  - apply P. exact I.
  - intros H. destruct (record_entries c (VRec c sl) b fa fb l eq_refl Wa Wb H Nb) as [T X]. split; auto.
    eapply exactly_iff; [|exact X]. intros t q r. rewrite (differs_iff (VRec c sl) b T). split.
    + intros (p&Ip&Z). left. exists c, p. auto.
    + intros [(c'&p&Ec&Ip&Z)|[([[]|[[] _]]&_)|(([]&_)&_)]]. cbn in Ec. inversion Ec; subst. eauto.
  - now apply (Q c).
  - now apply (Q c).
Qed.
End Step.

Lemma recurse_entries n : forall a b fa fb l, same_type a b \/ (class_of a <> None /\ class_of b <> None) -> wfv a -> wfv b ->
  diff n a b fa fb = Ok l -> same_type a b /\ exactly fa fb (differs a b) l.
Proof.
  induction n as [|n IHn]; intros a b fa fb l R Wa Wb; cbn [DiffModel.diff]; [discriminate|].
  now apply dispatch_entries.
Qed.
End Recurse.
