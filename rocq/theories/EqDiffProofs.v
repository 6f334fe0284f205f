(** Equal values have no differences: proofs. *)
From Coq Require Import List Arith NArith ZArith Bool Lia Permutation.
From Verif Require Import Prelude SelPathModel FSModel PySeq MFSModel ValModel EqModel EqProofs SeqDiffModel SeqDiffProofs
  SeqDiffProps FuzzyModel FuzzyProps DiffModel DiffProofs DiffSwap DiffTotal DiffExact DiffEntries EqDiffSpec.
Import ListNotations.

(** ** Multisets *)
Section Multi.
Context {K : Type}.
Variable keqb : K -> K -> bool.
Hypothesis E : equalities keqb elem_eqb.
Definition pos_rel (x y : elem * K) : Prop := fst x = fst y /\ keqb (snd x) (snd y) = true.

Lemma keq_same k u v : keqb u v = true -> keqb k u = keqb k v.
Proof.
  destruct E as (E1&E2&E3&_). intros H. destruct (keqb k u) eqn:A, (keqb k v) eqn:B; auto.
  - rewrite (E3 _ _ _ A H) in B. discriminate.
  - rewrite (E3 _ _ _ B (E2 _ _ H)) in A. discriminate.
Qed.
Lemma count_cons k (x : elem * K) l : count keqb k (x :: l) = (if keqb k (snd x) then 1 else 0) + count keqb k l.
Proof. unfold count. cbn. destruct (keqb k (snd x)); reflexivity. Qed.
Lemma count_app' k (l m : list (elem * K)) : count keqb k (l ++ m) = count keqb k l + count keqb k m.
Proof. unfold count. rewrite filter_app, app_length. reflexivity. Qed.
Lemma count_pos l m : Forall2 pos_rel l m -> forall k, count keqb k l = count keqb k m.
Proof.
  induction 1 as [|x y l m [_ S] F IH]; intros k; auto. rewrite !count_cons, IH, (keq_same k _ _ S). reflexivity.
Qed.
Lemma count_perm (l m : list (elem * K)) k : Permutation l m -> count keqb k l = count keqb k m.
Proof. induction 1; rewrite ?count_cons; lia. Qed.

Lemma pos_paired l m i j : Forall2 pos_rel l m -> paired keqb l m i j -> i = j.
Proof.
  intros F (k & k' & l1 & l2 & m1 & m2 & -> & -> & Ek & Ec). destruct E as (E1&E2&E3&_).
  apply Forall2_app_inv_l in F as (n1 & n2 & F1 & F2 & Eq). inversion F2 as [|? y ? n2' [P1 P2] F3]; subst. cbn [fst snd] in P1, P2.
  assert (C1 := count_pos _ _ F1 k).
  assert (Ky : keqb k (snd y) = true) by auto.
  assert (Ec' : count keqb k m1 = count keqb k n1) by congruence.
  clear - Eq Ky Ek Ec' E1 P1. revert n1 Eq Ec'. induction m1 as [|z m1 IH]; intros [|w n1] Eq Ec; cbn in Eq.
  - inversion Eq; subst. reflexivity.
  - inversion Eq; subst. rewrite count_cons in Ec. cbn [snd] in Ec. rewrite Ek in Ec. discriminate.
  - inversion Eq; subst. rewrite count_cons, Ky in Ec. discriminate.
  - inversion Eq; subst. apply (IH n1); auto. rewrite !count_cons in Ec. lia.
Qed.
Lemma none_left (l m : list (elem * K)) : (forall k, count keqb k l = count keqb k m) -> forall i, ~ surplus keqb l m i.
Proof. intros H. apply (proj2 (no_surplus keqb elem_eqb E l m)). intros k. rewrite H. lia. Qed.
End Multi.

(** ** Dicts *)
Lemma elem_eqb_refl k : elem_eqb k k = true. Proof. now apply elem_eqb_iff. Qed.
Lemma align {V} (R : V -> V -> Prop) : forall l m : list (elem * V), NoDup (map fst l) -> NoDup (map fst m) ->
  (forall k, opt2 R (dict_get elem_eqb l k) (dict_get elem_eqb m k)) ->
  exists m', Permutation m' m /\ Forall2 (fun x y => fst x = fst y /\ R (snd x) (snd y)) l m'.
Proof.
  induction l as [|[k u] l IH]; intros m Nl Nm H.
  - exists []. split; [|constructor]. destruct m as [|[k v] m]; auto. specialize (H k). cbn in H.
    rewrite elem_eqb_refl in H. inversion H.
  - inversion Nl as [|? ? N1 N2]; subst.
    pose proof (H k) as Hk. cbn [dict_get] in Hk. rewrite elem_eqb_refl in Hk.
    destruct (dict_get elem_eqb m k) as [v|] eqn:G; inversion Hk as [|? ? Ruv]; subst.
    assert (I : In (k, v) m).
    { clear - G. induction m as [|[k' v'] m IH]; cbn in G; [discriminate|]. destruct (elem_eqb k' k) eqn:Ek.
      - apply elem_eqb_iff in Ek as ->. inversion G; subst. left; auto.
      - right; auto. }
    apply in_split in I as (m1 & m2 & ->).
    assert (Nm' : NoDup (map fst (m1 ++ m2)) /\ ~ In k (map fst (m1 ++ m2))).
    { rewrite map_app in Nm. cbn [map fst] in Nm. rewrite map_app. split; [now apply NoDup_remove_1 in Nm|now apply NoDup_remove_2 in Nm]. }
    destruct Nm' as [Nm1 Nm2].
    destruct (IH (m1 ++ m2) N2 Nm1) as (m' & Pm & F).
    { intros k'. specialize (H k'). cbn [dict_get] in H. destruct (elem_eqb k k') eqn:Ek.
      - apply elem_eqb_iff in Ek as <-.
        assert (G0 : forall l0 : list (elem * V), ~ In k (map fst l0) -> dict_get elem_eqb l0 k = None).
        { clear. induction l0 as [|[k' v] l0 IH]; cbn; auto. intros N. destruct (elem_eqb k' k) eqn:Ek; [|apply IH; tauto].
          apply elem_eqb_iff in Ek as ->. exfalso. tauto. }
        rewrite !G0; auto. constructor.
      - assert (G1 : dict_get elem_eqb (m1 ++ (k, v) :: m2) k' = dict_get elem_eqb (m1 ++ m2) k').
        { clear - Ek. induction m1 as [|[k'' v''] m1 IH]; cbn; [rewrite Ek; auto|]. destruct (elem_eqb k'' k'); auto. }
        rewrite <- G1. exact H. }
    exists ((k, v) :: m'). split.
    + etransitivity; [apply perm_skip, Pm|]. apply Permutation_middle.
    + constructor; auto.
Qed.

Section Eq.
Context {A C : Type}.
Variable W : classes A C.
Variable aeqb : A -> A -> bool.
Variable same_item : C -> C -> bool.
Notation val := (val A C).
Notation prop := (prop A C).
Variable veqb : val -> val -> bool.
Variable repr : val -> str.
Variable a_hash : A -> bool.
Variable opt : options.
Variable record_id : rtype C -> option mfs -> val -> res val.
Notation same := (same W aeqb same_item).
Notation seen := (seen (A := A) (C := C) opt).
Notation counted := (counted W repr a_hash opt).
Notation identified := (identified record_id).

Hypothesis vrefl : forall v, veqb v v = true.
Hypothesis vsym : forall u v, veqb u v = true -> veqb v u = true.
Hypothesis vtrans : forall u v w, veqb u v = true -> veqb v w = true -> veqb u w = true.
Hypothesis Rok : respectful W aeqb same_item veqb a_hash.
Hypothesis noextra : o_extraneous opt = false.
Hypothesis Kwf : keeps_wf W.

Lemma same_not_nothing u v : same u v -> is_nothing u = is_nothing v.
Proof. intros []; reflexivity. Qed.
Lemma same_as_text u v : same u v -> same (as_text opt u) (as_text opt v).
Proof. intros S. destruct S; cbn [as_text]; econstructor; eauto. Qed.
Lemma same_hash u v : same u v -> has_hash a_hash u = has_hash a_hash v.
Proof. intros S. destruct S; cbn [has_hash]; auto. apply Rok; auto. Qed.

Lemma slot_same' c sl sm p : same (VRec c sl) (VRec c sm) -> In p (props W c) -> p_extraneous p = false ->
  opt2 same (dict_get str_eqb sl (p_name p)) (dict_get str_eqb sm (p_name p)).
Proof. intros S. inversion S; subst; auto. Qed.

Lemma seen_rec c sl sm p : same (VRec c sl) (VRec c sm) -> In p (props W c) -> compared opt p ->
  opt2 same (seen p (VRec c sl)) (seen p (VRec c sm)).
Proof.
  intros S Ip Cp. destruct Cp as [Cp|Cp]; [congruence|]. destruct Rok as (_&R2&_).
  unfold DiffExact.seen. cbn [slot]. destruct (slot_same' _ _ _ _ S Ip Cp) as [|u v Suv]; [constructor|].
  rewrite <- (same_not_nothing _ _ Suv). destruct (is_nothing u); [constructor|].
  assert (X : same (match p_compare_as p with Some f => f (VRec c sl) u | None => u end)
                   (match p_compare_as p with Some f => f (VRec c sm) v | None => v end)).
  { destruct (p_compare_as p) as [f|] eqn:Ef; auto. eapply R2; eauto. }
  unfold present. rewrite <- (same_not_nothing _ _ X). destruct (is_nothing _); constructor. now apply same_as_text.
Qed.

Lemma rec_or_coll (a : val) c : class_of a = Some c -> (exists sl, a = VRec c sl) \/ collection a.
Proof. destruct a; cbn; intros [= ->]; eauto. Qed.

Lemma seen_same a b p : slots W opt a b p -> orderly W veqb a_hash opt record_id a -> orderly W veqb a_hash opt record_id b ->
  same a b -> opt2 same (seen p a) (seen p b).
Proof.
  intros (T & c & Ec & Ip & Cp) (Oa&_) (Ob&_) S. destruct (rec_or_coll _ _ Ec) as [[sl ->]|Ca].
  - destruct b; cbn in T; try tauto. subst. now apply seen_rec.
  - assert (Cb : collection b) by (destruct a, b; cbn in *; tauto).
    assert (Eb : class_of b = Some c) by (destruct a, b; cbn in *; try tauto; congruence).
    rewrite (Oa Ca c p Ec Ip Cp), (Ob Cb c p Eb Ip Cp). constructor.
Qed.

(** the items correspond, up to the order of dicts *)
Lemma number_same l m : Forall2 same l m -> Forall2 (fun x y : elem * val => fst x = fst y /\ same (snd x) (snd y)) (number l) (number m).
Proof.
  unfold number. intros F. assert (L : length l = length m) by (clear - F; induction F; cbn; congruence). rewrite <- L. clear L.
  assert (G : forall s, Forall2 (fun x y : elem * val => fst x = fst y /\ same (snd x) (snd y))
     (combine (map (fun n => EInt (Z.of_nat n)) (seq s (length l))) l) (combine (map (fun n => EInt (Z.of_nat n)) (seq s (length l))) m)).
  { clear - F. induction F as [|x y l m S F IH]; intros s; cbn; constructor; auto. }
  apply G.
Qed.

Lemma items_same a b : same_type a b -> same a b -> wfv W a -> wfv W b ->
  exists m, Permutation m (contents b) /\ Forall2 (fun x y => fst x = fst y /\ same (snd x) (snd y)) (contents a) m /\
    match a with VMap _ | VDC _ _ _ => True | _ => m = contents b end.
Proof.
  intros T S Wa Wb. destruct S; cbn [same_type] in T; try tauto; cbn [contents].
  - exists (number m). split; auto. split; auto. now apply number_same.
  - inversion Wa; inversion Wb; subst. destruct (align same l m) as (m' & P & F); auto. exists m'. auto.
  - exists []. repeat constructor.
  - exists (number m). split; auto. split; auto. now apply number_same.
  - inversion Wa; inversion Wb; subst. destruct (align same l m) as (m' & P & F); auto. exists m'. auto.
Qed.

Lemma type_class (a b : val) : same_type a b -> class_of a = class_of b.
Proof. destruct a, b; cbn; try tauto; congruence. Qed.

Lemma item_seen_same a b u v : same_type a b -> same u v -> same (item_seen W opt a u) (item_seen W opt b v).
Proof.
  intros T S. unfold item_seen. rewrite <- (type_class _ _ T). destruct (class_of a) as [c|]; [|now apply same_as_text].
  destruct (item_as W c) as [f|] eqn:Ef; [|now apply same_as_text].
  assert (X : same (f u) (f v)) by (destruct Rok as (_&_&R3&_); eauto).
  apply same_as_text. destruct S; auto; constructor.
Qed.
Lemma counts_as_seen a u : has_hash a_hash (item_seen W opt a u) = true -> counts_as W repr a_hash opt a u = item_seen W opt a u.
Proof. unfold counts_as. cbv zeta. fold (item_seen W opt a u). intros ->. reflexivity. Qed.

Lemma loose_counts a b : same_type a b -> loose W a -> same a b -> wfv W a -> wfv W b ->
  orderly W veqb a_hash opt record_id a -> forall k, count veqb k (counted a) = count veqb k (counted b).
Proof.
  intros T L S Wa Wb (_&Oa&_) k. destruct (items_same a b T S Wa Wb) as (m & P & F & _). specialize (Oa L).
  transitivity (count veqb k (map (fun kv => (fst kv, counts_as W repr a_hash opt b (snd kv))) m)).
  - clear P. apply (count_pos veqb (veq_equalities veqb vrefl vsym vtrans)). unfold DiffExact.counted.
    revert Oa F. generalize (contents a). intros l Oa F. induction F as [|[i u] [j v] l m0 [E1 E2] F IH]; constructor.
    + cbn [fst snd] in *. split; auto. cbn [fst snd].
      assert (Hu := Oa i u (or_introl eq_refl)). pose proof (item_seen_same a b u v T E2) as X.
      rewrite (counts_as_seen a u Hu), (counts_as_seen b v) by (rewrite <- (same_hash _ _ X); auto). apply Rok; auto.
    + apply IH. intros; eapply Oa; right; eauto.
  - apply count_perm. unfold DiffExact.counted. now apply Permutation_map.
Qed.

Variable near : pairing (A := A) (C := C).
Variable falsy : val -> bool.
Hypothesis Nok : fair W veqb opt record_id near falsy.

Lemma strict_ids a b m : (forall x y, In x (contents a) -> In y m -> fst x = fst y /\ same (snd x) (snd y) ->
    keqb veqb (identity record_id (snd x)) (identity record_id (snd y)) = true) ->
  Forall2 (fun x y => fst x = fst y /\ same (snd x) (snd y)) (contents a) m -> Permutation m (contents b) ->
  Forall2 (pos_rel (keqb veqb)) (identified a) (map (fun kv => (fst kv, identity record_id (snd kv))) m) /\
  forall k, count (keqb veqb) k (identified a) = count (keqb veqb) k (identified b).
Proof.
  intros Id F P.
  assert (X : Forall2 (pos_rel (keqb veqb)) (identified a) (map (fun kv => (fst kv, identity record_id (snd kv))) m)).
  { unfold DiffExact.identified. revert Id F. generalize (contents a). intros l Id F. clear P.
    induction F as [|[i u] [j v] l m [E1 E2] F IH]; constructor.
    - cbn [fst snd] in *. split; cbn [fst snd]; auto. apply (Id (i, u) (j, v)); cbn; auto.
    - apply IH. intros; apply Id; cbn; auto. }
  split; auto. intros k. rewrite (count_pos _ (key_equalities veqb vrefl vsym vtrans) _ _ X k).
  apply count_perm. unfold DiffExact.identified. now apply Permutation_map.
Qed.

Lemma at_here' v : at_path W opt v [] v. Proof. constructor. Qed.

Definition under (a : val) (P : val -> Prop) : Prop := forall q v, at_path W opt a q v -> P v.

Lemma no_change : forall fa fb a b t p q, change W veqb repr a_hash opt record_id near fa fb a b t p q ->
  same a b -> wfv W a -> wfv W b ->
  all_orderly W veqb a_hash opt record_id a -> all_orderly W veqb a_hash opt record_id b ->
  alike W aeqb same_item veqb opt record_id a b ->
  t = NoChange /\ o_unchanged_ opt = true \/ t = Moved /\ o_moved opt = true.
Proof.
  assert (Slot : forall a b p, slots W opt a b p -> same a b ->
    all_orderly W veqb a_hash opt record_id a -> all_orderly W veqb a_hash opt record_id b -> opt2 same (seen p a) (seen p b)).
  { intros a b p0 Sl S Oa Ob. apply seen_same; auto; [apply (Oa [])|apply (Ob [])]; apply at_here'. }
  assert (Match : forall t i j, matching opt t i j -> t = NoChange /\ o_unchanged_ opt = true \/ t = Moved /\ o_moved opt = true).
  { intros t0 i j [(->&H&_)|(->&H&_)]; auto. }
  assert (Ids : forall a b, same_type a b -> same a b -> wfv W a -> wfv W b -> strict W a ->
    all_orderly W veqb a_hash opt record_id a -> all_orderly W veqb a_hash opt record_id b ->
    alike W aeqb same_item veqb opt record_id a b ->
    (forall i, ~ surplus (keqb veqb) (identified a) (identified b) i) /\
    (forall i, ~ surplus (keqb veqb) (identified b) (identified a) i) /\
    (forall i j x y, paired (keqb veqb) (identified a) (identified b) i j ->
       In (i, x) (contents a) -> In (j, y) (contents b) -> same x y)).
  { intros a0 b0 T S Wa Wb St Oa Ob Al. pose proof (key_equalities veqb vrefl vsym vtrans) as KE.
    destruct (items_same a0 b0 T S Wa Wb) as (m & P & F & Lst).
    destruct (strict_ids a0 b0 m) as [Pos Cnt]; auto.
    { intros [i u] [j v] Iu Iv [_ Suv]. cbn [fst snd] in *.
      apply (Al [] [] a0 b0 i j u v); auto; try apply at_here'. eapply Permutation_in; eauto. }
    split; [apply none_left; auto|]. split; [apply none_left; auto|].
    assert (Look : forall i x y, In (i, x) (contents a0) -> In (i, y) (contents b0) -> same x y).
    { intros i x y Ix Iy. assert (Iy' : In (i, y) m) by (eapply Permutation_in; [symmetry; eauto|auto]).
      assert (Nm : NoDup (map fst m)).
      { eapply Permutation_NoDup; [symmetry; apply Permutation_map; eauto|]. eapply contents_nodup; eauto. }
      clear - F Ix Iy' Nm. induction F as [|[k u] [k' v] l m [E1 E2] F IH]; [destruct Ix|]. cbn [fst snd] in *. subst k'.
      inversion Nm as [|? ? N1 N2]; subst.
      assert (Ll : map fst l = map fst m).
      { clear - F. induction F as [|? ? ? ? [E1 _]]; cbn; congruence. }
      destruct Ix as [Ix|Ix], Iy' as [Iy|Iy].
      - congruence.
      - inversion Ix; subst. exfalso. apply N1. change i with (fst (i, y)). now apply in_map.
      - inversion Iy; subst. exfalso. apply N1. rewrite <- Ll. change i with (fst (i, x)). now apply in_map.
      - auto. }
    intros i j x y Pr Ix Iy.
    assert (Hij : i = j); [|subst; eauto].
    destruct St as (Cl & c & d & Ec & Ei).
    destruct a0 as [| | | | | | |ca sla la|ca sla la]; try destruct Cl.
    - subst m. eapply pos_paired; eauto.
    - destruct b0 as [| | | | | | |cb slb lb|cb slb lb]; cbn [same_type] in T; try tauto. subst cb.
      destruct Pr as (k & k' & l1 & l2 & m1 & m2 & Ea & Eb & Ek & _).
      assert (Ia : In (i, k) (identified (VDC ca sla la))) by (rewrite Ea; apply in_elt).
      assert (Ib : In (j, k') (identified (VDC ca slb lb))) by (rewrite Eb; apply in_elt).
      assert (Ib' : exists k'', In (i, k'') (identified (VDC ca slb lb)) /\ keqb veqb k k'' = true).
      { clear - Pos Ia P.
        assert (G : exists k'', In (i, k'') (map (fun kv => (fst kv, identity record_id (snd kv))) m) /\ keqb veqb k k'' = true).
        { revert Pos Ia. generalize (identified (VDC ca sla la)) as l, (map (fun kv => (fst kv, identity record_id (snd kv))) m) as r.
          intros l r Pos Ia. induction Pos as [|[e u] [e' v] l r [E1 E2] F IH]; [destruct Ia|]. cbn [fst snd] in *. subst e'. destruct Ia as [Ia|Ia].
          - inversion Ia; subst. exists v. split; auto. left; auto.
          - destruct (IH Ia) as (k'' & I1 & I2). exists k''. split; auto. right; auto. }
        destruct G as (k'' & I1 & I2). exists k''. split; auto. unfold DiffExact.identified.
        eapply Permutation_in; [apply Permutation_map; exact P|exact I1]. }
      destruct Ib' as (k'' & Ib' & Ek'). destruct KE as (_&E2&E3&_).
      apply (proj2 (proj2 (Ob [] _ (at_here' _)))) with k'' k'; auto.
      + split; [exact I|]. exists c, d. auto.
      + eauto. }
  assert (Sub1 : forall a k u, In (k, u) (contents a) -> all_orderly W veqb a_hash opt record_id a -> all_orderly W veqb a_hash opt record_id u).
  { intros a0 k u I O q0 v H. apply (O (k :: q0)). eapply at_item; eauto. }
  assert (Sub2 : forall a c p u, class_of a = Some c -> In p (props W c) -> seen p a = Some u ->
    all_orderly W veqb a_hash opt record_id a -> all_orderly W veqb a_hash opt record_id u).
  { intros a0 c p0 u Ec Ip Es O q0 v H. apply (O (EStr (p_name p0) :: q0)). eapply at_slot; eauto. }
  intros fa fb a b t p q Ch0. induction Ch0 as [fa fb a b p u Sl Ea Eb|fa fb a b p v Sl Ea Eb|fa fb a b p u v Sl Ea Eb Ty Ev|fa fb a b p u v Sl Ea Eb Ty Ev Un
    |fa fb a b p u v t q r Sl Ea Eb Ty Ch IH
    |fa fb a b i Ty Lo Su Ns|fa fb a b i Ty Lo Su Ns|fa fb a b i Ty Lo Su Ns|fa fb a b t i j Ty Lo Pr Ma
    |fa fb a b i Ty St Su Ne|fa fb a b i Ty St Su Ne|fa fb a b t i j Ty St Pr Ma|fa fb a b i j x y t q r Ty St Pr Ix Iy Ch IH
    |fa fb a b i j x y t q r Ty St Ne Ix Iy Ch IH|fa fb a b i j x y Ty St Ne Ix Iy Mo Ij]; intros S Wa Wb Oa Ob Al.
  - pose proof (Slot a b p Sl S Oa Ob) as X. rewrite Ea, Eb in X. inversion X.
  - pose proof (Slot a b p Sl S Oa Ob) as X. rewrite Ea, Eb in X. inversion X.
  - pose proof (Slot a b p Sl S Oa Ob) as X. rewrite Ea, Eb in X. inversion X as [|? ? Suv]; subst.
    destruct Rok as (R1&_). rewrite (R1 _ _ Suv) in Ev. discriminate.
  - auto.
  - pose proof (Slot a b p Sl S Oa Ob) as X. rewrite Ea, Eb in X. inversion X as [|? ? Suv]; subst.
    destruct Sl as (T & c & Ec & Ip & Cp). assert (Ec' : class_of b = Some c) by (rewrite <- (type_class _ _ T); auto).
    apply IH; auto; eauto using seen_wf.
    intros q1 q2 a1 b1 i1 j1 u1 v1 H1 H2. apply (Al (EStr (p_name p) :: q1) (EStr (p_name p) :: q2)); eapply at_slot; eauto.
  - exfalso. refine (none_left veqb (veq_equalities veqb vrefl vsym vtrans) _ _ _ i Su). apply loose_counts; auto. apply (Oa []), at_here'.
  - exfalso. refine (none_left veqb (veq_equalities veqb vrefl vsym vtrans) _ _ _ i Su). intros k. symmetry. apply loose_counts; auto. apply (Oa []), at_here'.
  - exfalso. refine (none_left veqb (veq_equalities veqb vrefl vsym vtrans) _ _ _ i Su). apply loose_counts; auto. apply (Oa []), at_here'.
  - eauto.
  - exfalso. destruct (Ids a b Ty S Wa Wb St Oa Ob Al) as (N1&N2&_). eapply N1; eauto.
  - exfalso. destruct (Ids a b Ty S Wa Wb St Oa Ob Al) as (N1&N2&_). eapply N2; eauto.
  - eauto.
  - destruct (Ids a b Ty S Wa Wb St Oa Ob Al) as (_&_&N3). apply IH; eauto using contents_wf.
    intros q1 q2 a1 b1 i1 j1 u1 v1 H1 H2. apply (Al (i :: q1) (j :: q2)); eapply at_item; eauto.
  - exfalso. destruct (Ids a b Ty S Wa Wb St Oa Ob Al) as (N1&N2&_).
    destruct (Nok fa fb a b Ty St Wa Wb) as (F1&_). destruct (F1 i j Ne) as (_&Su&_). eapply N1; eauto.
  - auto.
Qed.
End Eq.
