(** In a comparison with a list collection as the base, no entry about items begins with the name of a property. *)
From Coq Require Import String List Arith NArith ZArith Bool Lia Permutation.
From Verif Require Import Prelude SelPathModel FSModel PySeq MFSModel MFSProofs ValModel EqModel EqProofs SeqDiffModel SeqDiffProofs SeqDiffProps
  FuzzyModel FuzzyProps DiffModel DiffProofs DiffSwap DiffTotal DiffExact DiffEntries DiffOnce DuckSpec DuckProofs BlankProofs ItemsSpec ItemsProofs.
Import ListNotations.

Section Slots.
Context {A C : Type}.
Variable W : classes A C.
Variable ceqb : C -> C -> bool.
Notation val := (val A C).
Variable veqb : val -> val -> bool.
Variable hashable : val -> bool.
Variable repr : val -> str.
Variable a_hash a_falsy : A -> bool.
Variable a_items : A -> res (list (elem * val)).
Variable opt : options.
Variable record_id : rtype C -> option mfs -> val -> res val.
Variable ord : list elem -> list elem -> dorders (A := A) (C := C).
Hypothesis ord_ok : forall fa fb, orders_ok (ord fa fb).
Hypothesis unfiltered : o_filter opt = None.
Hypothesis flat : o_recurse opt = false.
Notation id_keys := (id_keys hashable opt record_id).
Notation item_keys := (item_keys W hashable repr a_hash opt).
Notation records_iter := (records_iter veqb hashable a_falsy a_items opt record_id ord).
Notation list_iter := (list_iter W veqb hashable repr a_hash a_items opt ord).
Notation collection_iter := (collection_iter W veqb hashable repr a_hash a_falsy a_items opt record_id ord).
Notation diff := (diff W ceqb veqb hashable repr a_hash a_falsy a_items opt record_id ord).

Definition position (k : elem) : Prop := exists z, k = EInt z.
Definition anywhere (k : elem) : Prop := True.
Notation keyed := (keyed position anywhere [] []).

Lemma ids_any d fa l : forall r, id_keys d None fa l = Ok r -> forall k, In k (map fst r) -> In k (map fst l).
Proof.
  induction l as [|[k v] l IH]; cbn [DiffModel.id_keys]; intros r H k0 I; [injection H as <-; destruct I|].
  apply bind_ok in H as (i & Hi & H). destruct (_ && _); [right; eapply IH; eauto|].
  destruct (negb _); [discriminate|]. destruct (key_of i); [discriminate|]. apply bind_ok in H as (r' & Hr & H). injection H as <-.
  destruct I as [<-|I]; [now left|right; eapply IH; eauto].
Qed.
Lemma keys_any coll l : forall r, item_keys coll l = Ok r -> forall k, In k (map fst r) -> In k (map fst l).
Proof.
  induction l as [|[k v] l IH]; cbn [DiffModel.item_keys]; intros r H k0 I; [injection H as <-; destruct I|].
  apply bind_ok in H as (i & Hi & H). apply bind_ok in H as (r' & Hr & H). injection H as <-. destruct i; [|right; eapply IH; eauto].
  destruct I as [<-|I]; [now left|right; eapply IH; eauto].
Qed.
Lemma numbered (l : list val) k : In k (map fst (number l)) -> position k.
Proof.
  unfold number. intros I. apply in_map_iff in I as ([k' v] & <- & I). apply in_combine_l in I. apply in_map_iff in I as (z & <- & _). eexists. reflexivity.
Qed.
Lemma lookup_any {K I} (keqb : K -> K -> bool) x (l : list (I * K)) i : lookup keqb x (tag keqb [] l) = Some i -> In i (map fst l).
Proof.
  intros H. apply lookup_in in H as ([k n] & I0 & _).
  assert (G : forall (l : list (I * K)) seen k n i, In ((k, n), i) (tag keqb seen l) -> In i (map fst l)).
  { clear. induction l as [|[j v] l IH]; cbn [tag map fst]; intros seen k n i I0; [destruct I0|]. destruct I0 as [E|I0]; [injection E as _ _ <-; now left|right; eapply IH; eauto]. }
  eapply G; eauto.
Qed.
Lemma seq_positions o un mv (ka kb : list (elem * val)) : (forall k, In k (map fst ka) -> position k) -> set_orders o ->
  forall t i j, In (t, i, j) (seq_diff veqb elem_eqb o un mv ka kb) -> forall k, i = Some k -> position k.
Proof.
  intros Hk Oo t i j H k ->. unfold seq_diff in H. cbv zeta in H. rewrite !in_app_iff in H.
  assert (P : forall xs k, In k (positions veqb xs (tag veqb [] ka)) -> position k).
  { intros xs k0 I0. apply positions_in in I0 as (x & _ & L). eapply Hk, lookup_any, L. }
  destruct H as [H|[H|[H|H]]].
  - destruct (un || mv); [|destruct H]. apply in_flat_map in H as (x & _ & H). destruct (lookup veqb x (tag veqb [] ka)) as [i0|] eqn:L; [|destruct H].
    apply lookup_any in L. destruct (lookup veqb x (tag veqb [] kb)); [|destruct H].
    destruct (mv && _); [|destruct un]; (destruct H as [E|[]] || destruct H). all: injection E as _ <- _; auto.
  - apply in_flat_map in H as (x & Ix & H). destruct (imem _ _ _); [destruct H|]. destruct H as [E|[]]. injection E as _ <- _. eauto.
  - apply in_flat_map in H as (x & Ix & H). destruct (imem _ _ _); [destruct H|]. destruct H as [E|[]]. discriminate E.
  - apply in_map_iff in H as (x & E & Ix). injection E as _ <- _. destruct Oo as (_ & _ & _ & Om). apply (Permutation_in _ (Om _)) in Ix. apply filter_In in Ix as [Ix _]. eauto.
Qed.
Lemma list_keyed_pos c sl l b r : list_iter (VLC c sl l) b [] [] = Ok r -> keyed r.
Proof.
  unfold DiffModel.list_iter. cbn [generator bind]. intros H. apply bind_ok in H as (ka & Ka & H). apply bind_ok in H as (gb & Gb & H). apply bind_ok in H as (kb & Kb & H).
  injection H as <-. intros t p q I. apply in_map_iff in I as ([[t' i] j] & E & I). cbn [fst snd] in E. injection E as <- <- <-.
  assert (P : forall k, In k (map fst ka) -> position k) by (intros k Ik; eapply numbered, keys_any; eauto).
  pose proof (seq_positions _ _ _ ka kb P (proj1 (ord_ok [] [])) _ _ _ I) as X.
  split; [destruct i as [k|]; cbn [place app]; [exists [k]; split; [reflexivity|]; cbn; eauto|exists []; split; [reflexivity|exact Logic.I]]|].
  destruct j as [k|]; cbn [place app]; [exists [k]|exists []]; split; try reflexivity; exact Logic.I.
Qed.
Lemma records_keyed_pos n d c sl l b r : records_iter (diff n) d (VLC c sl l) b [] [] = Ok r -> keyed r.
Proof.
  unfold DiffModel.records_iter, id_selector. rewrite unfiltered, flat. cbn [generator bind is_nothing orb]. intros H.
  apply bind_ok in H as (ia & Ia & H). apply bind_ok in H as (gb & Gb & H). apply bind_ok in H as (ib & Ib & H). cbv zeta in H.
  pose proof (diff_under W ceqb veqb hashable repr a_hash a_falsy a_items opt record_id ord n) as IH.
  assert (Xa : forall x k, key_at veqb (tag (keqb veqb) [] ia) x = Ok k -> position k).
  { intros x k K. apply key_at_in in K. eapply numbered, ids_any; eauto. }
  assert (T : forall k, anywhere k) by (intros; exact Logic.I).
  apply bind_ok in H as (l1 & H1 & H). apply bind_ok in H as (l2 & H2 & H). apply bind_ok in H as (l3 & H3 & H). apply bind_ok in H as (l4 & H4 & H). apply bind_ok in H as (l5 & H5 & H).
  injection H as <-. repeat apply keyed_app.
  - destruct (is_nothing b); revert H1; apply keyed_concat; intros x u _ H.
    + apply bind_ok in H as (k & Hk & H). apply bind_ok in H as (y & _ & H). eapply (keyed_under _ _ [] [] k k); [eapply Xa, Hk|apply T|eapply IH, H].
    + apply bind_ok in H as (k & Hk & H). apply bind_ok in H as (y & _ & H). apply bind_ok in H as (j & Hj & H). apply bind_ok in H as (z & _ & H).
      eapply (keyed_under _ _ [] [] k j); [eapply Xa, Hk|apply T|eapply IH, H].
  - revert H2. apply keyed_concat. intros x u _ H. apply bind_ok in H as (k & Hk & H). apply bind_ok in H as (y & _ & H). apply bind_ok in H as (j & Hj & H). apply bind_ok in H as (z & _ & H).
    apply bind_ok in H as (m & Hm & H). injection H as <-. apply Xa in Hk. apply keyed_app; [eapply (keyed_under _ _ [] [] k j); [exact Hk|apply T|eapply IH, Hm]|].
    apply keyed_if; [apply (keyed_one _ _ [] []); auto|apply keyed_if; [apply (keyed_one _ _ [] []); auto|apply keyed_nil]].
  - destruct (o_unchanged_ opt || o_moved opt); [|injection H3 as <-; apply keyed_nil]. revert H3. apply keyed_concat. intros x u _ H.
    apply bind_ok in H as (k & Hk & H). apply bind_ok in H as (j & Hj & H). apply Xa in Hk. injection H as <-.
    apply keyed_if; [apply (keyed_one _ _ [] []); auto|apply keyed_if; [apply (keyed_one _ _ [] []); auto|apply keyed_nil]].
  - destruct (is_nothing b); [injection H4 as <-; apply keyed_nil|]. revert H4. apply keyed_concat. intros x u _ H. apply bind_ok in H as (k & Hk & H). injection H as <-. apply (keyed_l _ _ [] []). eapply Xa, Hk.
  - destruct (is_nothing b); [injection H5 as <-; apply keyed_nil|]. revert H5. apply keyed_concat. intros x u _ H. apply bind_ok in H as (k & Hk & H). injection H as <-. apply (keyed_r _ _ [] []). apply T.
Qed.
Lemma items_no_slot n c sl l b r p : collection_iter (diff n) (VLC c sl l) b [] [] = Ok r -> of_slot (A := A) (C := C) p r = [].
Proof.
  unfold DiffModel.collection_iter. cbn [is_nothing class_of]. intros H.
  assert (K : keyed r) by (destruct (ValModel.item W c); first [discriminate H|exact (list_keyed_pos _ _ _ _ _ H)|exact (records_keyed_pos _ _ _ _ _ _ _ H)]).
  unfold of_slot. clear H. induction r as [|[[t x] y] r IH]; cbn [filter fst snd]; [reflexivity|].
  destruct (K t x y (or_introl eq_refl)) as [(p' & -> & Kp) _]. rewrite IH by (intros t' x' y' I; apply (K t' x' y'); now right).
  cbn [app]. destruct p' as [|e p']; [reflexivity|]. destruct Kp as [z ->]. reflexivity.
Qed.
Lemma slot_part n c sl l b r p : diff (S n) (VLC c sl l) b [] [] = Ok r ->
  exists r', record_iter W ceqb veqb opt (diff n) (VLC c sl l) b [] [] = Ok r' /\ of_slot (A := A) (C := C) p r = of_slot p r'.
Proof.
  cbn [DiffModel.diff]. unfold DiffModel.dispatch. cbn [is_nothing]. intros H. apply bind_ok in H as (l1 & H1 & H). apply bind_ok in H as (l2 & H2 & H). injection H as <-.
  exists l2. split; [exact H2|]. unfold of_slot at 1. rewrite filter_app. change (filter _ l1) with (of_slot p l1). now rewrite (items_no_slot n c sl l b l1 p H1).
Qed.
End Slots.
