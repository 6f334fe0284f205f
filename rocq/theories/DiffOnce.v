(** Reported paths exist and none is reported twice. *)
From Coq Require Import List Arith NArith ZArith Bool Lia Permutation.
From Verif Require Import Prelude SelPathModel FSModel PySeq MFSModel ValModel EqModel EqProofs SeqDiffModel SeqDiffProofs
  SeqDiffProps FuzzyModel FuzzyProps FuzzyFlip MFSProofs DiffModel DiffProofs DiffSwap DiffTotal DiffExact DiffEntries.
Import ListNotations.

(** ** Paths exist *)
Section Paths.
Context {A C : Type}.
Variable W : classes A C.
Notation val := (val A C).
Notation prop := (prop A C).
Variable veqb : val -> val -> bool.
Variable repr : val -> str.
Variable a_hash : A -> bool.
Variable opt : options.
Variable record_id : rtype C -> option mfs -> val -> res val.
Variable near : pairing (A := A) (C := C).
Notation change := (change W veqb repr a_hash opt record_id near).
Notation seen := (seen (A := A) (C := C) opt).
Notation at_path := (at_path W opt).
Notation counted := (counted W repr a_hash opt).
Notation identified := (identified record_id).

(** Something at the path [q] of [a] is missing from [b]: the last step of [q] leads from a
    place where [b] has a value of the same type to either a slot, which [b] has not at [r],
    or an item, while [r] is the place of the list. *)
Definition missing (a b : val) (q r : list elem) : Prop :=
  exists q0 r0 k x y, q = q0 ++ [k] /\ at_path a q0 x /\ at_path b r0 y /\ same_type x y /\
    ((r = r0 ++ [k] /\ exists p u, k = EStr (p_name p) /\ seen p x = Some u /\ seen p y = None) \/
     (r = r0 /\ exists u, In (k, u) (contents x))).

Lemma missing_under a b i j x y q r : (forall q' w, at_path x q' w -> at_path a (i :: q') w) ->
  (forall r' w, at_path y r' w -> at_path b (j :: r') w) -> missing x y q r -> missing a b (i :: q) (j :: r).
Proof.
  intros Ha Hb (q0&r0&k&u&v&->&Au&Av&T&H). exists (i :: q0), (j :: r0), k, u, v. repeat split; auto.
  destruct H as [(->&H)|(->&H)]; [left|right]; split; auto.
Qed.

Lemma in_counted (v : val) i l1 k l2 : counted v = l1 ++ (i, k) :: l2 -> exists u, In (i, u) (contents v).
Proof.
  intros H. assert (I : In (i, k) (counted v)) by (rewrite H; apply in_or_app; right; now left).
  unfold DiffExact.counted in I. apply in_map_iff in I as ([i' u]&E&I). inversion E; subst. eauto.
Qed.
Lemma in_identified (v : val) i l1 k l2 : identified v = l1 ++ (i, k) :: l2 -> exists u, In (i, u) (contents v).
Proof.
  intros H. assert (I : In (i, k) (identified v)) by (rewrite H; apply in_or_app; right; now left).
  unfold DiffExact.identified in I. apply in_map_iff in I as ([i' u]&E&I). inversion E; subst. eauto.
Qed.
Lemma surplus_counted a b i : surplus veqb (counted a) (counted b) i -> exists u, In (i, u) (contents a).
Proof. intros (k&l1&l2&H&_). eapply in_counted; eauto. Qed.
Lemma surplus_identified a b i : surplus (keqb veqb) (identified a) (identified b) i -> exists u, In (i, u) (contents a).
Proof. intros (k&l1&l2&H&_). eapply in_identified; eauto. Qed.
Lemma paired_counted a b i j : paired veqb (counted a) (counted b) i j -> (exists u, In (i, u) (contents a)) /\ exists v, In (j, v) (contents b).
Proof. intros (k&k'&l1&l2&m1&m2&H1&H2&_). split; eapply in_counted; eauto. Qed.
Lemma paired_identified a b i j : paired (keqb veqb) (identified a) (identified b) i j -> (exists u, In (i, u) (contents a)) /\ exists v, In (j, v) (contents b).
Proof. intros (k&k'&l1&l2&m1&m2&H1&H2&_). split; eapply in_identified; eauto. Qed.

Lemma same_type_sym (a b : val) : same_type a b -> same_type b a.
Proof. destruct a, b; cbn; auto. Qed.
Lemma same_class (a b : val) c : same_type a b -> class_of a = Some c -> class_of b = Some c.
Proof. destruct a, b; cbn; intros; subst; auto; try contradiction; discriminate. Qed.

Definition located (a b : val) (t : dtype) (q r : list elem) : Prop :=
  match t with
  | Removed => missing a b q r
  | Added => missing b a r q
  | Modified | Moved | NoChange => (exists u, at_path a q u) /\ exists v, at_path b r v
  end.

Lemma change_located fa fb a b t q r : change fa fb a b t q r -> located a b t q r.
Proof.
  assert (Under : forall a b i j x y t q r, (forall q' w, at_path x q' w -> at_path a (i :: q') w) ->
    (forall r' w, at_path y r' w -> at_path b (j :: r') w) -> located x y t q r -> located a b t (i :: q) (j :: r)).
  { intros a0 b0 i j x y t0 q0 r0 Ha Hb. destruct t0; cbn [located]; try (eapply missing_under; eauto; fail);
      intros [(u&Hu) (v&Hv)]; split; eauto. }
  assert (Here : forall v k u, In (k, u) (contents v) -> exists w, at_path v [k] w).
  { intros v k u I. exists u. eapply at_item; eauto. constructor. }
  induction 1 as [fa fb a b p u Sl Ea Eb|fa fb a b p v Sl Ea Eb|fa fb a b p u v Sl Ea Eb Nu Ev|fa fb a b p u v Sl Ea Eb Nu Ev Eu
      |fa fb a b p u v t q r Sl Ea Eb Tu Ch IH|fa fb a b i T L S N|fa fb a b i T L S N|fa fb a b i T L S N|fa fb a b t i j T L S N
      |fa fb a b i T L S N|fa fb a b i T L S N|fa fb a b t i j T L S N|fa fb a b i j x y t q r T L S Ix Iy Ch IH
      |fa fb a b i j x y t q r T L S Ix Iy Ch IH|fa fb a b i j x y T L S Ix Iy M N]; cbn [located].
  - destruct Sl as (T&_). exists [], [], (EStr (p_name p)), a, b. split; [reflexivity|split; [constructor|split; [constructor|split; [auto using same_type_sym|]]]]. left. split; auto. eauto.
  - destruct Sl as (T&_). exists [], [], (EStr (p_name p)), b, a. split; [reflexivity|split; [constructor|split; [constructor|split; [auto using same_type_sym|]]]]. left. split; auto. eauto.
  - destruct Sl as (T&c&Ec&Ip&_). split; [exists u|exists v]; eapply at_slot; eauto using same_class; constructor.
  - destruct Sl as (T&c&Ec&Ip&_). split; [exists u|exists v]; eapply at_slot; eauto using same_class; constructor.
  - destruct Sl as (T&c&Ec&Ip&_). eapply Under; [| |exact IH]; intros q' w Hw; eapply at_slot; eauto using same_class.
  - exists [], [], i, a, b. split; [reflexivity|split; [constructor|split; [constructor|split; [auto using same_type_sym|]]]]. right. split; auto. eapply surplus_counted; eauto.
  - exists [], [], i, b, a. split; [reflexivity|split; [constructor|split; [constructor|split; [auto using same_type_sym|]]]]. right. split; auto. eapply surplus_counted; eauto.
  - destruct (surplus_counted _ _ _ S) as [u Hu], (surplus_counted _ _ _ N) as [v Hv]. split; eauto.
  - destruct (paired_counted _ _ _ _ S) as [[u Hu] [v Hv]]. destruct N as [(->&_)|(->&_)]; split; eauto.
  - exists [], [], i, a, b. split; [reflexivity|split; [constructor|split; [constructor|split; [auto using same_type_sym|]]]]. right. split; auto. eapply surplus_identified; eauto.
  - exists [], [], i, b, a. split; [reflexivity|split; [constructor|split; [constructor|split; [auto using same_type_sym|]]]]. right. split; auto. eapply surplus_identified; eauto.
  - destruct (paired_identified _ _ _ _ S) as [[u Hu] [v Hv]]. destruct N as [(->&_)|(->&_)]; split; eauto.
  - eapply Under; [| |exact IH]; intros q' w Hw; eapply at_item; eauto.
  - eapply Under; [| |exact IH]; intros q' w Hw; eapply at_item; eauto.
  - split; eauto.
Qed.

Lemma change_nonempty fa fb a b t q r : change fa fb a b t q r -> q = [] -> r = [] -> False.
Proof. intros H. destruct H; discriminate. Qed.
End Paths.

(** ** No path twice *)
Definition paths (e : dentry) : list elem * list elem := (snd (fst e), snd e).

Lemma nodup_app {X} (l m : list X) : NoDup l -> NoDup m -> (forall x, In x l -> In x m -> False) -> NoDup (l ++ m).
Proof.
  induction 1 as [|x l Hx D IH]; intros Dm F; cbn [app]; auto. constructor.
  - intros H. apply in_app_or in H as [H|H]; auto. apply (F x); auto. now left.
  - apply IH; auto. intros y Hy. apply F. now right.
Qed.

Lemma concatM_nodup {X} (f : X -> res (list dentry)) xs : forall l, concatM f xs = Ok l -> NoDup xs ->
  (forall x u, In x xs -> f x = Ok u -> NoDup (map paths u)) ->
  (forall x y u v e e', In x xs -> In y xs -> f x = Ok u -> f y = Ok v -> In e u -> In e' v -> paths e = paths e' -> x = y) ->
  NoDup (map paths l).
Proof.
  induction xs as [|x xs IH]; cbn [concatM]; intros l H D F G.
  - inversion H. constructor.
  - apply bind_ok in H as (u&Hu&H). apply bind_ok in H as (v&Hv&H). inversion H; subst. inversion_clear D as [|? ? D1 D2].
    rewrite map_app. apply nodup_app.
    + apply (F x); auto using in_eq.
    + apply (IH v); auto.
      * intros y w I. apply F. now right.
      * intros y z w w' e e' I J. apply G; now right.
    + intros pp I J. apply in_map_iff in I as (e&<-&I), J as (e'&E&J).
      destruct (concatM_in f xs v Hv e' J) as (y&w&Iy&Hw&Ie). apply D1.
      rewrite (G x y u w e e'); auto; [now left|now right].
Qed.

Section Once.
Context {K I : Type}.
Variable keqb : K -> K -> bool.
Variable ieqb : I -> I -> bool.
Hypothesis E : equalities keqb ieqb.
Lemma paired_not_surplus (a b : list (I * K)) i j : NoDup (map fst a) -> paired keqb a b i j -> ~ surplus keqb a b i.
Proof.
  destruct E as (E1&E2&E3&_). intros Da (k&k'&l1&l2&m1&m2&Ea&Eb&Ek&Ec) (k2&n1&n2&Ea2&c).
  destruct (position_unique a l1 l2 n1 n2 i k k2 Da Ea Ea2) as (->&->&->).
  rewrite Eb, (count_app keqb), (count_cons keqb), Ek in c. lia.
Qed.
Lemma seq_diff_once o un mv a b : set_orders o -> NoDup (map fst a) -> NoDup (map fst b) ->
  NoDup (map (fun e => (snd (fst e), snd e)) (seq_diff keqb ieqb o un mv a b)).
Proof.
  intros Ho Da Db. pose proof (nodup keqb ieqb E o Ho a b Da Db un mv) as D.
  pose proof (exact keqb ieqb E o Ho a b un mv) as X.
  assert (U : forall e e', In e (seq_diff keqb ieqb o un mv a b) -> In e' (seq_diff keqb ieqb o un mv a b) ->
     (snd (fst e), snd e) = (snd (fst e'), snd e') -> e = e').
  { intros [[t i] j] [[t' i'] j'] He He' H. cbn in H. inversion H; subst. apply X in He, He'.
    assert (P := paired_not_surplus a b).
    destruct i' as [i|], j' as [j|]; destruct t, t'; try tauto;
      repeat match goal with H : _ /\ _ |- _ => destruct H end; subst; try congruence; exfalso; try tauto;
      eapply P; eauto. }
  clear X. revert D U. generalize (seq_diff keqb ieqb o un mv a b). induction 1 as [|e l Hx D IH]; intros U; cbn [map]; constructor.
  - intros H. apply in_map_iff in H as (e'&H&I'). apply Hx. rewrite (U e e'); auto; [now left|now right].
  - apply IH. intros x y Hx' Hy. apply U; now right.
Qed.
End Once.

Section NoTwice.
Context {A C : Type}.
Variable W : classes A C.
Variable ceqb : C -> C -> bool.
Notation val := (val A C).
Notation prop := (prop A C).
Variable veqb : val -> val -> bool.
Variable hashable : val -> bool.
Variable repr : val -> str.
Variable a_hash a_falsy : A -> bool.
Variable a_items : A -> res (list (elem * val)).
Variable opt : options.
Variable record_id : rtype C -> option mfs -> val -> res val.
Variable ord : list elem -> list elem -> dorders (A := A) (C := C).

Hypothesis ord_ok : forall fa fb, orders_ok (ord fa fb).
Hypothesis vrefl : forall v, veqb v v = true.
Hypothesis vsym : forall u v, veqb u v = true -> veqb v u = true.
Hypothesis vtrans : forall u v w, veqb u v = true -> veqb v w = true -> veqb u w = true.
Hypothesis ceq : forall c d, ceqb c d = true <-> c = d.
Hypothesis keeps : keeps_wf W.
Hypothesis defaults : default_options opt.
Hypothesis few : o_fuzzy opt = true -> o_unchanged_ opt = false.
Hypothesis truth_ok : o_fuzzy opt = true -> forall u v, veqb u v = true -> v_falsy a_falsy u = v_falsy a_falsy v.
(** the properties of a class have different names *)
Hypothesis names : forall c, NoDup (map (fun p => p_name p) (props W c)).

Notation near := (near veqb a_falsy opt record_id ord).
Notation change := (change W veqb repr a_hash opt record_id near).
Notation seen := (seen (A := A) (C := C) opt).
Notation at_path := (at_path W opt).
Notation counted := (counted W repr a_hash opt).
Notation identity := (identity record_id).
Notation identified := (identified record_id).
Notation diff := (diff W ceqb veqb hashable repr a_hash a_falsy a_items opt record_id ord).
Notation dispatch := (dispatch W ceqb veqb hashable repr a_hash a_falsy a_items opt record_id ord).
Notation records_iter := (records_iter veqb hashable a_falsy a_items opt record_id ord).
Notation list_iter := (list_iter W veqb hashable repr a_hash a_items opt ord).
Notation collection_iter := (collection_iter W veqb hashable repr a_hash a_falsy a_items opt record_id ord).
Notation record_iter := (record_iter W ceqb veqb opt).
Notation slot_diff := (slot_diff ceqb veqb opt).
Notation wfv := (wfv W).

(** No key of a DictCollection is the name of one of its properties. *)
Definition unmixed (v : val) : Prop := forall q c sl l k u p,
  at_path v q (VDC c sl l) -> In (k, u) l -> In p (props W c) -> k <> EStr (p_name p).

Lemma unmixed_slot v c p u : class_of v = Some c -> In p (props W c) -> seen p v = Some u -> unmixed v -> unmixed u.
Proof. intros Ec Ip Ev U q c' sl l k w p' H. apply (U (EStr (p_name p) :: q) c' sl l k w p'). eapply at_slot; eauto. Qed.
Lemma unmixed_item v k u : In (k, u) (contents v) -> unmixed v -> unmixed u.
Proof. intros Ik U q c' sl l k' w p' H. apply (U (k :: q) c' sl l k' w p'). eapply at_item; eauto. Qed.

Lemma place_inj fs i j : place fs i = place fs j -> i = j.
Proof.
  destruct i as [i|], j as [j|]; cbn [place]; intros H; auto.
  - apply app_inv_head in H. now inversion H.
  - exfalso. apply (f_equal (@length _)) in H. rewrite app_length in H. cbn in H. lia.
  - exfalso. apply (f_equal (@length _)) in H. rewrite app_length in H. cbn in H. lia.
Qed.

Lemma list_once a b fa fb l : same_type a b -> loose W a -> wfv a -> wfv b -> list_iter a b fa fb = Ok l -> NoDup (map paths l).
Proof.
  intros T P Wa Wb. destruct defaults as (De&Di&Dd&Df&Dr).
  assert (P' : plain a \/ collection a) by (destruct P as [P|[P _]]; auto).
  assert (Q : plain b \/ collection b) by (destruct a, b; try (destruct T; fail); tauto).
  unfold DiffModel.list_iter. rewrite Dd. intros H.
  apply bind_ok in H as (ga&Ga&H). apply bind_ok in H as (ka&Ka&H).
  apply bind_ok in H as (gb&Gb&H). apply bind_ok in H as (kb&Kb&H).
  apply gen_contents in Ga; auto. apply gen_contents in Gb; auto. subst ga gb.
  apply (counted_keys W hashable repr a_hash opt defaults) in Ka, Kb. fold (counted a) in Ka. fold (counted b) in Kb. subst ka kb.
  assert (Da : NoDup (map fst (counted a))) by (unfold DiffExact.counted; rewrite map_fst_map; now apply (contents_nodup W)).
  assert (Db : NoDup (map fst (counted b))) by (unfold DiffExact.counted; rewrite map_fst_map; now apply (contents_nodup W)).
  pose proof (seq_diff_once veqb elem_eqb (veq_equalities veqb vrefl vsym vtrans) (so_seq (ord fa fb)) (o_unchanged_ opt) (o_moved opt)
    (counted a) (counted b) (proj1 (ord_ok fa fb)) Da Db) as X.
  inversion H as [H']. clear H. rewrite map_map.
  erewrite map_ext; [rewrite <- (map_map (fun e : dtype * option elem * option elem => (snd (fst e), snd e)) (fun ij => (place fa (fst ij), place fb (snd ij))))|].
  2: { intros [[ty i] j]. reflexivity. }
  apply FinFun.Injective_map_NoDup; auto.
  intros [i j] [i' j'] Hp. cbn in Hp. inversion Hp. f_equal; eapply place_inj; eauto.
Qed.

Section Step.
Variable rec : val -> val -> list elem -> list elem -> res (list dentry).
Hypothesis IH : forall a b fa fb l, same_type a b \/ (class_of a <> None /\ class_of b <> None) -> wfv a -> wfv b ->
  rec a b fa fb = Ok l -> same_type a b /\ exactly fa fb (change fa fb a b) l.
Hypothesis IHn : forall a b fa fb l, same_type a b \/ (class_of a <> None /\ class_of b <> None) -> wfv a -> wfv b -> unmixed a ->
  rec a b fa fb = Ok l -> NoDup (map paths l).

Notation slot_change := (slot_change W veqb repr a_hash a_falsy opt record_id ord).
Lemma slot_shape fa fb a b p t q r : slot_change fa fb a b p t q r -> exists q' r', q = EStr (p_name p) :: q' /\ r = EStr (p_name p) :: r'.
Proof.
  unfold DiffEntries.slot_change. intros [_ H]. destruct (seen p a), (seen p b).
  - destruct H as [(_&q'&r'&->&->&_)|(_&->&->&_)]; eauto.
  - destruct H as (_&->&->). eauto.
  - destruct H as (_&->&->). eauto.
  - destruct H.
Qed.

Lemma slot_once c a b fa fb p l : class_of a = Some c -> In p (props W c) -> wfv a -> wfv b -> unmixed a ->
  slot_diff rec a b fa fb p = Ok l -> NoDup (map paths l).
Proof.
  intros Ec Ip Wa Wb Ua. destruct defaults as (De&Di&Dd&Df&Dr).
  assert (One : forall e : dentry, NoDup (map paths [e])) by (intros e; cbn; repeat constructor; auto).
  unfold DiffModel.slot_diff. destruct (is_filtered _ _ _); [intros H; inversion H; constructor|].
  pose proof (slot_seen opt defaults p a) as Sa. pose proof (slot_seen opt defaults p b) as Sb.
  destruct (seen p a) as [u|] eqn:Ea; [destruct Sa as [Sa Na]|]; (destruct (seen p b) as [v|] eqn:Eb; [destruct Sb as [Sb Nb]|]);
    rewrite Sa, Sb; rewrite ?De, ?Dd; cbn [is_nothing]; rewrite ?Na, ?Nb; cbn [xorb andb orb negb].
  - assert (Wu : wfv u) by exact (seen_wf W opt keeps p c a u Ip Wa Ea). assert (Wv : wfv v) by exact (seen_wf W opt keeps p c b v Ip Wb Eb).
    destruct (types_match ceqb u v) eqn:T; cbn [orb].
    + apply (same_type_iff ceqb ceq) in T. rewrite (comparable_type u v T). cbn [orb andb]. intros H.
      apply bind_ok in H as (m&Hm&H). assert (m = l) as -> by congruence. eapply IHn; [| | | |exact Hm]; auto. eapply unmixed_slot; eauto.
    + rewrite andb_false_r. destruct (negb _); [|destruct (o_unchanged_ opt)]; intros H; inversion H; auto; constructor.
  - rewrite orb_false_r. replace (types_match ceqb u VNothing) with false by now destruct u. rewrite andb_false_r. intros H.
    assert (l = [(Removed, fa ++ [EStr (p_name p)], fb ++ [EStr (p_name p)])]) as -> by congruence. auto.
  - replace (types_match ceqb VNothing v) with false by now destruct v. rewrite andb_false_r. intros H.
    assert (l = [(Added, fa ++ [EStr (p_name p)], fb ++ [EStr (p_name p)])]) as -> by congruence. auto.
  - intros H. inversion H. constructor.
Qed.

Lemma insert_prop_perm (p : prop) l : Permutation (insert_prop p l) (p :: l).
Proof.
  induction l as [|q t IHl]; cbn [insert_prop]; auto. destruct (str_ltb _ _); auto.
  rewrite IHl. apply perm_swap.
Qed.
Lemma all_properties_perm c : Permutation (all_properties W c) (props W c).
Proof.
  unfold all_properties.
  assert (G : forall l acc : list prop, Permutation (fold_left (fun acc p => insert_prop p acc) l acc) (l ++ acc)).
  { induction l as [|x t IHl]; intros acc; cbn [fold_left app]; auto. rewrite IHl, insert_prop_perm. symmetry. apply Permutation_middle. }
  rewrite G, app_nil_r. reflexivity.
Qed.

Lemma names_inj c p p' : In p (props W c) -> In p' (props W c) -> p_name p = p_name p' -> p = p'.
Proof.
  intros I1 I2 E. specialize (names c). induction (props W c) as [|x l IHl]; [destruct I1|].
  cbn [map] in names. inversion_clear names as [|? ? N1 N2]. destruct I1 as [->|I1], I2 as [->|I2]; auto.
  - destruct N1. rewrite E. apply in_map_iff. eauto.
  - destruct N1. rewrite <- E. apply in_map_iff. eauto.
Qed.

Lemma record_once c a b fa fb l : class_of a = Some c -> wfv a -> wfv b -> unmixed a -> record_iter rec a b fa fb = Ok l ->
  is_nothing b = false -> NoDup (map paths l).
Proof.
  intros Ec Wa Wb Ua H Nb. destruct defaults as (De&Di&Dd&Df&Dr). revert H.
  assert (Na : is_nothing a = false) by (destruct a; auto; discriminate).
  unfold DiffModel.record_iter. rewrite Dd, Na, Nb, Ec. cbn [negb andb orb].
  destruct (types_match ceqb a b) eqn:T; [|discriminate]. apply (same_type_iff ceqb ceq) in T. cbn [negb andb]. intros H.
  eapply concatM_nodup; [exact H| | |].
  - eapply Permutation_NoDup; [apply Permutation_sym, all_properties_perm|]. eapply NoDup_map_inv, names.
  - intros p u Ip Hu. apply all_properties_in in Ip. eapply slot_once; eauto.
  - intros p p' u v e e' Ip Ip' Hu Hv He He' E. apply all_properties_in in Ip, Ip'.
    apply (slot_entries W ceqb veqb hashable repr a_hash a_falsy opt record_id ord ceq keeps defaults few rec IH c) in Hu, Hv; auto.
    apply Hu in He as (t&q&r&->&S). apply Hv in He' as (t'&q'&r'&->&S').
    apply slot_shape in S as (q1&r1&->&->), S' as (q2&r2&->&->). cbn in E. inversion E as [[E1 E2]].
    apply app_inv_head in E1. inversion E1. eapply names_inj; eauto.
Qed.

Lemma records_once c d a b fa fb l : same_type a b -> collection a -> class_of a = Some c -> ValModel.item W c = IRec d ->
  wfv a -> wfv b -> unmixed a -> records_iter rec d a b fa fb = Ok l -> NoDup (map paths l).
Proof.
  intros T Ca Ec Ei Wa Wb Ua. destruct defaults as (De&Di&Dd&Df&Dr).
  assert (Cb : collection b) by (destruct a, b; try (destruct T; fail); try (destruct Ca; fail); exact I).
  assert (Ecb : class_of b = Some c) by (destruct a, b; try (destruct T; fail); try (destruct Ca; fail); cbn in *; congruence).
  assert (Na : is_nothing a = false) by (destruct a; auto; destruct Ca).
  assert (Nb : is_nothing b = false) by (destruct b; auto; destruct Cb).
  unfold DiffModel.records_iter, id_selector. rewrite Df. cbn [bind]. rewrite Dr, Na, Nb. cbn [orb negb andb]. intros H.
  apply bind_ok in H as (ga&Ga&H). apply bind_ok in H as (ia&Ia&H).
  apply bind_ok in H as (gb&Gb&H). apply bind_ok in H as (ib&Ib&H).
  apply gen_contents in Ga; auto. apply gen_contents in Gb; auto. subst ga gb.
  apply (identified_keys hashable opt record_id defaults) in Ia, Ib. fold (identified a) in Ia. fold (identified b) in Ib. subst ia ib.
  pose proof (key_equalities veqb vrefl vsym vtrans) as KE.
  assert (Da : NoDup (map fst (identified a))) by (unfold DiffExact.identified; rewrite map_fst_map; now apply (contents_nodup W)).
  assert (Db : NoDup (map fst (identified b))) by (unfold DiffExact.identified; rewrite map_fst_map; now apply (contents_nodup W)).
  pose proof (fun x y i => key_unique W veqb record_id vrefl vsym vtrans a x y i Wa) as Ja.
  pose proof (fun x y i => key_unique W veqb record_id vrefl vsym vtrans b x y i Wb) as Jb.
  pose proof (pairs_in W veqb a_falsy opt record_id ord ord_ok vrefl vsym vtrans truth_ok fa fb a b Wa Wb) as PI.
  pose proof (near_sets W veqb a_falsy opt record_id ord ord_ok vrefl vsym vtrans truth_ok fa fb a b Wa Wb) as NS.
  assert (Ta : NoDup (map fst (tag (keqb veqb) [] (identified a)))) by (destruct KE as (E1&E2&E3&_); now apply (tag_nodup (keqb veqb) E1 E2 E3)).
  assert (Tb : NoDup (map fst (tag (keqb veqb) [] (identified b)))) by (destruct KE as (E1&E2&E3&_); now apply (tag_nodup (keqb veqb) E1 E2 E3)).
  set (ta := tag (keqb veqb) [] (identified a)) in *. set (tb := tag (keqb veqb) [] (identified b)) in *.
  set (removed := filter (fun x => negb (kmem veqb x (map fst tb))) (map fst ta)) in *.
  set (added := filter (fun x => negb (kmem veqb x (map fst ta))) (map fst tb)) in *.
  set (com := filter (fun x => kmem veqb x (map fst tb)) (map fst ta)) in *.
  cbv zeta in H, NS. set (fm := fuzzy_match _ _ _ _) in *. set (pairs := if o_fuzzy opt then fm else []) in *.
  assert (PIn : forall p, In p pairs -> In (fst p) removed).
  { intros [x y] Ip. unfold pairs in Ip. destruct (o_fuzzy opt) eqn:Of; [|destruct Ip]. now apply (PI eq_refl x y). }
  assert (PND : NoDup pairs /\ forall p p', In p pairs -> In p' pairs -> fst p = fst p' -> p = p').
  { unfold pairs. destruct (o_fuzzy opt) eqn:Of; [|split; [constructor|intros ? ? []]]. destruct (NS eq_refl) as (AO&_&_&S1&S2).
    destruct (C32_each_once veqb (v_falsy a_falsy) AO _ _ S1 S2) as [D _]. fold fm in D. split; [eapply NoDup_map_inv; exact D|].
    intros [x y] [x' y'] I1 I2 E. cbn in E. subst x'. now rewrite (nodup_fst fm x y y' D I1 I2). }
  assert (Fz : forall p, In p pairs -> o_unchanged_ opt = false).
  { intros p Ip. unfold pairs in Ip. destruct (o_fuzzy opt) eqn:Of; [auto|destruct Ip]. }
  clearbody pairs. clear fm PI NS.
  destruct (ord_ok fa fb) as (_&_&Oc&_&_&Ou&Or&Oad).
  pose proof (fun i x I => contents_rec W a c d i x Wa Ca Ec Ei I) as RA.
  pose proof (fun i x I => contents_rec W b c d i x Wb Cb Ecb Ei I) as RB.
  pose proof (fun i x I => contents_wf W a i x Wa I) as WA.
  pose proof (fun i x I => contents_wf W b i x Wb I) as WB.
  apply bind_ok in H as (l1&H1&H). apply bind_ok in H as (l2&H2&H). apply bind_ok in H as (l3&H3&H).
  apply bind_ok in H as (l4&H4&H). apply bind_ok in H as (l5&H5&H). inversion H as [H']. clear H H' l.
  assert (Ico : forall z, In z (so_common (ord fa fb) com) -> In z (map fst ta)).
  { intros z Iz. apply (Permutation_in _ (Oc _)) in Iz. unfold com in Iz. now apply filter_In in Iz. }
  assert (Iun : forall z, In z (so_unchanged (ord fa fb) com) -> In z (map fst ta)).
  { intros z Iz. apply (Permutation_in _ (Ou _)) in Iz. unfold com in Iz. now apply filter_In in Iz. }
  assert (Ire : forall f z, In z (so_removed (ord fa fb) (filter f removed)) -> In z (map fst ta)).
  { intros f z Iz. apply (Permutation_in _ (Or _)) in Iz. apply filter_In in Iz as [Iz _]. unfold removed in Iz. now apply filter_In in Iz. }
  assert (Iad : forall f z, In z (so_added (ord fa fb) (filter f added)) -> In z (map fst tb)).
  { intros f z Iz. apply (Permutation_in _ (Oad _)) in Iz. apply filter_In in Iz as [Iz _]. unfold added in Iz. now apply filter_In in Iz. }
  assert (Ip : forall p, In p pairs -> In (fst p) (map fst ta)).
  { intros p Hp. apply PIn in Hp. unfold removed in Hp. now apply filter_In in Hp. }
  assert (Apart : forall z p i, In z com -> In p pairs -> lookup (keqb veqb) z ta = Some i -> lookup (keqb veqb) (fst p) ta = Some i -> False).
  { intros z p i Iz Hp L1 L2. pose proof (Ip p Hp) as Hi. apply PIn in Hp. unfold removed in Hp. apply filter_In in Hp as [_ Hp].
    unfold com in Iz. apply filter_In in Iz as [Iz Mz]. rewrite <- (Ja z (fst p) i Iz Hi L1 L2), Mz in Hp. discriminate. }
  (* the shape of entries *)
  assert (S1 : forall z u e, In z (so_common (ord fa fb) com) ->
     (do k <- key_at veqb ta z; do x <- val_at (contents a) k; do j <- key_at veqb tb z; do y <- val_at (contents b) j;
      rec x y (fa ++ [k]) (fb ++ [j])) = Ok u -> In e u ->
     exists i j q r, lookup (keqb veqb) z ta = Some i /\ paths e = (fa ++ i :: q, fb ++ j :: r) /\ (q = [] -> r = [] -> False)).
  { intros z u e _ Hu He. apply bind_ok in Hu as (i&Hi&Hu). apply bind_ok in Hu as (x&Hx&Hu). apply bind_ok in Hu as (j&Hj&Hu). apply bind_ok in Hu as (y&Hy&Hu).
    pose proof (proj1 (val_at_iff W a i x Wa) Hx) as Ix. pose proof (proj1 (val_at_iff W b j y Wb) Hy) as Iy.
    destruct (IH x y _ _ u (or_intror (conj (RA _ _ Ix) (RB _ _ Iy))) (WA _ _ Ix) (WB _ _ Iy) Hu) as [_ X].
    apply X in He as (t&q&r&->&Ch). exists i, j, q, r. apply (key_at_ok veqb) in Hi. unfold paths. cbn [fst snd]. rewrite <- !app_assoc.
    split; auto. split; auto. intros Q R. eapply change_nonempty; eauto. }
  assert (S2 : forall p u e, In p pairs ->
     (do k <- key_at veqb ta (fst p); do x <- val_at (contents a) k; do j <- key_at veqb tb (snd p); do y <- val_at (contents b) j;
      do l <- rec x y (fa ++ [k]) (fb ++ [j]);
      Ok (l ++ (if o_moved opt && negb (elem_eqb k j) then [(Moved, fa ++ [k], fb ++ [j])]
                else if o_unchanged_ opt && match changes l with [] => true | _ => false end then [(NoChange, fa ++ [k], fb ++ [j])] else []))) = Ok u ->
     In e u -> exists i j q r, lookup (keqb veqb) (fst p) ta = Some i /\ paths e = (fa ++ i :: q, fb ++ j :: r)).
  { intros p u e Hp Hu He. apply bind_ok in Hu as (i&Hi&Hu). apply bind_ok in Hu as (x&Hx&Hu). apply bind_ok in Hu as (j&Hj&Hu). apply bind_ok in Hu as (y&Hy&Hu).
    apply bind_ok in Hu as (m&Hm&Hu). apply (key_at_ok veqb) in Hi.
    pose proof (proj1 (val_at_iff W a i x Wa) Hx) as Ix. pose proof (proj1 (val_at_iff W b j y Wb) Hy) as Iy.
    destruct (IH x y _ _ m (or_intror (conj (RA _ _ Ix) (RB _ _ Iy))) (WA _ _ Ix) (WB _ _ Iy) Hm) as [_ X].
    rewrite (Fz _ Hp) in Hu. cbn [andb] in Hu. injection Hu as <-. apply in_app_or in He as [He|He].
    - apply X in He as (t&q&r&->&Ch). exists i, j, q, r. unfold paths. cbn [fst snd]. rewrite <- !app_assoc. auto.
    - exists i, j, [], []. destruct (o_moved opt && negb (elem_eqb i j)); [destruct He as [<-|[]]; auto|destruct He]. }
  assert (S3 : forall e, In e l3 -> exists z i j, In z com /\ lookup (keqb veqb) z ta = Some i /\ paths e = (fa ++ [i], fb ++ [j])).
  { intros e He. destruct (o_unchanged_ opt || o_moved opt); [|inversion H3; subst; destruct He].
    destruct (concatM_in _ _ _ H3 e He) as (z&u&Iz&Hu&Ie). cbv beta in Hu. apply bind_ok in Hu as (i&Hi&Hu). apply bind_ok in Hu as (j&_&Hu).
    exists z, i, j. split; [exact (Permutation_in _ (Ou _) Iz)|]. split; [now apply (key_at_ok veqb)|]. destruct (o_moved opt && negb (elem_eqb i j)); [|destruct (o_unchanged_ opt)]; inversion Hu; subst; first [destruct Ie as [<-|[]]; reflexivity|destruct Ie]. }
  assert (S4 : forall e, In e l4 -> exists i, paths e = (fa ++ [i], fb)).
  { intros e He. destruct (concatM_in _ _ _ H4 e He) as (z&u&_&Hu&Ie). cbv beta in Hu. apply bind_ok in Hu as (i&_&Hu). exists i.
    inversion Hu; subst; destruct Ie as [<-|[]]; reflexivity. }
  assert (S5 : forall e, In e l5 -> exists i, paths e = (fa, fb ++ [i])).
  { intros e He. destruct (concatM_in _ _ _ H5 e He) as (z&u&_&Hu&Ie). cbv beta in Hu. apply bind_ok in Hu as (i&_&Hu). exists i.
    inversion Hu; subst; destruct Ie as [<-|[]]; reflexivity. }
  assert (Len : forall (f : list elem) q r, f ++ q = f ++ r -> q = r) by (intros f q r; apply app_inv_head).
  assert (Nil : forall (f q : list elem), f = f ++ q -> q = []) by (intros f q Hf; apply (Len f); now rewrite app_nil_r).
  assert (D1 : NoDup (map paths l1)).
  { eapply concatM_nodup; [exact H1| | |].
    - eapply Permutation_NoDup; [apply Permutation_sym, Oc|]. unfold com. now apply filter_NoDup.
    - intros z u _ Hu. cbv beta in Hu.
      apply bind_ok in Hu as (i&Hi&Hu). apply bind_ok in Hu as (x&Hx&Hu). apply bind_ok in Hu as (j&Hj&Hu). apply bind_ok in Hu as (y&Hy&Hu).
      pose proof (proj1 (val_at_iff W a i x Wa) Hx) as Ix. pose proof (proj1 (val_at_iff W b j y Wb) Hy) as Iy.
      eapply IHn; [| | | |exact Hu]; eauto using unmixed_item.
    - intros z z' u v e e' Iz Iz' Hu Hv He He' E. destruct (S1 z u e Iz Hu He) as (i&j&q&r&L&P&_). destruct (S1 z' v e' Iz' Hv He') as (i'&j'&q'&r'&L'&P'&_).
      rewrite E in P. rewrite P in P'. inversion P' as [[P1 P2]]. apply Len in P1. inversion P1; subst. eapply Ja; eauto. }
  assert (D2 : NoDup (map paths l2)).
  { eapply concatM_nodup; [exact H2|exact (proj1 PND)| |].
    - intros p u Hp Hu. cbv beta in Hu.
      apply bind_ok in Hu as (i&Hi&Hu). apply bind_ok in Hu as (x&Hx&Hu). apply bind_ok in Hu as (j&Hj&Hu). apply bind_ok in Hu as (y&Hy&Hu).
      apply bind_ok in Hu as (m&Hm&Hu).
      pose proof (proj1 (val_at_iff W a i x Wa) Hx) as Ix. pose proof (proj1 (val_at_iff W b j y Wb) Hy) as Iy.
      assert (Dm : NoDup (map paths m)) by (eapply IHn; [| | | |exact Hm]; eauto using unmixed_item).
      destruct (IH x y _ _ m (or_intror (conj (RA _ _ Ix) (RB _ _ Iy))) (WA _ _ Ix) (WB _ _ Iy) Hm) as [_ X].
      rewrite (Fz _ Hp) in Hu. cbn [andb] in Hu. injection Hu as <-. rewrite map_app. apply nodup_app; auto.
      + destruct (o_moved opt && negb (elem_eqb i j)); cbn; repeat constructor; auto.
      + intros pp I1 I2. apply in_map_iff in I1 as (e1&<-&I1), I2 as (e2&E&I2). apply X in I1 as (t&q&r&->&Ch).
        destruct (o_moved opt && negb (elem_eqb i j)); [|destruct I2]. destruct I2 as [<-|[]]. unfold paths in E. cbn [fst snd] in E.
        inversion E as [[F1 F2]]. apply Nil in F1, F2. exact (change_nonempty W veqb repr a_hash opt record_id near _ _ _ _ _ _ _ Ch F1 F2).
    - intros p p' u v e e' Hp Hp' Hu Hv He He' E. destruct (S2 p u e Hp Hu He) as (i&j&q&r&L&P). destruct (S2 p' v e' Hp' Hv He') as (i'&j'&q'&r'&L'&P').
      rewrite E in P. rewrite P in P'. inversion P' as [[P1 P2]]. apply Len in P1. inversion P1; subst. apply (proj2 PND); auto. eapply Ja; eauto. }
  assert (D3 : NoDup (map paths l3)).
  { destruct (o_unchanged_ opt || o_moved opt); [|inversion H3; constructor].
    eapply concatM_nodup; [exact H3| | |].
    - eapply Permutation_NoDup; [apply Permutation_sym, Ou|]. unfold com. now apply filter_NoDup.
    - intros z u _ Hu. cbv beta in Hu. apply bind_ok in Hu as (i&_&Hu). apply bind_ok in Hu as (j&_&Hu).
      destruct (o_moved opt && negb (elem_eqb i j)); [|destruct (o_unchanged_ opt)]; inversion Hu; cbn; repeat constructor; auto.
    - intros z z' u v e e' Iz Iz' Hu Hv He He' E. cbv beta in Hu, Hv.
      apply bind_ok in Hu as (i&Hi&Hu). apply bind_ok in Hu as (j&_&Hu). apply bind_ok in Hv as (i'&Hi'&Hv). apply bind_ok in Hv as (j'&_&Hv).
      apply (key_at_ok veqb) in Hi, Hi'.
      assert (P : paths e = (fa ++ [i], fb ++ [j])).
      { destruct (o_moved opt && negb (elem_eqb i j)); [|destruct (o_unchanged_ opt)]; inversion Hu; subst; first [destruct He as [<-|[]]; reflexivity|destruct He]. }
      assert (P' : paths e' = (fa ++ [i'], fb ++ [j'])).
      { destruct (o_moved opt && negb (elem_eqb i' j')); [|destruct (o_unchanged_ opt)]; inversion Hv; subst; first [destruct He' as [<-|[]]; reflexivity|destruct He']. }
      rewrite E in P. rewrite P in P'. inversion P' as [[P1 P2]]. apply Len in P1. inversion P1; subst. eapply Ja; eauto. }
  assert (D4 : NoDup (map paths l4)).
  { eapply concatM_nodup; [exact H4| | |].
    - eapply Permutation_NoDup; [apply Permutation_sym, Or|]. unfold removed. now do 2 apply filter_NoDup.
    - intros z u _ Hu. cbv beta in Hu. apply bind_ok in Hu as (i&_&Hu). inversion Hu; cbn; repeat constructor; auto.
    - intros z z' u v e e' Iz Iz' Hu Hv He He' E. cbv beta in Hu, Hv.
      apply bind_ok in Hu as (i&Hi&Hu). apply bind_ok in Hv as (i'&Hi'&Hv). apply (key_at_ok veqb) in Hi, Hi'.
      inversion Hu; inversion Hv; subst. destruct He as [<-|[]], He' as [<-|[]]. inversion E as [P1]. apply Len in P1. inversion P1; subst. eapply Ja; eauto. }
  assert (D5 : NoDup (map paths l5)).
  { eapply concatM_nodup; [exact H5| | |].
    - eapply Permutation_NoDup; [apply Permutation_sym, Oad|]. unfold added. now do 2 apply filter_NoDup.
    - intros z u _ Hu. cbv beta in Hu. apply bind_ok in Hu as (i&_&Hu). inversion Hu; cbn; repeat constructor; auto.
    - intros z z' u v e e' Iz Iz' Hu Hv He He' E. cbv beta in Hu, Hv.
      apply bind_ok in Hu as (i&Hi&Hu). apply bind_ok in Hv as (i'&Hi'&Hv). apply (key_at_ok veqb) in Hi, Hi'.
      inversion Hu; inversion Hv; subst. destruct He as [<-|[]], He' as [<-|[]]. inversion E as [P1]. apply Len in P1. inversion P1; subst. eapply Jb; eauto. }
  assert (S1' : forall e, In e l1 -> exists z i j q r, In z com /\ lookup (keqb veqb) z ta = Some i /\ paths e = (fa ++ i :: q, fb ++ j :: r) /\ (q = [] -> r = [] -> False)).
  { intros e He. destruct (concatM_in _ _ _ H1 e He) as (z&u&Iz&Hu&Ie). destruct (S1 z u e Iz Hu Ie) as (i&j&q&r&L&P). exists z, i, j, q, r.
    split; [exact (Permutation_in _ (Oc _) Iz)|auto]. }
  assert (S2' : forall e, In e l2 -> exists p i j q r, In p pairs /\ lookup (keqb veqb) (fst p) ta = Some i /\ paths e = (fa ++ i :: q, fb ++ j :: r)).
  { intros e He. destruct (concatM_in _ _ _ H2 e He) as (p&u&Hp&Hu&Ie). destruct (S2 p u e Hp Hu Ie) as (i&j&q&r&L&P). exists p, i, j, q, r. auto. }
  assert (X45 : forall e i j q r, paths e = (fa ++ i :: q, fb ++ j :: r) -> In (paths e) (map paths l4 ++ map paths l5) -> False).
  { intros e i j q r P I45. apply in_app_or in I45 as [I4|I5].
    - apply in_map_iff in I4 as (e4&E&I4). destruct (S4 _ I4) as (i'&Q). rewrite P, Q in E. inversion E as [[F1 F2]]. apply Nil in F2. discriminate.
    - apply in_map_iff in I5 as (e5&E&I5). destruct (S5 _ I5) as (i'&Q). rewrite P, Q in E. inversion E as [[F1 F2]]. apply Nil in F1. discriminate. }
  rewrite !map_app. apply nodup_app; [auto|apply nodup_app; [auto|apply nodup_app; [auto|apply nodup_app; auto|]|]|].
  - intros pp I4 I5. apply in_map_iff in I4 as (e4&<-&I4), I5 as (e5&E&I5). destruct (S4 _ I4) as (i&P), (S5 _ I5) as (j&Q).
    rewrite P, Q in E. inversion E as [[F1 F2]]. apply Nil in F1. discriminate.
  - intros pp I3 I45. apply in_map_iff in I3 as (e3&<-&I3). destruct (S3 _ I3) as (z&i&j&_&_&P). eapply X45; eauto.
  - intros pp I2 I345. apply in_map_iff in I2 as (e2&<-&I2). destruct (S2' _ I2) as (p&i&j&q&r&Hp&L&P). apply in_app_or in I345 as [I3|I45]; [|eapply X45; eauto].
    apply in_map_iff in I3 as (e3&E&I3). destruct (S3 _ I3) as (z&i'&j'&Iz&Lz&Q). rewrite P, Q in E. inversion E as [[F1 F2]]. apply Len in F1.
    inversion F1; subst. eapply Apart; eauto.
  - intros pp I1 I2345. apply in_map_iff in I1 as (e1&<-&I1). destruct (S1' _ I1) as (z&i&j&q&r&Iz&Lz&P&N).
    apply in_app_or in I2345 as [I2|I345]; [|apply in_app_or in I345 as [I3|I45]; [|eapply X45; eauto]].
    + apply in_map_iff in I2 as (e2&E&I2). destruct (S2' _ I2) as (p&i'&j'&q'&r'&Hp&L&Q). rewrite P, Q in E. inversion E as [[F1 F2]]. apply Len in F1.
      inversion F1; subst. eapply Apart; eauto.
    + apply in_map_iff in I3 as (e3&E&I3). destruct (S3 _ I3) as (z'&i'&j'&_&_&Q). rewrite P, Q in E. inversion E as [[F1 F2]]. apply Len in F1, F2.
      inversion F1; inversion F2; subst. auto.
Qed.

(** the first step of a path to an item *)
Lemma items_shape a b t q r : items_change W veqb repr a_hash opt a b t q r -> q = [] \/ exists i q' u, q = i :: q' /\ In (i, u) (contents a).
Proof.
  intros [(i&S&_&_&->&_)|[(i&_&_&_&->&_)|[(i&S&_&_&->&_)|(i&j&P&_&->&_)]]]; auto; right.
  - apply surplus_counted in S as [u Iu]. eauto.
  - apply surplus_counted in S as [u Iu]. eauto.
  - apply paired_counted in P as [[u Iu] _]. eauto.
Qed.
Lemma records_shape fa fb a b t q r : records_change W veqb repr a_hash a_falsy opt record_id ord fa fb a b t q r -> q = [] \/ exists i q' u, q = i :: q' /\ In (i, u) (contents a).
Proof.
  intros [(i&j&x&y&q'&r'&_&Ix&_&->&_)|[(i&j&_&[(x&y&q'&r'&Ix&_&->&_)|(x&y&Ix&_&_&_&_&->&_)])|[(i&j&P&_&->&_)|[(i&(S&_)&_&->&_)|(i&_&_&->&_)]]]]; auto; right; eauto.
  - apply paired_identified in P as [[u Iu] _]. eauto.
  - apply surplus_identified in S as [u Iu]. eauto.
Qed.

Lemma dispatch_once a b fa fb l : same_type a b \/ (class_of a <> None /\ class_of b <> None) -> wfv a -> wfv b -> unmixed a ->
  dispatch rec a b fa fb = Ok l -> NoDup (map paths l).
Proof.
  intros R Wa Wb Ua. unfold DiffModel.dispatch.
  assert (Na : is_nothing a = false) by (destruct a; auto; destruct R as [R|[R _]]; [now destruct b|now destruct R]).
  assert (Nb : is_nothing b = false) by (destruct b; auto; destruct R as [R|[_ R]]; [now destruct a|now destruct R]).
  rewrite Na.
  assert (P : plain a -> list_iter a b fa fb = Ok l -> NoDup (map paths l)).
  { intros Pa H. assert (T : same_type a b) by (destruct R as [R|[R _]]; auto; destruct a; try (destruct Pa; fail); now destruct R).
    exact (list_once a b fa fb l T (or_introl Pa) Wa Wb H). }
  assert (Q : forall c, collection a -> class_of a = Some c ->
     (do l <- collection_iter rec a b fa fb; do m <- record_iter rec a b fa fb; Ok (l ++ m)) = Ok l -> NoDup (map paths l)).
  { intros c Ca Ec H. apply bind_ok in H as (l1&H1&H). apply bind_ok in H as (l2&H2&H). assert (l = l1 ++ l2) as -> by congruence. clear H.
    pose proof (record_once c a b fa fb l2 Ec Wa Wb Ua H2 Nb) as D2.
    destruct (record_entries W ceqb veqb hashable repr a_hash a_falsy opt record_id ord ceq keeps defaults few rec IH c a b fa fb l2 Ec Wa Wb H2 Nb) as [T X2].
    assert (G : NoDup (map paths l1) /\ forall e, In e l1 -> exists t q r, e = (t, fa ++ q, fb ++ r) /\ (q = [] \/ exists i q' u, q = i :: q' /\ In (i, u) (contents a))).
    { revert H1. unfold DiffModel.collection_iter. rewrite Na, Ec. destruct (ValModel.item W c) as [|d|] eqn:Ei; [discriminate| |]; intros H1.
      - split; [now apply (records_once c d a b fa fb l1)|].
        pose proof (records_entries W veqb hashable repr a_hash a_falsy a_items opt record_id ord ord_ok vrefl vsym vtrans defaults few truth_ok rec IH c d a b fa fb l1 T Ca Ec Ei Wa Wb H1) as X1.
        intros e He. apply X1 in He as (t&q&r&->&Ch). exists t, q, r. split; auto. eapply records_shape; eauto.
      - assert (L : loose W a) by (right; split; eauto). split; [now apply (list_once a b fa fb l1)|].
        pose proof (list_entries W veqb hashable repr a_hash a_items opt ord ord_ok vrefl vsym vtrans defaults a b fa fb l1 T L Wa Wb H1) as X1.
        intros e He. apply X1 in He as (t&q&r&->&Ch). exists t, q, r. split; auto. eapply items_shape; eauto. }
    destruct G as [D1 X1]. rewrite map_app. apply nodup_app; auto.
    intros pp I1 I2. apply in_map_iff in I1 as (e1&<-&I1), I2 as (e2&E&I2).
    apply X1 in I1 as (t&q&r&->&S). apply X2 in I2 as (t'&q'&r'&->&p&Ip&S'). apply slot_shape in S' as (q1&r1&->&->).
    cbn in E. inversion E as [[E1 E2]]. apply app_inv_head in E1. destruct S as [->|(i&q2&u&->&Iu)]; [discriminate|].
    inversion E1; subst. destruct a as [| | | | | |c0 sl|c0 sl la|c0 sl la]; try (destruct Ca; fail); cbn in Ec; injection Ec as <-; cbn [contents] in Iu.
    - unfold number in Iu. apply in_combine_l in Iu. apply in_map_iff in Iu as (n&Hn&_). discriminate.
    - exact (Ua [] c0 sl la _ u p (at_here _ _ _) Iu Ip eq_refl). }
  destruct a as [| | | | | |c sl|c sl la|c sl la]; try discriminate Na; try (destruct R as [[]|[R _]]; now destruct R).
  - apply P. exact I.
  - apply P. exact I.
  - intros H. now apply (record_once c (VRec c sl) b fa fb l).
  - now apply (Q c).
  - now apply (Q c).
Qed.
End Step.

Lemma diff_once n : forall a b fa fb l, same_type a b \/ (class_of a <> None /\ class_of b <> None) -> wfv a -> wfv b -> unmixed a ->
  diff n a b fa fb = Ok l -> NoDup (map paths l).
Proof.
  induction n as [|n IHn]; intros a b fa fb l R Wa Wb Ua; cbn [DiffModel.diff]; [discriminate|].
  apply dispatch_once; auto. intros x y fx fy m. now apply diff_entries.
Qed.
End NoTwice.
