(** Comparing a value with itself does not fail. *)
From Coq Require Import List Arith NArith ZArith Bool Lia Permutation.
From Verif Require Import Prelude SelPathModel FSModel PySeq MFSModel ValModel EqModel EqProofs SeqDiffModel SeqDiffProofs
  FuzzyModel DiffModel DiffProofs DiffSwap.
Import ListNotations.

Lemma tag_snd {K I} (keqb : K -> K -> bool) (l : list (I * K)) : forall seen, map snd (tag keqb seen l) = map fst l.
Proof. induction l as [|[i v] t IH]; intros seen; cbn [tag map snd fst]; auto. now rewrite IH. Qed.

Section Height.
Context {A C : Type}.
Notation val := (val A C).
Fixpoint vheight (v : val) : nat :=
  match v with
  | VSeq _ l => S (maxl (map vheight l))
  | VMap l => S (maxl (map (fun kv => vheight (snd kv)) l))
  | VRec _ sl => S (maxl (map (fun kv => vheight (snd kv)) sl))
  | VLC _ sl l => S (max (maxl (map (fun kv => vheight (snd kv)) sl)) (maxl (map vheight l)))
  | VDC _ sl l => S (max (maxl (map (fun kv => vheight (snd kv)) sl)) (maxl (map (fun kv => vheight (snd kv)) l)))
  | _ => 0
  end.
Lemma height_in (l : list val) x : In x l -> vheight x <= maxl (map vheight l).
Proof. intros I. apply maxl_in. now apply in_map. Qed.
Lemma height_in2 {K} (l : list (K * val)) k x : In (k, x) l -> vheight x <= maxl (map (fun kv => vheight (snd kv)) l).
Proof. intros I. apply maxl_in. apply (in_map (fun kv => vheight (snd kv)) _ _ I). Qed.

(** values of slots and items *)
Definition part (u v : val) : Prop :=
  match v with
  | VSeq _ l => In u l
  | VMap l => In u (map snd l)
  | VRec _ sl => In u (map snd sl)
  | VLC _ sl l => In u (map snd sl) \/ In u l
  | VDC _ sl l => In u (map snd sl) \/ In u (map snd l)
  | _ => False
  end.

(** a value and all that is in it *)
Fixpoint parts (v : val) : list val :=
  v :: match v with
       | VSeq _ l => flat_map parts l
       | VMap l => flat_map (fun kv => parts (snd kv)) l
       | VRec _ sl => flat_map (fun kv => parts (snd kv)) sl
       | VLC _ sl l => flat_map (fun kv => parts (snd kv)) sl ++ flat_map parts l
       | VDC _ sl l => flat_map (fun kv => parts (snd kv)) sl ++ flat_map (fun kv => parts (snd kv)) l
       | _ => []
       end.
Lemma parts_self v : In v (parts v).
Proof. destruct v; now left. Qed.

Lemma parts_flat (l : list val) u w : Forall (fun v => forall u w, In u (parts v) -> part w u -> In w (parts v)) l ->
  In u (flat_map parts l) -> part w u -> In w (flat_map parts l).
Proof.
  intros F I Pw. apply in_flat_map in I as (x&Ix&I). apply in_flat_map. exists x. split; auto.
  rewrite Forall_forall in F. eapply F; eauto.
Qed.
Lemma parts_flat2 {K} (l : list (K * val)) u w : Forall (fun kv => forall u w, In u (parts (snd kv)) -> part w u -> In w (parts (snd kv))) l ->
  In u (flat_map (fun kv => parts (snd kv)) l) -> part w u -> In w (flat_map (fun kv => parts (snd kv)) l).
Proof.
  intros F I Pw. apply in_flat_map in I as (x&Ix&I). apply in_flat_map. exists x. split; auto.
  rewrite Forall_forall in F. eapply F; eauto.
Qed.
Lemma flat_self2 {K} (l : list (K * val)) w : In w (map snd l) -> In w (flat_map (fun kv => parts (snd kv)) l).
Proof. intros I. apply in_map_iff in I as (x&<-&I). apply in_flat_map. exists x. split; auto using parts_self. Qed.

Lemma parts_closed v : forall u w, In u (parts v) -> part w u -> In w (parts v).
Proof.
  induction v using val_ind'; intros u w I Pw; cbn [parts] in *; destruct I as [<-|I]; try (destruct I; fail); try (destruct Pw; fail); right.
  - apply in_flat_map. exists w. split; auto using parts_self.
  - eapply parts_flat; eauto.
  - now apply flat_self2.
  - eapply parts_flat2; eauto.
  - now apply flat_self2.
  - eapply parts_flat2; eauto.
  - apply in_or_app. destruct Pw as [Pw|Pw]; [left; now apply flat_self2|right]. apply in_flat_map. exists w. split; auto using parts_self.
  - apply in_or_app. apply in_app_or in I as [I|I]; [left; eapply parts_flat2|right; eapply parts_flat]; eauto.
  - apply in_or_app. destruct Pw as [Pw|Pw]; [left|right]; now apply flat_self2.
  - apply in_or_app. apply in_app_or in I as [I|I]; [left|right]; eapply parts_flat2; eauto.
Qed.
End Height.

Section Total.
Context {A C : Type}.
Variable W : classes A C.
Variable ceqb : C -> C -> bool.
Notation val := (val A C).
Variable veqb : val -> val -> bool.
Variable hashable : val -> bool.
Variable repr : val -> str.
Variable a_hash a_falsy : A -> bool.
Variable a_items : A -> res (list (elem * val)).
Variable opt : options.
Variable record_id : rtype C -> option mfs -> val -> res val.
Variable ord : list elem -> list elem -> dorders (A := A) (C := C).

Hypothesis ord_ok : forall fa fb, orders_ok (ord fa fb).
Hypothesis vrefl : forall v, veqb v v = true.
Hypothesis crefl : forall c, ceqb c c = true.
Hypothesis no_filter : sel_true (o_filter opt) = false.
Hypothesis no_compare_as : forall c p, In p (props W c) -> p_compare_as p = None.
Hypothesis no_union : forall c, ValModel.item W c <> ITuple.
(** the values concerned *)
Variable good : val -> Prop.
Hypothesis good_parts : forall u v, good v -> part u v -> good u.
Hypothesis keys_ok : forall coll g k v, good coll -> generator a_items coll = Ok g -> In (k, v) g -> exists i, item_key W hashable repr a_hash opt coll v = Ok i.
Hypothesis ids : forall c d v, ValModel.item W c = IRec d -> good v -> class_of v <> None ->
  exists l, record_id (if o_duck opt then RClass d else RAuto) None v = Ok (VSeq true l) /\ hashable (VSeq true l) = true.

Notation diff := (diff W ceqb veqb hashable repr a_hash a_falsy a_items opt record_id ord).
Notation dispatch := (dispatch W ceqb veqb hashable repr a_hash a_falsy a_items opt record_id ord).
Notation wfv := (wfv W).

Lemma concatM_total {X Y} (f : X -> res (list Y)) l : (forall x, In x l -> exists u, f x = Ok u) -> exists r, concatM f l = Ok r.
Proof.
  induction l as [|x t IH]; intros H; cbn [concatM]; eauto.
  destruct (H x) as (u&->); auto using in_eq. destruct IH as (v&->); auto using in_cons. cbn. eauto.
Qed.

Lemma item_keys_total coll l : (forall k v, In (k, v) l -> exists i, item_key W hashable repr a_hash opt coll v = Ok i) ->
  exists r, item_keys W hashable repr a_hash opt coll l = Ok r.
Proof.
  induction l as [|[k v] t IH]; intros H; cbn [item_keys]; eauto.
  destruct (H k v) as (i&->); [now left|]. destruct IH as (r&->); [intros; eapply H; right; eauto|]. cbn. eauto.
Qed.

Lemma no_selector fa : id_selector opt fa = Ok None.
Proof. unfold id_selector. destruct (o_filter opt) as [m|]; auto. cbn [sel_true] in *. now rewrite no_filter. Qed.

Lemma gen_total v : comparable v = true -> class_of v = None \/ tuples v <> None ->
  exists g, generator a_items v = Ok g.
Proof. destruct v; cbn; try discriminate; eauto. intros _ [H|H]; congruence. Qed.

Lemma list_total v fa fb : good v -> (exists g, generator a_items v = Ok g) ->
  exists l, list_iter W veqb hashable repr a_hash a_items opt ord v v fa fb = Ok l.
Proof.
  intros Gv (g&G). unfold list_iter. rewrite G. cbn [bind].
  destruct (item_keys_total v g) as (r&R); [intros k u I; eapply keys_ok; eauto|]. rewrite R. cbn [bind].
  replace (if o_duck opt then v else v) with v by now destruct (o_duck opt). rewrite R. cbn. eauto.
Qed.

Lemma id_keys_total c d fa l : ValModel.item W c = IRec d -> (forall k v, In (k, v) l -> good v /\ class_of v <> None) ->
  exists r, id_keys hashable opt record_id d None fa l = Ok r.
Proof.
  intros Ei. induction l as [|[k v] t IH]; intros H; cbn [id_keys]; eauto.
  destruct IH as (r&IH); [intros; eapply H; right; eauto|].
  destruct (H k v) as [Gv Cv]; [now left|].
  destruct (ids c d v Ei Gv Cv) as (i&->&Hi). cbn [bind].
  destruct (_ && _); eauto. rewrite Hi. cbn [negb key_of]. rewrite IH. cbn. eauto.
Qed.

Lemma tag_key (ia : list (elem * pk val)) x : In x (map fst (tag (keqb veqb) [] ia)) ->
  exists k, key_at veqb (tag (keqb veqb) [] ia) x = Ok k /\ In k (map fst ia).
Proof.
  intros I. destruct (lookup_total (keqb veqb) x (tag (keqb veqb) [] ia)) as [k L].
  { apply tmem_self; auto. intros y. now apply pkeqb_refl. }
  exists k. split; [unfold key_at; now rewrite L|].
  apply lookup_in in L as (y&Hy&_).
  rewrite <- (tag_snd (keqb veqb) ia []). apply in_map_iff. exists (y, k). auto.
Qed.

Lemma val_total (g : list (elem * val)) k : In k (map fst g) -> exists v, val_at g k = Ok v /\ In (k, v) g.
Proof.
  intros I. unfold val_at. destruct (eget_key g k I) as (v&G). rewrite G. exists v. split; auto. now apply eget_in.
Qed.

Section Step.
Variable rec : val -> val -> list elem -> list elem -> res (list dentry).
Variable n : nat.
Hypothesis IH : forall v fa fb, vheight v < n -> wfv v -> good v -> exists l, rec v v fa fb = Ok l.

Lemma slot_total a fa fb p c : vheight a <= n -> wfv a -> good a -> In p (props W c) -> exists l, slot_diff ceqb veqb opt rec a a fa fb p = Ok l.
Proof.
  intros Ha Wa Ga Ip. unfold slot_diff. destruct (is_filtered opt p _); eauto.
  unfold normalize_slot. rewrite (no_compare_as c p Ip).
  set (r := match slot a (p_name p) with Some u => u | None => VNothing end).
  rewrite xorb_nilpotent. destruct (_ && _); eauto.
  destruct (_ && _) eqn:Cm.
  - assert (E : normalize_val opt r = r /\ comparable r = true).
    { revert Cm. rewrite orb_diag. unfold normalize_val. destruct r as [| |s| | | | | |]; cbn [comparable]; auto; rewrite ?andb_false_r; cbn; auto;
        destruct (o_empty_slots opt); cbn; try discriminate; destruct (o_text opt s); cbn; discriminate. }
    destruct E as [E Cr]. rewrite E. unfold r in *. destruct (slot a (p_name p)) as [u|] eqn:S; [|discriminate].
    destruct (IH u (fa ++ [EStr (p_name p)]) (fb ++ [EStr (p_name p)])) as (l&->).
    + destruct a; cbn [slot] in S; try discriminate; apply sget_in in S; apply height_in2 in S; cbn [vheight] in Ha; lia.
    + exact (wf_slot W a _ _ Wa S).
    + apply (good_parts u a); auto. destruct a; cbn [slot] in S; try discriminate; apply sget_in in S; apply (in_map snd) in S; cbn [snd] in S; cbn; auto.
    + cbn. eauto.
  - rewrite vrefl. cbn. eauto.
Qed.

Lemma record_total a fa fb : class_of a <> None -> vheight a <= n -> wfv a -> good a ->
  exists l, record_iter W ceqb veqb opt rec a a fa fb = Ok l.
Proof.
  intros Ca Ha Wa Gda. unfold record_iter.
  assert (T : types_match ceqb a a = true) by (destruct a; cbn in *; auto; congruence).
  rewrite T, andb_false_r. cbn [andb]. replace (if is_nothing a then a else a) with a by now destruct (is_nothing a).
  destruct (class_of a) as [c|]; [|congruence]. apply concatM_total. intros p Ip.
  apply (slot_total a fa fb p c); auto. now apply all_properties_in.
Qed.

Lemma records_total c d a fa fb : class_of a = Some c -> ValModel.item W c = IRec d -> tuples a <> None ->
  vheight a <= n -> wfv a -> good a ->
  exists l, records_iter veqb hashable a_falsy a_items opt record_id ord rec d a a fa fb = Ok l.
Proof.
  intros Ec Ei Ta Ha Wa Gda. unfold records_iter.
  rewrite no_selector. cbn [bind].
  assert (G : exists g, generator a_items a = Ok g /\ forall k v, In (k, v) g -> wfv v /\ class_of v <> None /\ vheight v < n /\ good v).
  { destruct Wa; cbn in Ec, Ta; try congruence; inversion Ec; subst; eexists; (split; [reflexivity|]); intros k v I; cbn [vheight] in Ha.
    - apply number_in in I. repeat split; eauto; [apply height_in in I; lia|]. eapply good_parts; eauto. now right.
    - repeat split; eauto; [apply height_in2 in I; lia|]. eapply good_parts; eauto. right. apply (in_map snd) in I. exact I. }
  destruct G as (g&G&Gi). rewrite G. cbn [bind].
  destruct (id_keys_total c d fa g Ei) as (ia&Ia); [intros k v I; destruct (Gi k v I) as (_&?&_&?); auto|]. rewrite Ia. cbn [bind].
  assert (Sub : forall k, In k (map fst ia) -> In k (map fst g)) by (intros k; now apply (id_keys_sub hashable opt record_id d None fa g ia)).
  destruct (ord_ok fa fb) as (_&Ok_&Oc&Ofa&Ofb&Ou&Or&Oa).
  assert (Step : forall k fa' fb', In k (map fst ia) -> exists v l, val_at g k = Ok v /\ rec v v fa' fb' = Ok l).
  { intros k fa' fb' I. destruct (val_total g k (Sub k I)) as (v&Hv&Iv). destruct (Gi k v Iv) as (Wv&_&Hh&Gv).
    destruct (IH v fa' fb' Hh Wv Gv) as (l&L). eauto. }
  set (ta := tag (keqb veqb) [] ia).
  destruct (o_recurse opt).
  - match goal with |- exists l, (do x <- ?m; _) = Ok l => assert (T : exists r, m = Ok r) end.
    { apply concatM_total. intros k Ik. apply (Permutation_in _ (Ok_ _)) in Ik. apply filter_In in Ik as [Ik _].
      assert (Ik' : In k (map fst ia)).
      { unfold ta in Ik. now rewrite tag_snd in Ik. }
      destruct (Step k (fa ++ [k]) (fb ++ [k]) Ik') as (v&l&Hv&Hl). rewrite Hv. cbn [bind]. rewrite Hl. eauto. }
    destruct T as (r&->). cbn. eauto.
  - assert (N : filter (fun x => negb (kmem veqb x (map fst ta))) (map fst ta) = [])
      by (apply (none_missing (keqb veqb)); intros y; now apply pkeqb_refl).
    rewrite N.
    assert (Na : is_nothing a = false) by (destruct a; cbn in *; congruence). rewrite Na. cbn [orb negb andb].
    assert (P : (if o_fuzzy opt then fuzzy_match veqb (v_falsy a_falsy) (so_fuzzy_a (ord fa fb) []) (so_fuzzy_b (ord fa fb) []) else []) = []).
    { rewrite (perm_nil _ (Ofa [])), (perm_nil _ (Ofb [])). now destruct (o_fuzzy opt). }
    rewrite P. cbn [concatM filter map]. rewrite (perm_nil _ (Or [])), (perm_nil _ (Oa [])). cbn [concatM].
    match goal with |- exists l, (do x <- ?m; _) = Ok l => assert (T1 : exists r, m = Ok r) end.
    { apply concatM_total. intros x Ix. apply (Permutation_in _ (Oc _)) in Ix. apply filter_In in Ix as [Ix _].
      destruct (tag_key ia x Ix) as (k&Hk&Ik). fold ta in Hk. rewrite Hk. cbn [bind].
      destruct (Step k (fa ++ [k]) (fb ++ [k]) Ik) as (v&l&Hv&Hl). rewrite Hv. cbn [bind]. rewrite Hl. eauto. }
    destruct T1 as (l1&->). cbn [bind].
    match goal with |- exists l, (do x <- ?m; _) = Ok l => assert (T3 : exists r, m = Ok r) end.
    { destruct (_ || _); eauto. apply concatM_total. intros x Ix. apply (Permutation_in _ (Ou _)) in Ix. apply filter_In in Ix as [Ix _].
      destruct (tag_key ia x Ix) as (k&Hk&Ik). fold ta in Hk. rewrite Hk. cbn. eauto. }
    destruct T3 as (l3&->). cbn. eauto.
Qed.

Lemma dispatch_total a fa fb : vheight a <= n -> wfv a -> good a -> exists l, dispatch rec a a fa fb = Ok l.
Proof.
  intros Ha Wa Gda. unfold DiffModel.dispatch. replace (if is_nothing a then a else a) with a by now destruct (is_nothing a).
  assert (G : tuples a <> None -> class_of a <> None -> exists l, (do l <- collection_iter W veqb hashable repr a_hash a_falsy a_items opt record_id ord rec a a fa fb;
      do m <- record_iter W ceqb veqb opt rec a a fa fb; Ok (l ++ m)) = Ok l).
  { intros Ta Ca. destruct (record_total a fa fb Ca Ha Wa Gda) as (m&->). unfold collection_iter.
    replace (if is_nothing a then a else a) with a by now destruct (is_nothing a).
    destruct (class_of a) as [c|] eqn:Ec; [|congruence]. pose proof (no_union c). destruct (ValModel.item W c) as [|d|] eqn:Ei; [congruence| |].
    - destruct (records_total c d a fa fb Ec Ei Ta Ha Wa Gda) as (l&->). cbn. eauto.
    - destruct (list_total a fa fb Gda) as (l&->); [|cbn; eauto]. destruct a; cbn in Ta |- *; try congruence; eauto. }
  destruct a; try (eexists; reflexivity).
  - apply list_total; auto. cbn. eauto.
  - apply list_total; auto. cbn. eauto.
  - apply record_total; auto. discriminate.
  - apply G; discriminate.
  - apply G; discriminate.
Qed.
End Step.

Lemma diff_total n : forall v fa fb, vheight v < n -> wfv v -> good v -> exists l, diff n v v fa fb = Ok l.
Proof.
  induction n as [|n IHn]; intros v fa fb Hv Wv Gv; [lia|]. cbn [DiffModel.diff].
  apply (dispatch_total _ n); auto. lia.
Qed.
End Total.
