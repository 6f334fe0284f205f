(** Exchanging the operands of a comparison. *)
From Coq Require Import List Arith NArith ZArith Bool Lia Permutation.
From Verif Require Import Prelude SelPathModel FSModel PySeq MFSModel ValModel EqModel EqProofs SeqDiffModel SeqDiffProofs
  SeqDiffProps FuzzyModel FuzzyProps FuzzyFlip MFSProofs DiffModel DiffProofs.
Import ListNotations.

(** ** Positions of the common members of two tagged lists *)
Section Pairs.
Context {K I : Type}.
Variable keqb : K -> K -> bool.
Variable ieqb : I -> I -> bool.
Hypothesis E : equalities keqb ieqb.

Definition prs (ta tb : list ((K * nat) * I)) (xs : list (K * nat)) : list (I * I) :=
  flat_map (fun x => match lookup keqb x ta, lookup keqb x tb with Some i, Some j => [(i, j)] | _, _ => [] end) xs.

Definition common (ta tb : list ((K * nat) * I)) : list (K * nat) :=
  filter (fun x => tmem keqb x (map fst tb)) (map fst ta).

Section Fix.
Variables a b : list (I * K).
Notation ta := (tag keqb [] a).
Notation tb := (tag keqb [] b).

Lemma prs_in i j : In (i, j) (prs ta tb (common ta tb)) <-> paired keqb a b i j.
Proof.
  destruct E as (E1&E2&E3&E4). rewrite (paired_spec keqb E1 E2 E3 a b). unfold prs. rewrite in_flat_map. split.
  - intros (x&Hx&H). destruct (lookup keqb x ta) as [i'|] eqn:La; [|destruct H].
    destruct (lookup keqb x tb) as [j'|] eqn:Lb; [|destruct H]. destruct H as [H|[]]. inversion H; subst. eauto.
  - intros (x&Hx&La&Lb). exists x. split; auto. rewrite La, Lb. now left.
Qed.

Lemma common_total x : In x (common ta tb) -> exists i j, lookup keqb x ta = Some i /\ lookup keqb x tb = Some j.
Proof.
  destruct E as (E1&E2&E3&E4). unfold common. intros H. apply filter_In in H as [H1 H2].
  destruct (lookup_total keqb x ta) as [i Hi]; [now apply tmem_self|].
  destruct (lookup_total keqb x tb) as [j Hj]; auto. eauto.
Qed.

Hypothesis Da : NoDup (map fst a).

Lemma lookup_inj k n k2 n2 i i1 i2 : In ((k, n), i1) ta -> In ((k2, n2), i2) ta ->
  lookup keqb (k, n) ta = Some i -> lookup keqb (k2, n2) ta = Some i -> (k, n) = (k2, n2).
Proof.
  destruct E as (E1&E2&E3&E4). intros Hx Hy L1 L2.
  apply (lookup_spec keqb) in L1 as (l1&k'&l2&El&F1&C1), L2 as (m1&k3&m2&Em&F3&C4); auto.
  destruct (position_unique a l1 l2 m1 m2 i k' k3 Da El Em) as (->&->&->).
  assert (keqb k k2 = true) by eauto.
  assert (n = n2) by (rewrite <- C1, <- C4; now apply (count_eqb keqb)).
  assert (X : ((k, n), i1) = ((k2, n2), i2)).
  { apply (proj2 (tag_nodup keqb E1 E2 E3 a [])); auto. apply teqb_true. auto. }
  now inversion X.
Qed.

Lemma prs_nodup : NoDup (prs ta tb (common ta tb)).
Proof.
  destruct E as (E1&E2&E3&E4). unfold prs. apply flat_nodup.
  - apply filter_NoDup. now apply tag_nodup.
  - intros x _. destruct (lookup keqb x ta); [|constructor]. destruct (lookup keqb x tb); repeat constructor; auto.
  - intros [k n] [k2 n2] [i j] Hx Hy H1 H2.
    apply filter_In in Hx as [Hx _], Hy as [Hy _].
    apply in_map_iff in Hx as ([x1 i1]&Ex&Hx), Hy as ([x2 i2]&Ey&Hy). cbn in Ex, Ey. subst x1 x2.
    destruct (lookup keqb (k, n) ta) as [u|] eqn:L1; [|destruct H1].
    destruct (lookup keqb (k, n) tb) as [u'|]; [|destruct H1]. destruct H1 as [H1|[]]. inversion H1; subst.
    destruct (lookup keqb (k2, n2) ta) as [u|] eqn:L2; [|destruct H2].
    destruct (lookup keqb (k2, n2) tb) as [u'|]; [|destruct H2]. destruct H2 as [H2|[]]. inversion H2; subst.
    eapply lookup_inj; eauto.
Qed.
End Fix.

Definition flip {X Y} (p : X * Y) : Y * X := (snd p, fst p).

Lemma paired_sym (a b : list (I * K)) i j : paired keqb a b i j -> paired keqb b a j i.
Proof.
  destruct E as (E1&E2&E3&E4). intros (k&k'&l1&l2&m1&m2&Ea&Eb&Ek&Ec). exists k', k, m1, m2, l1, l2. repeat split; auto.
  rewrite <- !(count_eqb keqb E2 E3 k k') by auto. auto.
Qed.

Lemma prs_flip (a b : list (I * K)) : NoDup (map fst a) -> NoDup (map fst b) ->
  let ta := tag keqb [] a in let tb := tag keqb [] b in
  Permutation (prs tb ta (common tb ta)) (map flip (prs ta tb (common ta tb))).
Proof.
  intros Da Db ta tb. subst ta tb. apply NoDup_Permutation.
  - now apply prs_nodup.
  - apply FinFun.Injective_map_NoDup; [|now apply prs_nodup].
    intros [x y] [u v] H. inversion H; auto.
  - intros [i j]. rewrite in_map_iff, prs_in. split.
    + intros H. exists (j, i). split; auto. apply prs_in. now apply paired_sym.
    + intros ([i' j']&H&I'). inversion H; subst. apply prs_in in I'. now apply paired_sym.
Qed.
End Pairs.

(** ** Entries with base and other exchanged *)
Definition swap_type (d : dtype) : dtype :=
  match d with Added => Removed | Removed => Added | d => d end.
Definition swap (e : dentry) : dentry := (swap_type (fst (fst e)), snd e, snd (fst e)).

Lemma swap_swap e : swap (swap e) = e.
Proof. destruct e as [[[] x] y]; reflexivity. Qed.

Lemma concatM_perm {X Y} (f : X -> res (list Y)) l l' : Permutation l l' ->
  forall r, concatM f l = Ok r -> exists r', concatM f l' = Ok r' /\ Permutation r' r.
Proof.
  induction 1 as [|x l l' _ IH|x y l|l1 l2 l3 _ IH1 _ IH2]; intros r H.
  - exists r. auto.
  - cbn [concatM] in *. apply bind_ok in H as (u&Hu&H). apply bind_ok in H as (v&Hv&H). inversion H; subst.
    destruct (IH v Hv) as (v'&Hv'&P). exists (u ++ v'). rewrite Hu, Hv'. split; auto. now apply Permutation_app_head.
  - cbn [concatM] in *. apply bind_ok in H as (u&Hu&H). apply bind_ok in H as (v&Hv&H).
    apply bind_ok in Hv as (w&Hw&Hv). apply bind_ok in Hv as (z&Hz&Hv). inversion H; inversion Hv; subst.
    exists (w ++ u ++ z). rewrite Hu, Hw. cbn. rewrite Hz. cbn. split; auto.
    rewrite !app_assoc. apply Permutation_app_tail, Permutation_app_comm.
  - destruct (IH1 r H) as (r2&H2&P2). destruct (IH2 r2 H2) as (r3&H3&P3). exists r3. split; auto. now rewrite P3.
Qed.

Lemma concatM_swap {X Y} (f : X -> res (list dentry)) (g : Y -> res (list dentry)) (h : X -> Y) l l' r :
  Permutation l' (map h l) -> concatM f l = Ok r ->
  (forall x u, In x l -> f x = Ok u -> exists v, g (h x) = Ok v /\ Permutation v (map swap u)) ->
  exists r', concatM g l' = Ok r' /\ Permutation r' (map swap r).
Proof.
  intros P H S.
  assert (G : exists r', concatM g (map h l) = Ok r' /\ Permutation r' (map swap r)).
  { clear P. revert r H S. induction l as [|x t IH]; cbn [concatM map]; intros r H S.
    - inversion H; subst. exists []. auto.
    - apply bind_ok in H as (u&Hu&H). apply bind_ok in H as (v&Hv&H). inversion H; subst.
      destruct (S x u) as (u'&Hu'&Pu); auto using in_eq.
      destruct (IH v Hv) as (v'&Hv'&Pv); auto using in_cons.
      exists (u' ++ v'). rewrite Hu', Hv'. split; auto. rewrite map_app. now apply Permutation_app. }
  destruct G as (r1&H1&P1). destruct (concatM_perm g _ _ (Permutation_sym P) r1 H1) as (r2&H2&P2).
  exists r2. split; auto. now rewrite P2.
Qed.

Lemma concatM_flat {X Y Z} (f : X -> res (list Z)) (g : Y -> res (list Z)) (h : X -> list Y) l :
  (forall x, In x l -> exists y, h x = [y] /\ f x = g y) -> concatM f l = concatM g (flat_map h l).
Proof.
  induction l as [|x t IH]; intros H; cbn [concatM flat_map]; auto.
  destruct (H x) as (y&Hy&Hf); auto using in_eq. rewrite Hy, Hf, IH by auto using in_cons. reflexivity.
Qed.

(** ** Values as Python has them *)
Section Wf.
Context {A C : Type}.
Variable W : classes A C.
Notation val := (val A C).

(** The keys of a dict are distinct; the items of a collection of records are records. *)
Inductive wfv : val -> Prop :=
| wf_nothing : wfv VNothing
| wf_none : wfv VNone
| wf_text s : wfv (VText s)
| wf_atom a : wfv (VAtom a)
| wf_seq t l : (forall v, In v l -> wfv v) -> wfv (VSeq t l)
| wf_map l : NoDup (map fst l) -> (forall k v, In (k, v) l -> wfv v) -> wfv (VMap l)
| wf_rec c sl : (forall k v, In (k, v) sl -> wfv v) -> wfv (VRec c sl)
| wf_lc c sl l : (forall k v, In (k, v) sl -> wfv v) -> (forall v, In v l -> wfv v) ->
    (forall d v, ValModel.item W c = IRec d -> In v l -> class_of v <> None) -> wfv (VLC c sl l)
| wf_dc c sl l : (forall k v, In (k, v) sl -> wfv v) -> NoDup (map fst l) -> (forall k v, In (k, v) l -> wfv v) ->
    (forall d k v, ValModel.item W c = IRec d -> In (k, v) l -> class_of v <> None) -> wfv (VDC c sl l).

(** compare_as yields such values, given such. *)
Definition keeps_wf : Prop := forall c p f o v,
  In p (props W c) -> p_compare_as p = Some f -> wfv o -> wfv v -> wfv (f o v).

Lemma number_fst {X} (l : list X) : map fst (number l) = map (fun n => EInt (Z.of_nat n)) (seq 0 (length l)).
Proof.
  unfold number. generalize 0. induction l as [|x t IH]; intros n; cbn; auto. f_equal. apply IH.
Qed.
Lemma number_nodup {X} (l : list X) : NoDup (map fst (number l)).
Proof.
  rewrite number_fst. apply FinFun.Injective_map_NoDup; [|apply seq_NoDup].
  intros x y H. inversion H. lia.
Qed.
Lemma number_in {X} (l : list X) k x : In (k, x) (number l) -> In x l.
Proof. unfold number. intros H. now apply in_combine_r in H. Qed.

Lemma wf_slot v n u : wfv v -> slot v n = Some u -> wfv u.
Proof.
  intros H S. destruct H; cbn [slot] in S; try discriminate;
    apply sget_in in S; eauto.
Qed.

Variable a_items : A -> res (list (elem * val)).
Hypothesis items_ok : forall a l, a_items a = Ok l -> NoDup (map fst l) /\ forall k v, In (k, v) l -> wfv v.

Lemma gen_nodup v g : wfv v -> generator a_items v = Ok g -> NoDup (map fst g).
Proof.
  intros H G. destruct H; cbn [generator] in G; try discriminate;
    try (inversion G; subst); try apply number_nodup; auto.
  - constructor.
  - eapply items_ok, G.
Qed.

Lemma gen_wf v g k u : wfv v -> generator a_items v = Ok g -> In (k, u) g -> wfv u.
Proof.
  intros H G I. destruct H; cbn [generator] in G; try discriminate;
    try (inversion G; subst); try (apply number_in in I); eauto.
  - destruct I.
  - apply in_map_iff in I as (x&<-&_). constructor.
  - destruct (items_ok _ _ G). eauto.
Qed.

Lemma gen_rec v c d g k u : wfv v -> tuples v <> None -> class_of v = Some c -> ValModel.item W c = IRec d ->
  generator a_items v = Ok g -> In (k, u) g -> class_of u <> None.
Proof.
  intros H T Ec Ei G I. destruct H; cbn in T, Ec, G; try congruence; inversion Ec; inversion G; subst.
  - apply number_in in I. eauto.
  - eauto.
Qed.
End Wf.

Section Swap.
Context {A C : Type}.
Variable W : classes A C.
Variable ceqb : C -> C -> bool.
Notation val := (val A C).
Variable veqb : val -> val -> bool.
Variable hashable : val -> bool.
Variable repr : val -> str.
Variable a_hash a_falsy : A -> bool.
Variable a_items : A -> res (list (elem * val)).
Variable opt : options.
Variable record_id : rtype C -> option mfs -> val -> res val.
Variables o1 o2 : list elem -> list elem -> dorders (A := A) (C := C).

Hypothesis ok1 : forall fa fb, orders_ok (o1 fa fb).
Hypothesis ok2 : forall fa fb, orders_ok (o2 fa fb).
Hypothesis vrefl : forall v, veqb v v = true.
Hypothesis vsym : forall u v, veqb u v = true -> veqb v u = true.
Hypothesis vtrans : forall u v w, veqb u v = true -> veqb v w = true -> veqb u w = true.
Hypothesis ceq : forall c d, ceqb c d = true <-> c = d.
Hypothesis items_ok : forall a l, a_items a = Ok l -> NoDup (map fst l) /\ forall k v, In (k, v) l -> wfv W v.
Hypothesis keeps : keeps_wf W.
Hypothesis no_duck : o_duck opt = false.
(** Two iterations over sets with the same history give the same order; the truth of equal
    values is the same. *)
Hypothesis fuzzy_ok : o_fuzzy opt = true ->
  (forall u v, veqb u v = true -> v_falsy a_falsy u = v_falsy a_falsy v) /\
  forall fa fb xs, so_fuzzy_a (o2 fb fa) xs = so_fuzzy_b (o1 fa fb) xs /\ so_fuzzy_b (o2 fb fa) xs = so_fuzzy_a (o1 fa fb) xs.
Hypothesis filter_ok : forall m, o_filter opt = Some m -> wf m.

Notation dispatch o := (dispatch W ceqb veqb hashable repr a_hash a_falsy a_items opt record_id o).
Notation diff o := (diff W ceqb veqb hashable repr a_hash a_falsy a_items opt record_id o).
Notation records_iter o := (records_iter veqb hashable a_falsy a_items opt record_id o).
Notation list_iter o := (list_iter W veqb hashable repr a_hash a_items opt o).
Notation collection_iter o := (collection_iter W veqb hashable repr a_hash a_falsy a_items opt record_id o).
Notation record_iter := (record_iter W ceqb veqb opt).
Notation slot_diff := (slot_diff ceqb veqb opt).
Notation wfv := (wfv W).

Definition swapped (l l' : list dentry) : Prop := Permutation l' (map swap l).

Lemma swapped_nil : swapped [] [].
Proof. constructor. Qed.
Lemma swapped_app l l' m m' : swapped l l' -> swapped m m' -> swapped (l ++ m) (l' ++ m').
Proof. unfold swapped. rewrite map_app. apply Permutation_app. Qed.

(** *** equality of keys *)
Lemma veq_equalities : equalities veqb elem_eqb.
Proof. repeat split; auto; apply elem_eqb_iff. Qed.

Lemma kveqb_sym : forall x y, kveqb veqb x y = true -> kveqb veqb y x = true.
Proof.
  fix IH 1. intros [v|l] [w|m]; cbn [kveqb]; try discriminate; auto.
  revert m. induction l as [|x l IHl]; intros [|y m]; auto.
  rewrite !andb_true_iff. intros [H1 H2]. split; auto.
Qed.
Lemma kveqb_trans : forall x y z, kveqb veqb x y = true -> kveqb veqb y z = true -> kveqb veqb x z = true.
Proof.
  fix IH 1. intros [v|l] [w|m] [u|n]; cbn [kveqb]; try discriminate; eauto.
  revert m n. induction l as [|x l IHl]; intros [|y m] [|z n]; auto; try discriminate.
  rewrite !andb_true_iff. intros [H1 H2] [H3 H4]. split; eauto.
Qed.
Lemma key_equalities : equalities (keqb veqb) elem_eqb.
Proof.
  repeat split; try apply elem_eqb_iff.
  - intros x. now apply pkeqb_refl.
  - intros x y. unfold keqb, pkeqb. apply kveqb_sym.
  - intros x y z. unfold keqb, pkeqb. apply kveqb_trans.
Qed.

(** *** keys of the items *)
Lemma item_keys_sub coll l : forall r, item_keys W hashable repr a_hash opt coll l = Ok r -> forall k, In k (map fst r) -> In k (map fst l).
Proof.
  induction l as [|[k v] t IH]; cbn [item_keys]; intros r H x I.
  - inversion H; subst. destruct I.
  - apply bind_ok in H as (i&_&H). apply bind_ok in H as (r'&Hr&H). cbn [map fst].
    destruct i; inversion H; subst; [destruct I as [I|I]; [now left|]|]; right; eauto.
Qed.
Lemma item_keys_nodup coll l : forall r, item_keys W hashable repr a_hash opt coll l = Ok r -> NoDup (map fst l) -> NoDup (map fst r).
Proof.
  induction l as [|[k v] t IH]; cbn [item_keys]; intros r H D.
  - inversion H; subst. constructor.
  - apply bind_ok in H as (i&_&H). apply bind_ok in H as (r'&Hr&H). cbn [map fst] in D. inversion D as [|? ? Dk Dt].
    destruct i; inversion H; subst; cbn [map fst]; eauto. constructor; eauto. intros Hk. apply Dk. eapply item_keys_sub; eauto.
Qed.

Lemma id_keys_sub d sel fa l : forall r, id_keys hashable opt record_id d sel fa l = Ok r -> forall k, In k (map fst r) -> In k (map fst l).
Proof.
  induction l as [|[k v] t IH]; cbn [id_keys]; intros r H x I.
  - inversion H; subst. destruct I.
  - cbn [map fst]. destruct (match sel with Some (inl _) => _ | _ => _ end); [right; eauto|].
    apply bind_ok in H as (i&_&H). destruct (_ && _); [right; eauto|]. destruct (negb _); [discriminate|].
    destruct (key_of i); [discriminate|]. apply bind_ok in H as (r'&Hr&H). inversion H; subst.
    destruct I as [I|I]; [now left|right; eauto].
Qed.
Lemma id_keys_nodup d sel fa l : forall r, id_keys hashable opt record_id d sel fa l = Ok r -> NoDup (map fst l) -> NoDup (map fst r).
Proof.
  induction l as [|[k v] t IH]; cbn [id_keys]; intros r H D.
  - inversion H; subst. constructor.
  - cbn [map fst] in D. inversion D as [|? ? Dk Dt]. destruct (match sel with Some (inl _) => _ | _ => _ end); eauto.
    apply bind_ok in H as (i&_&H). destruct (_ && _); eauto. destruct (negb _); [discriminate|].
    destruct (key_of i); [discriminate|]. apply bind_ok in H as (r'&Hr&H). inversion H; subst.
    cbn [map fst]. constructor; eauto. intros Hk. apply Dk. eapply id_keys_sub; eauto.
Qed.
(** *** the filter: what matters about a place is what is selected below it *)
Definition fsame (fa fb : list elem) : Prop := forall m, o_filter opt = Some m -> getitem_path m fa = getitem_path m fb.

Lemma fsame_sym fa fb : fsame fa fb -> fsame fb fa.
Proof. intros F m E. symmetry. now apply F. Qed.

Lemma getitem_path_step m : forall p q, getitem_path m (p ++ q) = match getitem_path m p with Some m' => getitem_path m' q | None => None end.
Proof.
  assert (Cm : forall m q, complete m = true -> getitem_path m q = Some m) by (intros m' [|x q] H; cbn [getitem_path]; now rewrite H).
  intros p. revert m. induction p as [|x p IH]; intros m q.
  - cbn [app]. cbn [getitem_path]. now destruct (complete m).
  - cbn [app getitem_path]. destruct (complete m) eqn:E; [now rewrite Cm|].
    destruct (hget _ (heads m)) as [[m'|]|]; [|now rewrite Cm|reflexivity].
    destruct p as [|y p]; [|apply IH]. cbn [app]. destruct q; [|reflexivity]. cbn [getitem_path]. now destruct (complete m').
Qed.

Lemma fsame_step fa fb k : fsame fa fb -> fsame (fa ++ [k]) (fb ++ [k]).
Proof. intros F m E. rewrite !getitem_path_step. now rewrite (F m E). Qed.

Lemma selector_at fa m : o_filter opt = Some m ->
  id_selector opt fa = (if sel_true (Some m) then
        match getitem_path m fa with
        | None => Err AttrErr
        | Some cf =>
            if negb (has_none cf) then Ok (Some (inl cf))
            else if complete cf then Ok (Some (inr (Some cf)))
            else if Nat.ltb 1 (length (heads cf)) then Err AssertErr
            else Ok (Some (inr (getitem cf ENone)))
        end
      else Ok None).
Proof.
  intros E. unfold id_selector. rewrite E.
  replace (match fa with [] => Some m | _ :: _ => getitem_path m fa end) with (getitem_path m fa); auto.
  destruct fa; auto. cbn [getitem_path]. now destruct (complete m).
Qed.
Lemma selector_place fa fb : fsame fa fb -> id_selector opt fa = id_selector opt fb.
Proof.
  intros F. destruct (o_filter opt) as [m|] eqn:E.
  - rewrite !(selector_at _ m E). now rewrite (F m E).
  - unfold id_selector. now rewrite E.
Qed.
Lemma id_keys_place d sel fa fb l : fsame fa fb ->
  id_keys hashable opt record_id d sel fa l = id_keys hashable opt record_id d sel fb l.
Proof.
  intros F. induction l as [|[k v] t IH]; cbn [id_keys]; auto. rewrite IH.
  replace (match sel with Some (inl _) => match o_filter opt with Some m => negb (contains m (fa ++ [k])) | None => false end | _ => false end)
    with (match sel with Some (inl _) => match o_filter opt with Some m => negb (contains m (fb ++ [k])) | None => false end | _ => false end); [reflexivity|].
  destruct sel as [[c1|c2]|]; auto. destruct (o_filter opt) as [m|] eqn:E; auto.
  rewrite !(getitem_path_contains _ _ _ (filter_ok m eq_refl)). now rewrite (F m E).
Qed.
Lemma filtered_place (p : prop A C) fa fb : fsame fa fb -> is_filtered opt p fa = is_filtered opt p fb.
Proof. intros F. unfold is_filtered. destruct (o_filter opt) as [m|] eqn:E; auto. now rewrite (F m E). Qed.

(** with a selector by key, an item takes part only if it is wholly selected *)
Lemma id_keys_kept d cf fa l m : o_filter opt = Some m -> forall r, id_keys hashable opt record_id d (Some (inl cf)) fa l = Ok r ->
  forall k, In k (map fst r) -> contains m (fa ++ [k]) = true.
Proof.
  intros Em. induction l as [|[k v] t IH]; cbn [id_keys]; intros r H x I.
  - inversion H; subst. destruct I.
  - rewrite Em in H. destruct (contains m (fa ++ [k])) eqn:Cn; cbn [negb] in H; [|eauto].
    apply bind_ok in H as (i&_&H). destruct (_ && _); [eauto|]. destruct (negb _); [discriminate|].
    destruct (key_of i); [discriminate|]. apply bind_ok in H as (r'&Hr&H). inversion H; subst.
    destruct I as [<-|I]; eauto.
Qed.

Lemma below_whole m k : wf m -> has_none m = false -> contains m [k] = true -> getitem_path m [k] = Some complete_mfs.
Proof.
  intros Hw Hn H. cbn [contains getitem_path] in *. rewrite Hn in *.
  assert (Hc : complete m = false).
  { destruct (complete m) eqn:E; auto. unfold complete in E. destruct (hget ENone (heads m)) as [[|]|] eqn:G; try discriminate.
    apply hget_in in G. assert (has_none m = true); [|congruence]. apply has_none_spec. apply in_map_iff. exists (ENone, None). auto. }
  rewrite Hc. destruct (hget k (heads m)) as [o|] eqn:G; [|discriminate]. unfold getitem in H. rewrite Hc, G in H.
  destruct o as [m'|]; [|reflexivity]. f_equal.
  assert (Hw' : wf m').
  { apply (getitem_path_wf [k] m); auto. cbn [getitem_path]. now rewrite Hc, Hn, G. }
  assert (Hh : has_none m' = true).
  { unfold complete in H. destruct (hget ENone (heads m')) as [[|]|] eqn:G2; try discriminate.
    apply hget_in in G2. apply has_none_spec. apply in_map_iff. exists (ENone, None). auto. }
  destruct (wf_has_none m' Hw' Hh) as [o Ho]. destruct m' as [hs]. cbn [heads] in Ho. subst hs.
  unfold complete in H. cbn in H. destruct o; [discriminate|]. reflexivity.
Qed.

Lemma kept_same d sel fa fb la lb ra rb k j : fsame fa fb -> id_selector opt fa = Ok sel ->
  id_keys hashable opt record_id d sel fa la = Ok ra -> id_keys hashable opt record_id d sel fa lb = Ok rb ->
  In k (map fst ra) -> In j (map fst rb) -> fsame (fa ++ [k]) (fb ++ [j]).
Proof.
  intros F S Ha Hb Ik Ij m Em. rewrite !getitem_path_step. rewrite <- (F m Em).
  rewrite (selector_at _ m Em) in S. pose proof (filter_ok m Em) as Hw.
  destruct (sel_true (Some m)) eqn:T.
  2:{ assert (En : heads m = []) by (cbn in T; destruct m as [[|]]; [reflexivity|discriminate]).
      assert (Eg : forall p, getitem_path m (p) = match p with [] => Some m | _ => None end).
      { intros [|x p]; cbn [getitem_path]; unfold complete, has_none; rewrite En; reflexivity. }
      rewrite Eg. destruct fa; auto. rewrite !Eg. reflexivity. }
  destruct (getitem_path m fa) as [cf|] eqn:G; [|reflexivity].
  destruct (has_none cf) eqn:Hn; cbn [negb] in S.
  - cbn [getitem_path]. rewrite Hn. reflexivity.
  - inversion S; subst sel.
    pose proof (id_keys_kept d cf fa la m Em ra Ha k Ik) as Ck. pose proof (id_keys_kept d cf fa lb m Em rb Hb j Ij) as Cj.
    rewrite (getitem_path_contains _ _ _ Hw), G in Ck. rewrite (getitem_path_contains _ _ _ Hw), G in Cj.
    assert (Hw' : wf cf) by (eapply getitem_path_wf; eauto).
    now rewrite !below_whole.
Qed.

(** *** plain lists and dicts *)
Lemma seq_swap (o o' : orders val elem) un mo (a b : list (elem * val)) : set_orders o -> set_orders o' ->
  NoDup (map fst a) -> NoDup (map fst b) ->
  Permutation (seq_diff veqb elem_eqb o' un mo b a)
    (map (fun e => (swap_type (fst (fst e)), snd e, snd (fst e))) (seq_diff veqb elem_eqb o un mo a b)).
Proof.
  intros Ho Ho' Da Db. pose proof veq_equalities as E.
  set (sw := fun e : dtype * option elem * option elem => (swap_type (fst (fst e)), snd e, snd (fst e))).
  assert (SS : forall e, sw (sw e) = e) by (intros [[[] x] y]; reflexivity).
  apply NoDup_Permutation.
  - now apply nodup.
  - apply FinFun.Injective_map_NoDup; [|now apply nodup].
    intros x y H. rewrite <- (SS x), <- (SS y). now f_equal.
  - intros e. rewrite in_map_iff.
    assert (G : In e (seq_diff veqb elem_eqb o' un mo b a) <-> In (sw e) (seq_diff veqb elem_eqb o un mo a b)).
    { rewrite !(exact veqb elem_eqb E) by auto.
      assert (P : forall i j, paired veqb a b i j <-> paired veqb b a j i) by (split; now apply (paired_sym veqb elem_eqb)).
      destruct e as [[[] [i|]] [j|]]; cbn; try tauto.
      - rewrite P. split; intros (A1&A2&A3); repeat split; auto; intros M; symmetry; auto.
      - split; intros (->&A2&A3); auto.
      - rewrite P. split; intros (A1&A2&A3); repeat split; auto. }
    rewrite G. split.
    + intros H. exists (sw e). auto.
    + intros (x&<-&Hx). now rewrite SS.
Qed.

Lemma list_swap a b fa fb l : wfv a -> wfv b -> list_iter o1 a b fa fb = Ok l ->
  exists l', list_iter o2 b a fb fa = Ok l' /\ swapped l l'.
Proof.
  intros Wa Wb. unfold DiffModel.list_iter. rewrite no_duck. intros H.
  apply bind_ok in H as (ga&Ga&H). apply bind_ok in H as (ka&Ka&H).
  apply bind_ok in H as (gb&Gb&H). apply bind_ok in H as (kb&Kb&H).
  rewrite Ga, Gb. cbn [bind]. rewrite Ka, Kb. cbn [bind].
  eexists. split; [reflexivity|]. inversion H; subst. unfold swapped.
  assert (Da : NoDup (map fst ka)) by (eapply item_keys_nodup; [eassumption|]; exact (gen_nodup W a_items items_ok a ga Wa Ga)).
  assert (Db : NoDup (map fst kb)) by (eapply item_keys_nodup; [eassumption|]; exact (gen_nodup W a_items items_ok b gb Wb Gb)).
  rewrite (seq_swap (so_seq (o1 fa fb)) (so_seq (o2 fb fa)) (o_unchanged_ opt) (o_moved opt) ka kb
             (proj1 (ok1 fa fb)) (proj1 (ok2 fb fa)) Da Db).
  rewrite !map_map. apply Permutation_refl.
Qed.

(** *** parts *)
Lemma types_sym (u v : val) : types_match ceqb u v = types_match ceqb v u.
Proof.
  assert (S : forall c d, ceqb c d = ceqb d c).
  { intros c d. destruct (ceqb c d) eqn:X, (ceqb d c) eqn:Y; auto.
    - apply ceq in X. subst. rewrite (proj2 (ceq _ _) eq_refl) in Y. discriminate.
    - apply ceq in Y. subst. rewrite (proj2 (ceq _ _) eq_refl) in X. discriminate. }
  destruct u, v; cbn; auto. now destruct tup, tup0.
Qed.
Lemma types_class (u v : val) : types_match ceqb u v = true -> class_of u = class_of v /\ (tuples u <> None <-> tuples v <> None).
Proof. destruct u, v; cbn; try discriminate; try (intros H; apply ceq in H; subst); repeat split; congruence. Qed.

(** What is compared with what *)
Definition rel (u v : val) : Prop :=
  is_nothing u = true \/ is_nothing v = true \/ types_match ceqb u v = true \/ (class_of u <> None /\ class_of v <> None).

Lemma dt_eqb_eq x y : dt_eqb x y = true <-> x = y.
Proof. destruct x, y; cbn; split; congruence. Qed.

Lemma changes_swap l l' : swapped l l' -> Permutation (changes l') (map swap_type (changes l)).
Proof.
  intros H. unfold changes.
  assert (G : map swap_type (filter (fun d => negb (dt_eqb d NoChange)) (map dt_of l)) =
              filter (fun d => negb (dt_eqb d NoChange)) (map dt_of (map swap l))).
  { clear H. induction l as [|[[d x] y] t IH]; cbn [map filter fst swap]; auto.
    destruct d; cbn [dt_of swap_type dt_eqb negb map fst]; rewrite IH; reflexivity. }
  rewrite G. clear G.
  assert (P : Permutation (map dt_of l') (map dt_of (map swap l))) by now apply Permutation_map.
  revert P. generalize (map dt_of l') (map dt_of (map swap l)).
  intros x y P. induction P; cbn [filter]; auto.
  - destruct (negb _); auto.
  - destruct (negb (dt_eqb y NoChange)), (negb (dt_eqb x NoChange)); auto. constructor.
  - eapply Permutation_trans; eauto.
Qed.

Section Step.
Variables r1 r2 : val -> val -> list elem -> list elem -> res (list dentry).
Hypothesis IH : forall a b fa fb l, fsame fa fb -> rel a b -> wfv a -> wfv b -> r1 a b fa fb = Ok l ->
  exists l', r2 b a fb fa = Ok l' /\ swapped l l'.

Lemma normalize_wf v p o c : In p (props W c) -> wfv o -> wfv v -> wfv (normalize_slot opt v p o).
Proof.
  intros I Wo Wv. unfold normalize_slot.
  set (u := match p_compare_as p with Some f => _ | None => _ end).
  assert (Wu : wfv u). { subst u. destruct (p_compare_as p) eqn:Ep; auto. destruct (is_nothing v); auto. eapply keeps; eauto. }
  unfold normalize_val. destruct u; auto; destruct (_ && _); auto; constructor.
Qed.

Lemma slot_swap c a b fa fb p l : fsame fa fb -> In p (props W c) -> wfv a -> wfv b -> slot_diff r1 a b fa fb p = Ok l ->
  exists l', slot_diff r2 b a fb fa p = Ok l' /\ swapped l l'.
Proof.
  intros Fs Hp Wa Wb. unfold DiffModel.slot_diff.
  assert (Fs' := fsame_step fa fb (EStr (p_name p)) Fs). rewrite (filtered_place p (fb ++ [EStr (p_name p)]) (fa ++ [EStr (p_name p)])) by now apply fsame_sym.
  destruct (is_filtered opt p _); [intros H; inversion H; exists []; split; auto using swapped_nil|].
  assert (Wu : wfv (normalize_slot opt (match slot a (p_name p) with Some u => u | None => VNothing end) p a)).
  { eapply normalize_wf; eauto. destruct (slot a (p_name p)) eqn:S; [|constructor]. exact (wf_slot W a _ _ Wa S). }
  assert (Wv : wfv (normalize_slot opt (match slot b (p_name p) with Some u => u | None => VNothing end) p b)).
  { eapply normalize_wf; eauto. destruct (slot b (p_name p)) eqn:S; [|constructor]. exact (wf_slot W b _ _ Wb S). }
  revert Wu Wv. generalize (normalize_slot opt (match slot a (p_name p) with Some u => u | None => VNothing end) p a)
    (normalize_slot opt (match slot b (p_name p) with Some u => u | None => VNothing end) p b).
  intros u v Wu Wv. rewrite (andb_comm (is_nothing v) (is_nothing u)).
  destruct (is_nothing u && is_nothing v) eqn:Nb; [intros H; inversion H; exists []; split; auto using swapped_nil|].
  rewrite (orb_comm (comparable v) (comparable u)), (types_sym v u), (xorb_comm (is_nothing v) (is_nothing u)), no_duck, orb_false_r.
  destruct ((comparable u || comparable v) && _) eqn:Cm.
  - intros H. apply bind_ok in H as (m&Hm&H).
    assert (R : rel u v).
    { apply andb_true_iff in Cm as [_ Cm]. apply orb_true_iff in Cm as [Cm|Cm]; [right; right; now left|].
      apply andb_true_iff in Cm as [_ Cm]. revert Cm. unfold rel. destruct (is_nothing u), (is_nothing v); cbn [xorb]; auto; discriminate. }
    destruct (IH _ _ _ _ _ Fs' R Wu Wv Hm) as (m'&Hm'&P). rewrite Hm'. cbn [bind].
    destruct (xorb _ _).
    + pose proof (changes_swap _ _ P) as Pc. destruct (changes m) as [|d t] eqn:Cg.
      * apply Permutation_sym, Permutation_nil in Pc. rewrite Pc. inversion H; subst.
        eexists. split; [reflexivity|]. destruct (o_unchanged_ opt); unfold swapped; cbn; auto.
      * destruct (forallb (dt_eqb d) t) eqn:F; [|discriminate]. inversion H; subst.
        assert (All : forall x, In x (d :: t) -> x = d).
        { rewrite forallb_forall in F. intros x [<-|I]; auto. symmetry. apply dt_eqb_eq. auto. }
        assert (All' : forall x, In x (changes m') -> x = swap_type d).
        { intros x I. apply (Permutation_in _ Pc) in I. apply in_map_iff in I as (y&<-&I). f_equal. auto. }
        destruct (changes m') as [|d' t'] eqn:Cg'.
        { apply Permutation_nil in Pc. discriminate. }
        assert (d' = swap_type d) by (apply All'; now left). subst d'.
        replace (forallb (dt_eqb (swap_type d)) t') with true.
        -- eexists. split; [reflexivity|]. unfold swapped. cbn. auto.
        -- symmetry. apply forallb_forall. intros x I. apply dt_eqb_eq. symmetry. apply All'. now right.
    + inversion H; subst. eexists; split; [reflexivity|auto].
  - destruct (xorb (is_nothing u) (is_nothing v)) eqn:X.
    + intros H. inversion H; subst. eexists. split; [reflexivity|]. unfold swapped. cbn.
      destruct (is_nothing u), (is_nothing v); cbn in *; try discriminate; auto.
    + replace (veqb v u) with (veqb u v)
        by (destruct (veqb u v) eqn:Y; [symmetry; auto|]; destruct (veqb v u) eqn:Z; auto; apply vsym in Z; congruence).
      destruct (negb (veqb u v)); intros H; inversion H; subst; eexists; (split; [reflexivity|]); unfold swapped; cbn; auto.
      destruct (o_unchanged_ opt); cbn; auto.
Qed.

Lemma insert_prop_in (p : prop A C) l x : In x (insert_prop p l) -> x = p \/ In x l.
Proof.
  induction l as [|y t IHl]; cbn [insert_prop].
  - intros [<-|[]]; auto.
  - destruct (str_ltb _ _); cbn [In]; intros [<-|I]; auto. destruct (IHl I); auto.
Qed.
Lemma all_properties_in c p : In p (all_properties W c) -> In p (props W c).
Proof.
  unfold all_properties.
  assert (G : forall (l acc : list (prop A C)), In p (fold_left (fun acc p => insert_prop p acc) l acc) -> In p l \/ In p acc).
  { induction l as [|x t IHl]; cbn [fold_left]; intros acc I; auto.
    destruct (IHl _ I) as [|J]; [left; now right|]. apply insert_prop_in in J as [->|]; auto. left. now left. }
  intros I. destruct (G _ _ I) as [|[]]; auto.
Qed.

Lemma record_swap a b fa fb l : fsame fa fb -> wfv a -> wfv b -> record_iter r1 a b fa fb = Ok l ->
  exists l', record_iter r2 b a fb fa = Ok l' /\ swapped l l'.
Proof.
  intros Fs Wa Wb. unfold DiffModel.record_iter. rewrite no_duck. cbn [negb andb].
  rewrite (types_sym b a), (orb_comm (is_nothing b) (is_nothing a)).
  destruct (negb (types_match ceqb a b) && _) eqn:T; [discriminate|].
  assert (Ec : class_of (if is_nothing b then a else b) = class_of (if is_nothing a then b else a)).
  { destruct (is_nothing a) eqn:Na, (is_nothing b) eqn:Nb; auto.
    - destruct a, b; auto; discriminate.
    - cbn [orb negb] in T. rewrite andb_true_r in T. apply negb_false_iff, types_class in T. symmetry. apply T. }
  rewrite Ec. destruct (class_of (if is_nothing a then b else a)) as [c|]; [intros H|intros H; discriminate H].
  eapply (concatM_swap _ _ (fun p => p)); [|exact H|].
  - rewrite map_id. apply Permutation_refl.
  - intros p u Hp Hu. apply (slot_swap c a b fa fb p u); auto using all_properties_in.
Qed.

Definition record_items (v : val) : Prop :=
  forall g k u, generator a_items v = Ok g -> In (k, u) g -> wfv u /\ class_of u <> None.

Lemma val_at_in (g : list (elem * val)) k u : val_at g k = Ok u -> In (k, u) g.
Proof. unfold val_at. destruct (dict_get elem_eqb g k) eqn:G; [|discriminate]. intros H. inversion H; subst. now apply eget_in. Qed.

Lemma rel_items a b ga gb k j u v : record_items a -> record_items b -> generator a_items a = Ok ga -> generator a_items b = Ok gb ->
  val_at ga k = Ok u -> val_at gb j = Ok v -> rel u v /\ wfv u /\ wfv v.
Proof.
  intros Ra Rb Ga Gb Hu Hv. apply val_at_in in Hu, Hv.
  destruct (Ra _ _ _ Ga Hu), (Rb _ _ _ Gb Hv). repeat split; auto. right. right. right. auto.
Qed.

Lemma tag_snd_fst (l : list (elem * pk val)) : forall seen, map snd (tag (keqb veqb) seen l) = map fst l.
Proof. induction l as [|[i v] t IHl]; intros seen; cbn [tag map snd fst]; auto. now rewrite IHl. Qed.
Lemma tag_fst_nodup (l : list (elem * pk val)) : NoDup (map fst l) -> NoDup (map snd (tag (keqb veqb) [] l)).
Proof.
  now rewrite tag_snd_fst.
Qed.

Lemma tagged_set (l : list (elem * pk val)) : is_set veqb (map fst (tag (keqb veqb) [] l)).
Proof.
  destruct key_equalities as (E1&E2&E3&_). destruct (tag_nodup (keqb veqb) E1 E2 E3 l []) as [D U]. split; auto.
  intros x y H1 H2 H. apply in_map_iff in H1 as (p&<-&H1), H2 as (q&<-&H2). now rewrite (U p q).
Qed.
Lemma set_filter f (l : list (pk val * nat)) : is_set veqb l -> is_set veqb (filter f l).
Proof.
  intros [D U]. split; [now apply filter_NoDup|]. intros x y Hx Hy. apply filter_In in Hx as [Hx _], Hy as [Hy _]. now apply U.
Qed.
Lemma set_perm (l m : list (pk val * nat)) : Permutation m l -> is_set veqb l -> is_set veqb m.
Proof.
  intros P [D U]. split; [eapply Permutation_NoDup; [apply Permutation_sym, P|exact D]|].
  intros x y Hx Hy. apply U; eapply Permutation_in; eauto.
Qed.

Lemma emem_in k l : emem k l = true <-> In k l.
Proof.
  unfold emem. rewrite existsb_exists. split.
  - intros (x&I&H). apply elem_eqb_iff in H. now subst.
  - intros I. exists k. split; auto. now apply elem_eqb_iff.
Qed.

Lemma shared_perm sa sb : NoDup sa -> NoDup sb ->
  Permutation (filter (fun k => emem k sa) sb) (filter (fun k => emem k sb) sa).
Proof.
  intros Da Db. apply NoDup_Permutation; try now apply filter_NoDup.
  intros k. rewrite !filter_In, !emem_in. tauto.
Qed.

Lemma key_at_ok ta x k : key_at veqb ta x = Ok k <-> lookup (keqb veqb) x ta = Some k.
Proof. unfold key_at. destruct (lookup (keqb veqb) x ta); split; congruence. Qed.

Lemma key_at_in ta x k : key_at veqb ta x = Ok k -> In k (map snd ta).
Proof.
  intros H. apply key_at_ok in H. apply lookup_in in H as (y&H&_). apply in_map_iff. exists (y, k). auto.
Qed.
Lemma elem_sym i j : elem_eqb i j = elem_eqb j i.
Proof.
  destruct (elem_eqb i j) eqn:X, (elem_eqb j i) eqn:Y; auto; [apply elem_eqb_iff in X|apply elem_eqb_iff in Y]; subst;
    rewrite (proj2 (elem_eqb_iff _ _) eq_refl) in *; discriminate.
Qed.
Lemma kmem_perm x l m : Permutation l m -> kmem veqb x l = kmem veqb x m.
Proof.
  intros P. unfold kmem, tmem. destruct (existsb _ l) eqn:X, (existsb _ m) eqn:Y; auto.
  - apply existsb_exists in X as (y&I&H). assert (Z : existsb (teqb (keqb veqb) x) m = true) by (apply existsb_exists; exists y; split; auto; eapply Permutation_in; eauto). congruence.
  - apply existsb_exists in Y as (y&I&H). assert (Z : existsb (teqb (keqb veqb) x) l = true) by (apply existsb_exists; exists y; split; auto; eapply Permutation_in; [apply Permutation_sym|]; eauto). congruence.
Qed.

Lemma map_swap_removed {X} (f g : X -> list elem) l : map swap (map (fun k => (Removed, f k, g k)) l) = map (fun k => (Added, g k, f k)) l.
Proof. rewrite map_map. reflexivity. Qed.
Lemma map_swap_added {X} (f g : X -> list elem) l : map swap (map (fun k => (Added, f k, g k)) l) = map (fun k => (Removed, g k, f k)) l.
Proof. rewrite map_map. reflexivity. Qed.

Lemma nil_concat {X Y} (f : X -> res (list Y)) r : concatM f [] = Ok r -> r = [].
Proof. cbn. intros H. now inversion H. Qed.

Lemma records_swap d a b fa fb l : fsame fa fb -> record_items a -> record_items b -> wfv a -> wfv b ->
  is_nothing a && is_nothing b = false ->
  records_iter o1 r1 d a b fa fb = Ok l -> exists l', records_iter o2 r2 d b a fb fa = Ok l' /\ swapped l l'.
Proof.
  intros Fs Ra Rb Wa Wb Nb. unfold DiffModel.records_iter. rewrite (selector_place fb fa) by now apply fsame_sym.
  intros H. apply bind_ok in H as (sel&Hs&H). rewrite Hs. cbn [bind].
  destruct (match sel with Some (inr s) => negb (sel_true s) | _ => false end);
    [inversion H; subst; exists []; split; auto using swapped_nil|].
  apply bind_ok in H as (ga&Ga&H). apply bind_ok in H as (ia&Ia&H).
  apply bind_ok in H as (gb&Gb&H). apply bind_ok in H as (ib&Ib&H).
  rewrite Ga, Gb. cbn [bind]. rewrite (id_keys_place d sel fb fa), Ib by now apply fsame_sym. cbn [bind].
  rewrite (id_keys_place d sel fb fa), Ia by now apply fsame_sym. cbn [bind].
  assert (Da : NoDup (map fst ia)) by (eapply id_keys_nodup; [eassumption|]; exact (gen_nodup W a_items items_ok a ga Wa Ga)).
  assert (Db : NoDup (map fst ib)) by (eapply id_keys_nodup; [eassumption|]; exact (gen_nodup W a_items items_ok b gb Wb Gb)).
  pose proof (fun k j => kept_same d sel fa fb ga gb ia ib k j Fs Hs Ia Ib) as Kept.
  assert (Ma : map snd (tag (keqb veqb) [] ia) = map fst ia) by apply tag_snd_fst.
  assert (Mb : map snd (tag (keqb veqb) [] ib) = map fst ib) by apply tag_snd_fst.
  rewrite <- Ma, <- Mb in Kept. clear Ma Mb.
  assert (Ua := tagged_set ia). assert (Ub := tagged_set ib).
  destruct (ok1 fa fb) as (_&Pk&Pc&Pfa&Pfb&Pu&Pr&Pa). destruct (ok2 fb fa) as (_&Qk&Qc&_&_&Qu&Qr&Qa).
  pose proof (prs_flip _ _ key_equalities ia ib Da Db) as Fl.
  pose proof (common_total _ _ key_equalities ia ib) as Tab.
  pose proof (common_total _ _ key_equalities ib ia) as Tba.
  cbv zeta in Fl. pose proof (tag_fst_nodup ia Da) as Ka. pose proof (tag_fst_nodup ib Db) as Kb.
  set (ta := tag (keqb veqb) [] ia) in *. set (tb := tag (keqb veqb) [] ib) in *. clearbody ta tb.
  destruct (o_recurse opt).
  - apply bind_ok in H as (m&Hm&H). inversion H; subst l. clear H.
    assert (G : exists m', concatM (fun k => do x <- val_at gb k; do y <- val_at ga k; r2 x y (fb ++ [k]) (fa ++ [k]))
                 (so_keys (o2 fb fa) (filter (fun k => emem k (map snd ta)) (map snd tb))) = Ok m' /\ swapped m m').
    { eapply (concatM_swap _ _ (fun k => k)); [|exact Hm|].
      - rewrite map_id, Pk, Qk. now apply shared_perm.
      - intros k u _ Hu. cbv beta in Hu. apply bind_ok in Hu as (x&Hx&Hu). apply bind_ok in Hu as (y&Hy&Hu).
        rewrite Hx, Hy. cbn [bind]. destruct (rel_items a b ga gb k k x y) as (R1&R2&R3); auto. eapply IH; eauto using fsame_step. }
    destruct G as (m'&Hm'&Sm). rewrite Hm'. cbn [bind]. eexists. split; [reflexivity|].
    apply swapped_app; auto. unfold swapped.
    rewrite !map_app, map_swap_removed, map_swap_added.
    rewrite Permutation_app_comm. apply Permutation_app; apply Permutation_map; now rewrite Pk, Qk.
  - rewrite (orb_comm (is_nothing b) (is_nothing a)). set (force := is_nothing a || is_nothing b) in *.
    set (removed := filter (fun x => negb (kmem veqb x (map fst tb))) (map fst ta)) in *.
    set (added := filter (fun x => negb (kmem veqb x (map fst ta))) (map fst tb)) in *.
    set (pairs := if negb force && o_fuzzy opt then fuzzy_match veqb (v_falsy a_falsy) (so_fuzzy_a (o1 fa fb) removed) (so_fuzzy_b (o1 fa fb) added) else []) in *.
    set (pairs' := if negb force && o_fuzzy opt then fuzzy_match veqb (v_falsy a_falsy) (so_fuzzy_a (o2 fb fa) added) (so_fuzzy_b (o2 fb fa) removed) else []).
    assert (PP : Permutation pairs' (map flip pairs)).
    { subst pairs pairs'. destruct (negb force && o_fuzzy opt) eqn:Eo; [|constructor]. apply andb_true_iff in Eo as [_ Eo].
      destruct (fuzzy_ok Eo) as [Fa Fo]. rewrite (proj1 (Fo fa fb added)), (proj2 (Fo fa fb removed)).
      apply (fuzzy_flip veqb (v_falsy a_falsy)).
      - repeat split; auto.
      - eapply set_perm; [apply Pfa|]. now apply set_filter.
      - eapply set_perm; [apply Pfb|]. now apply set_filter. }
    clearbody pairs pairs'.
    apply bind_ok in H as (l1&H1&H). apply bind_ok in H as (l2&H2&H).
    apply bind_ok in H as (l3&H3&H). apply bind_ok in H as (l4&H4&H). apply bind_ok in H as (l5&H5&H).
    inversion H; subst l. clear H.
    assert (Pm : forall x, kmem veqb x (map snd pairs') = kmem veqb x (map fst pairs)).
    { intros x. apply kmem_perm. rewrite (Permutation_map snd PP), map_map. apply Permutation_refl. }
    assert (Pm' : forall x, kmem veqb x (map fst pairs') = kmem veqb x (map snd pairs)).
    { intros x. apply kmem_perm. rewrite (Permutation_map fst PP), map_map. apply Permutation_refl. }
    rewrite (filter_ext _ (fun x => negb (kmem veqb x (map snd pairs)))) with (l := added) by (intros x; now rewrite Pm').
    rewrite (filter_ext _ (fun x => negb (kmem veqb x (map fst pairs)))) with (l := removed) by (intros x; now rewrite Pm).
    assert (G2 : exists l2', concatM (fun xy =>
               do k <- key_at veqb tb (fst xy); do u <- val_at gb k;
               do j <- key_at veqb ta (snd xy); do v <- val_at ga j;
               do l <- r2 u v (fb ++ [k]) (fa ++ [j]);
               Ok (l ++ (if o_moved opt && negb (elem_eqb k j) then [(Moved, fb ++ [k], fa ++ [j])]
                         else if o_unchanged_ opt && match changes l with [] => true | _ => false end
                              then [(NoChange, fb ++ [k], fa ++ [j])] else []))) pairs' = Ok l2' /\ swapped l2 l2').
    { eapply (concatM_swap _ _ flip); [exact PP|exact H2|].
      intros [x y] u _ Hu. cbn [fst snd flip] in *.
      apply bind_ok in Hu as (k&Hk&Hu). apply bind_ok in Hu as (xv&Hx&Hu). apply bind_ok in Hu as (j&Hj&Hu).
      apply bind_ok in Hu as (yv&Hy&Hu). apply bind_ok in Hu as (m&Hm&Hu). inversion Hu; subst u. clear Hu.
      rewrite Hj. cbn [bind]. rewrite Hy. cbn [bind]. rewrite Hk. cbn [bind]. rewrite Hx. cbn [bind].
      destruct (rel_items a b ga gb k j xv yv) as (R1&R2&R3); auto.
      destruct (IH xv yv (fa ++ [k]) (fb ++ [j]) m) as (m'&Hm'&Sm); auto.
      { apply Kept; eapply key_at_in; eauto. }
      rewrite Hm'. cbn [bind]. eexists. split; [reflexivity|]. apply swapped_app; auto.
      rewrite (elem_sym j k). pose proof (changes_swap _ _ Sm) as Pch. unfold swapped.
      destruct (o_moved opt && negb (elem_eqb k j)); [apply Permutation_refl|].
      destruct (o_unchanged_ opt); [|apply Permutation_refl]. cbn [andb].
      destruct (changes m), (changes m'); try apply Permutation_refl.
      - apply Permutation_sym, Permutation_nil in Pch. discriminate.
      - apply Permutation_nil in Pch. discriminate. }
    (* what is done with pairs *)
    assert (Com : forall (f g : pk val * nat -> res (list dentry)) (F G : elem * elem -> res (list dentry)) p q m,
       (forall xs, Permutation (p xs) xs) -> (forall xs, Permutation (q xs) xs) ->
       (forall x i j, lookup (keqb veqb) x ta = Some i -> lookup (keqb veqb) x tb = Some j -> f x = F (i, j) /\ g x = G (j, i)) ->
       (forall i j u, In i (map snd ta) -> In j (map snd tb) -> F (i, j) = Ok u -> exists v, G (j, i) = Ok v /\ swapped u v) ->
       concatM f (p (filter (fun x => kmem veqb x (map fst tb)) (map fst ta))) = Ok m ->
       exists m', concatM g (q (filter (fun x => kmem veqb x (map fst ta)) (map fst tb))) = Ok m' /\ swapped m m').
    { intros f g F G p q m Pp Pq Hfg HFG Hm.
      change (filter (fun x => kmem veqb x (map fst tb)) (map fst ta)) with (common (keqb veqb) ta tb) in Hm.
      change (filter (fun x => kmem veqb x (map fst ta)) (map fst tb)) with (common (keqb veqb) tb ta).
      rewrite (concatM_flat f F (fun x => match lookup (keqb veqb) x ta, lookup (keqb veqb) x tb with Some i, Some j => [(i, j)] | _, _ => [] end)) in Hm.
      2:{ intros x Hx. apply (Permutation_in _ (Pp _)) in Hx. destruct (Tab x Hx) as (i&j&Li&Lj). rewrite Li, Lj.
          exists (i, j). split; auto. now apply Hfg. }
      rewrite (concatM_flat g G (fun x => match lookup (keqb veqb) x tb, lookup (keqb veqb) x ta with Some i, Some j => [(i, j)] | _, _ => [] end)).
      2:{ intros x Hx. apply (Permutation_in _ (Pq _)) in Hx. destruct (Tba x Hx) as (j&i&Lj&Li). rewrite Li, Lj.
          exists (j, i). split; auto. now apply Hfg. }
      eapply (concatM_swap _ _ flip); [|exact Hm|].
      - transitivity (prs (keqb veqb) tb ta (common (keqb veqb) tb ta)); [apply Permutation_flat_map, Pq|].
        rewrite Fl. apply Permutation_map. apply Permutation_sym. unfold prs. apply Permutation_flat_map, Pp.
      - intros [i j] u Hij Hu. apply in_flat_map in Hij as (x&_&Hx).
        destruct (lookup (keqb veqb) x ta) as [i'|] eqn:Li; [|destruct Hx]. destruct (lookup (keqb veqb) x tb) as [j'|] eqn:Lj; [|destruct Hx].
        destruct Hx as [Hx|[]]. inversion Hx; subst. apply HFG; auto; eapply key_at_in; apply key_at_ok; eauto. }
    assert (G1 : exists l1', (if force
        then concatM (fun x => if is_nothing b then do k <- key_at veqb ta x; do y <- val_at ga k; r2 VNothing y (fb ++ [k]) (fa ++ [k])
                               else do k <- key_at veqb tb x; do y <- val_at gb k; r2 y VNothing (fb ++ [k]) (fa ++ [k]))
               (so_common (o2 fb fa) (added ++ removed))
        else concatM (fun x => do k <- key_at veqb tb x; do u <- val_at gb k; do j <- key_at veqb ta x; do v <- val_at ga j;
                               r2 u v (fb ++ [k]) (fa ++ [j]))
               (so_common (o2 fb fa) (filter (fun x => kmem veqb x (map fst ta)) (map fst tb)))) = Ok l1' /\ swapped l1 l1').
    { destruct force eqn:Ef; subst force.
      - eapply (concatM_swap _ _ (fun x => x)); [|exact H1|].
        + rewrite map_id, Pc, Qc. apply Permutation_app_comm.
        + intros x u _ Hu. cbv beta in Hu. destruct (is_nothing a) eqn:Na.
          * cbn [andb] in Nb. rewrite Nb. apply bind_ok in Hu as (k&Hk&Hu). apply bind_ok in Hu as (y&Hy&Hu).
            rewrite Hk. cbn [bind]. rewrite Hy. cbn [bind]. destruct (Rb _ _ _ Gb (val_at_in _ _ _ Hy)).
            apply (IH VNothing y); auto using fsame_step; [now left|constructor].
          * cbn [orb] in Ef. rewrite Ef. apply bind_ok in Hu as (k&Hk&Hu). apply bind_ok in Hu as (y&Hy&Hu).
            rewrite Hk. cbn [bind]. rewrite Hy. cbn [bind]. destruct (Ra _ _ _ Ga (val_at_in _ _ _ Hy)).
            apply (IH y VNothing); auto using fsame_step; [right; now left|constructor].
      - eapply (Com _ _ (fun ij => do u <- val_at ga (fst ij); do v <- val_at gb (snd ij); r1 u v (fa ++ [fst ij]) (fb ++ [snd ij]))
                  (fun ij => do u <- val_at gb (fst ij); do v <- val_at ga (snd ij); r2 u v (fb ++ [fst ij]) (fa ++ [snd ij]))
                  _ _ _ Pc Qc); [| |exact H1].
        + intros x i j Li Lj. cbv beta. apply key_at_ok in Li, Lj. rewrite Li, Lj. cbn [bind fst snd]. auto.
        + intros i j u Ii Ij Hu. cbn [fst snd] in *. apply bind_ok in Hu as (x&Hx&Hu). apply bind_ok in Hu as (y&Hy&Hu).
          rewrite Hx, Hy. cbn [bind]. destruct (rel_items a b ga gb i j x y) as (R1&R2&R3); auto; eapply IH; eauto. }
    assert (G3 : exists l3', (if o_unchanged_ opt || o_moved opt
        then concatM (fun x => do k <- key_at veqb tb x; do j <- key_at veqb ta x;
                    Ok (if o_moved opt && negb (elem_eqb k j) then [(Moved, fb ++ [k], fa ++ [j])]
                        else if o_unchanged_ opt then [(NoChange, fb ++ [k], fa ++ [j])] else []))
               (so_unchanged (o2 fb fa) (filter (fun x => kmem veqb x (map fst ta)) (map fst tb)))
        else Ok []) = Ok l3' /\ swapped l3 l3').
    { destruct (o_unchanged_ opt || o_moved opt).
      - eapply (Com _ _ (fun ij => Ok (if o_moved opt && negb (elem_eqb (fst ij) (snd ij)) then [(Moved, fa ++ [fst ij], fb ++ [snd ij])]
                        else if o_unchanged_ opt then [(NoChange, fa ++ [fst ij], fb ++ [snd ij])] else []))
                   (fun ij => Ok (if o_moved opt && negb (elem_eqb (fst ij) (snd ij)) then [(Moved, fb ++ [fst ij], fa ++ [snd ij])]
                        else if o_unchanged_ opt then [(NoChange, fb ++ [fst ij], fa ++ [snd ij])] else [])) _ _ _ Pu Qu); [| |exact H3].
        + intros x i j Li Lj. cbv beta. apply key_at_ok in Li, Lj. rewrite Li, Lj. cbn [bind fst snd]. auto.
        + intros i j u _ _ Hu. cbn [fst snd] in *. inversion Hu; subst. eexists. split; [reflexivity|].
          rewrite (elem_sym j i). unfold swapped.
          destruct (o_moved opt && negb (elem_eqb i j)); [|destruct (o_unchanged_ opt)]; apply Permutation_refl.
      - inversion H3; subst. exists []. split; auto using swapped_nil. }
    assert (G4 : exists l4', (if force then Ok []
        else concatM (fun x => do k <- key_at veqb ta x; Ok [(Added, fb, fa ++ [k])]) (so_added (o2 fb fa) (filter (fun x => negb (kmem veqb x (map fst pairs))) removed))) = Ok l4' /\ swapped l4 l4').
    { destruct force; [inversion H4; subst; exists []; split; auto using swapped_nil|].
      eapply (concatM_swap _ _ (fun x => x)); [|exact H4|].
      - rewrite map_id, Pr, Qa. apply Permutation_refl.
      - intros x u _ Hu. cbv beta in Hu. apply bind_ok in Hu as (k&Hk&Hu). rewrite Hk. inversion Hu; subst.
        eexists. split; [reflexivity|]. apply Permutation_refl. }
    assert (G5 : exists l5', (if force then Ok []
        else concatM (fun x => do k <- key_at veqb tb x; Ok [(Removed, fb ++ [k], fa)]) (so_removed (o2 fb fa) (filter (fun x => negb (kmem veqb x (map snd pairs))) added))) = Ok l5' /\ swapped l5 l5').
    { destruct force; [inversion H5; subst; exists []; split; auto using swapped_nil|].
      eapply (concatM_swap _ _ (fun x => x)); [|exact H5|].
      - rewrite map_id, Pa, Qr. apply Permutation_refl.
      - intros x u _ Hu. cbv beta in Hu. apply bind_ok in Hu as (k&Hk&Hu). rewrite Hk. inversion Hu; subst.
        eexists. split; [reflexivity|]. apply Permutation_refl. }
    destruct G1 as (l1'&E1&S1), G2 as (l2'&E2&S2), G3 as (l3'&E3&S3), G4 as (l4'&E4&S4), G5 as (l5'&E5&S5).
    rewrite E1. cbn [bind]. rewrite E2. cbn [bind]. rewrite E3. cbn [bind]. rewrite E5. cbn [bind]. rewrite E4. cbn [bind].
    eexists. split; [reflexivity|]. apply swapped_app; auto. apply swapped_app; auto. apply swapped_app; auto.
    unfold swapped in *. rewrite map_app, S4, S5. apply Permutation_app_comm.
Qed.

Lemma items_of a b c d : wfv a -> class_of (if is_nothing a then b else a) = Some c -> ValModel.item W c = IRec d ->
  (is_nothing a = false -> tuples a <> None) -> record_items a.
Proof.
  intros Wa Ec Ei T g k u G I. destruct (is_nothing a) eqn:Na.
  - destruct a; try discriminate Na. cbn in G. inversion G; subst. destruct I.
  - split; [exact (gen_wf W a_items items_ok a g k u Wa G I)|]. eapply (gen_rec W a_items a c d); eauto.
Qed.

Lemma dispatch_swap a b fa fb l : fsame fa fb -> rel a b -> wfv a -> wfv b -> dispatch o1 r1 a b fa fb = Ok l ->
  exists l', dispatch o2 r2 b a fb fa = Ok l' /\ swapped l l'.
Proof.
  intros Fs R Wa Wb H.
  (* collections *)
  assert (Coll : forall c, class_of (if is_nothing a then b else a) = Some c -> class_of (if is_nothing b then a else b) = Some c ->
     (is_nothing a = false -> tuples a <> None) -> (is_nothing b = false -> tuples b <> None) -> is_nothing a && is_nothing b = false ->
     (do l <- collection_iter o1 r1 a b fa fb; do m <- record_iter r1 a b fa fb; Ok (l ++ m)) = Ok l ->
     exists l', (do l <- collection_iter o2 r2 b a fb fa; do m <- record_iter r2 b a fb fa; Ok (l ++ m)) = Ok l' /\ swapped l l').
  { intros c Ca Cb Ta Tb Nn G. apply bind_ok in G as (x&Hx&G). apply bind_ok in G as (y&Hy&G). inversion G; subst. clear G.
    destruct (record_swap a b fa fb y Fs Wa Wb Hy) as (y'&Hy'&Sy).
    assert (X : exists x', collection_iter o2 r2 b a fb fa = Ok x' /\ swapped x x').
    { revert Hx. unfold DiffModel.collection_iter. rewrite Ca, Cb. destruct (ValModel.item W c) as [|d|] eqn:Ei; [discriminate| |].
      - apply records_swap; auto.
        + eapply items_of; eauto.
        + eapply items_of; eauto.
      - now apply list_swap. }
    destruct X as (x'&Hx'&Sx). rewrite Hx', Hy'. cbn [bind]. eexists. split; [reflexivity|]. now apply swapped_app. }
  destruct (is_nothing a) eqn:Na.
  - destruct a; try discriminate Na. destruct (is_nothing b) eqn:Nb.
    + destruct b; try discriminate Nb. cbn in *. inversion H; subst. exists []. split; auto using swapped_nil.
    + unfold DiffModel.dispatch in *. cbn [is_nothing] in H. rewrite Nb. destruct b; try discriminate Nb;
        try (inversion H; subst; exists []; split; auto using swapped_nil; fail).
      * now apply list_swap.
      * now apply list_swap.
      * now apply record_swap.
      * eapply Coll; eauto; try reflexivity; discriminate.
      * eapply Coll; eauto; try reflexivity; discriminate.
  - destruct (is_nothing b) eqn:Nb.
    + destruct b; try discriminate Nb. unfold DiffModel.dispatch in *. cbn [is_nothing]. rewrite Na in H. destruct a; try discriminate Na;
        try (inversion H; subst; exists []; split; auto using swapped_nil; fail).
      * now apply list_swap.
      * now apply list_swap.
      * now apply record_swap.
      * eapply Coll; eauto; try reflexivity; discriminate.
      * eapply Coll; eauto; try reflexivity; discriminate.
    + (* both there *)
      assert (T : types_match ceqb a b = true).
      { destruct R as [X|[X|[X|[X Y]]]]; [congruence|congruence|assumption|].
        destruct (types_match ceqb a b) eqn:T; auto. exfalso. unfold DiffModel.dispatch in H. rewrite Na in H.
        assert (F : forall r, record_iter r1 a b fa fb = Ok r -> False).
        { intros r. unfold DiffModel.record_iter. rewrite no_duck, T, Na, Nb. cbn. discriminate. }
        destruct a; try (cbn in X; congruence); try (now apply F in H);
          apply bind_ok in H as (x&_&H); apply bind_ok in H as (y&Hy&_); now apply F in Hy. }
      unfold DiffModel.dispatch in *. rewrite Na in H. rewrite Nb.
      destruct a, b; try discriminate T; try (now apply list_swap); try (now apply record_swap);
        cbn in T; apply ceq in T; subst c0; eapply Coll; eauto; try reflexivity; discriminate.
Qed.
End Step.

Lemma diff_swap n : forall a b fa fb l, fsame fa fb -> rel a b -> wfv a -> wfv b -> diff o1 n a b fa fb = Ok l ->
  exists l', diff o2 n b a fb fa = Ok l' /\ swapped l l'.
Proof.
  induction n as [|n IHn]; intros a b fa fb l Fs R Wa Wb; cbn [DiffModel.diff]; [discriminate|].
  now apply dispatch_swap.
Qed.
End Swap.
