From Coq Require Import List Arith NArith ZArith Bool Lia Permutation.
From Verif Require Import Prelude SelPathModel FSModel PySeq MFSModel ValModel EqModel EqProofs SeqDiffModel SeqDiffProofs
  SeqDiffProps FuzzyModel FuzzyProps FuzzyFlip MFSProofs DiffModel DiffProofs DiffSwap DiffTotal DiffExact DiffEntries DiffOnce DuckSpec DuckProofs BlankSpec.
Import ListNotations.

Section Blank.
Context {A C : Type}.
Variable W : classes A C.
Variable ceqb : C -> C -> bool.
Notation val := (val A C).
Notation prop := (prop A C).
Variable veqb : val -> val -> bool.
Variable hashable : val -> bool.
Variable repr : val -> str.
Variable a_hash a_falsy : A -> bool.
Variable a_items : A -> res (list (elem * val)).
Variable opt : options.
Variable record_id : rtype C -> option mfs -> val -> res val.
Variable ord : list elem -> list elem -> dorders (A := A) (C := C).

Hypothesis ord_ok : forall fa fb, orders_ok (ord fa fb).
Hypothesis vrefl : forall v, veqb v v = true.
Hypothesis vsym : forall u v, veqb u v = true -> veqb v u = true.
Hypothesis vtrans : forall u v w, veqb u v = true -> veqb v w = true -> veqb u w = true.
Hypothesis keeps : keeps_wf W.
Hypothesis opts : emptying opt.

Notation seen := (seen_full (A := A) (C := C) opt).
Notation diff := (diff W ceqb veqb hashable repr a_hash a_falsy a_items opt record_id ord).
Notation dispatch := (dispatch W ceqb veqb hashable repr a_hash a_falsy a_items opt record_id ord).
Notation records_iter := (records_iter veqb hashable a_falsy a_items opt record_id ord).
Notation list_iter := (list_iter W veqb hashable repr a_hash a_items opt ord).
Notation collection_iter := (collection_iter W veqb hashable repr a_hash a_falsy a_items opt record_id ord).
Notation record_iter := (record_iter W ceqb veqb opt).
Notation slot_diff := (slot_diff ceqb veqb opt).
Notation wfv := (wfv W).
Notation hollow := (vacant W opt).

Lemma shown_val (w : val) : normalize_val opt w = match shown opt w with Some u => u | None => VNothing end /\ forall u, shown opt w = Some u -> is_nothing u = false.
Proof.
  destruct opts as (De & _). unfold normalize_val, shown. rewrite De. cbn [andb].
  destruct w as [| |s| | | | | |]; try (split; [reflexivity|try discriminate; intros ? [= <-]; reflexivity]).
  destruct (o_text opt s); (split; [reflexivity|try discriminate; intros ? [= <-]; reflexivity]).
Qed.
Lemma not_nothing (v : val) (T : Type) (x y : T) : is_nothing v = false -> match v with VNothing => x | _ => y end = y.
Proof. now destruct v. Qed.
Lemma seen_some p o : seen p o = match slot o (p_name p) with
  | Some u => if is_nothing u then None else shown opt (match p_compare_as p with Some f => f o u | None => u end) | None => None end.
Proof. unfold seen_full. destruct (slot o (p_name p)) as [u|]; auto. now destruct u. Qed.
Lemma item_some coll x : item_shown W opt coll x =
  if is_nothing x then None else shown opt (match class_of coll with Some c => match item_as W c with Some f => f x | None => x end | None => x end).
Proof. now destruct x. Qed.
Lemma shown_slot p o : normalize_slot opt (match slot o (p_name p) with Some u => u | None => VNothing end) p o =
    match seen p o with Some u => u | None => VNothing end /\ forall u, seen p o = Some u -> is_nothing u = false.
Proof.
  rewrite seen_some. unfold normalize_slot.
  destruct (slot o (p_name p)) as [u|].
  2:{ split; [|discriminate]. destruct (p_compare_as p); cbn [is_nothing]; apply (shown_val VNothing). }
  destruct (is_nothing u) eqn:Nu.
  - destruct u; try discriminate Nu. split; [|discriminate]. destruct (p_compare_as p); apply (shown_val VNothing).
  - apply shown_val.
Qed.
Lemma shown_wf p c o u : In p (props W c) -> wfv o -> seen p o = Some u -> wfv u.
Proof.
  intros Ip Wo. rewrite seen_some. destruct (slot o (p_name p)) as [w|] eqn:S; [|discriminate].
  destruct (is_nothing w); [discriminate|].
  assert (Ww : wfv w) by (eapply wf_slot; eauto).
  assert (Wx : wfv (match p_compare_as p with Some f => f o w | None => w end)) by (destruct (p_compare_as p) eqn:Ef; [eapply keeps; eauto|auto]).
  destruct (match p_compare_as p with Some f => f o w | None => w end) as [| |s| | | | | |]; cbn; try discriminate; try (intros [= <-]; exact Wx).
  destruct (o_text opt s); [discriminate|]. intros [= <-]. constructor.
Qed.

Definition shown_keys (coll : val) : list elem := map fst (filter (fun kv => match item_shown W opt coll (snd kv) with Some _ => true | None => false end) (contents coll)).
Lemma keys_shown coll l : forall r, item_keys W hashable repr a_hash opt coll l = Ok r ->
  map fst r = map fst (filter (fun kv => match item_shown W opt coll (snd kv) with Some _ => true | None => false end) l).
Proof.
  destruct opts as (De&_).
  induction l as [|[k v] t IH]; cbn [item_keys map filter snd]; intros r H; [now injection H as <-|].
  apply bind_ok in H as (i&Hi&H). apply bind_ok in H as (r'&Hr&H). injection H as <-. specialize (IH _ Hr).
  assert (E : match i with Some _ => true | None => false end = match item_shown W opt coll v with Some _ => true | None => false end).
  { revert Hi. unfold item_key, normalize_item. rewrite item_some, De, andb_true_r.
    assert (X : (match class_of coll with Some c => match item_as W c with Some f => if is_nothing v then v else f v | None => v end | None => v end) =
      (if is_nothing v then VNothing else match class_of coll with Some c => match item_as W c with Some f => f v | None => v end | None => v end)).
    { destruct (class_of coll); [destruct (item_as W _)|]; now destruct v. }
    rewrite X. clear X.
    assert (G : forall w, (if is_nothing (if has_hash a_hash (normalize_val opt w) then normalize_val opt w else VText (repr (normalize_val opt w))) then Ok None
        else if hashable (if has_hash a_hash (normalize_val opt w) then normalize_val opt w else VText (repr (normalize_val opt w))) then
          Ok (Some (if has_hash a_hash (normalize_val opt w) then normalize_val opt w else VText (repr (normalize_val opt w)))) else Err TypeErr) = Ok i ->
        match i with Some _ => true | None => false end = match shown opt w with Some _ => true | None => false end).
    { intros w. destruct (shown_val w) as [-> N]. destruct (shown opt w) as [x|].
      - specialize (N x eq_refl). destruct (has_hash a_hash x); [rewrite N|cbn [is_nothing]];
          match goal with |- context [if ?b then _ else _] => destruct b end; try discriminate; now intros [= <-].
      - cbn. now intros [= <-]. }
    destruct (is_nothing v); [intros H; exact (G VNothing H)|apply G]. }
  destruct i as [i|], (item_shown W opt coll v); try discriminate E; cbn [map fst]; now rewrite IH.
Qed.
Lemma shown_keys_nil coll : shown_keys coll = [] <-> none_shown W opt coll.
Proof.
  unfold shown_keys, none_shown. split.
  - intros H k x I. apply map_eq_nil in H. destruct (item_shown W opt coll x) eqn:E; auto. exfalso.
    assert (In (k, x) []) as [] . rewrite <- H. apply filter_In. split; auto. cbn. now rewrite E.
  - intros H. destruct (filter _ (contents coll)) as [|[k x] r] eqn:E; auto. exfalso.
    assert (I : In (k, x) ((k, x) :: r)) by now left. rewrite <- E in I. apply filter_In in I as [I T]. cbn in T. now rewrite (H k x I) in T.
Qed.

Lemma list_one side u fa fb l : plain u \/ collection u -> list_iter (lft side u) (rgt side u) fa fb = Ok l ->
  fits side l (none_shown W opt u).
Proof.
  intros P H. unfold DiffModel.list_iter in H. rewrite (proj1 (proj2 (proj2 opts))) in H.
  assert (E := veq_equalities veqb vrefl vsym vtrans).
  apply bind_ok in H as (ga&Ga&H). apply bind_ok in H as (ka&Ka&H). apply bind_ok in H as (gb&Gb&H). apply bind_ok in H as (kb&Kb&H).
  assert (L : exists k, map fst k = shown_keys u /\ ka = (if side then k else []) /\ kb = (if side then [] else k)).
  { destruct side; cbn in Ga, Gb.
    - injection Gb as <-. cbn in Kb. injection Kb as <-. apply gen_contents in Ga; auto. subst ga. exists ka. split; [exact (keys_shown _ _ _ Ka)|auto].
    - injection Ga as <-. cbn in Ka. injection Ka as <-. apply gen_contents in Gb; auto. subst gb. exists kb. split; [exact (keys_shown _ _ _ Kb)|auto]. }
  destruct L as (k & Ek & -> & ->). clear Ka Kb Ga Gb.
  injection H as <-.
  pose proof (exact veqb elem_eqb E (so_seq (ord fa fb)) (proj1 (ord_ok fa fb)) (if side then k else []) (if side then [] else k)
    (o_unchanged_ opt) (o_moved opt)) as X.
  assert (No : forall a i, ~ surplus veqb [] (a : list (elem * val)) i) by (intros a i (x & l1 & l2 & Z & _); destruct l1; discriminate Z).
  assert (Np : forall a i j, ~ paired veqb [] (a : list (elem * val)) i j) by (intros a i j (x & y & l1 & l2 & m1 & m2 & Z & _); destruct l1; discriminate Z).
  assert (Nq : forall a i j, ~ paired veqb (a : list (elem * val)) [] i j) by (intros a i j (x & y & l1 & l2 & m1 & m2 & _ & Z & _); destruct m1; discriminate Z).
  assert (All : forall e, In e (seq_diff veqb elem_eqb (so_seq (ord fa fb)) (o_unchanged_ opt) (o_moved opt) (if side then k else []) (if side then [] else k)) ->
    fst (fst e) = one_kind side).
  { intros [[t i] j] I. apply X in I. destruct side, t, i as [i|], j as [j|]; cbn; auto; try (destruct I; fail); exfalso.
    all: try (destruct I as (_ & I & _); eapply Nq; exact I). all: try (destruct I as (_ & I & _); eapply Np; exact I).
    all: try (destruct I as (_ & I1 & I2); eapply No; eassumption). all: try (destruct I as (I1 & I2); eapply No; eassumption). }
  split.
  - intros e I. apply in_map_iff in I as (e' & <- & I). left. unfold dt_of. cbn [fst]. now apply All.
  - split.
    + intros Ch. assert (Z : seq_diff veqb elem_eqb (so_seq (ord fa fb)) (o_unchanged_ opt) (o_moved opt) (if side then k else []) (if side then [] else k) = []).
      { destruct (seq_diff _ _ _ _ _ _ _) as [|e r]; auto. exfalso. specialize (All e (or_introl eq_refl)). cbn in Ch. rewrite All in Ch.
        destruct side; cbn in Ch; discriminate Ch. }
      rewrite Z in X. apply shown_keys_nil. rewrite <- Ek. destruct k as [|[i x] k]; auto. exfalso.
      assert (S : surplus veqb ((i, x) :: k) [] i) by (exists x, [], k; split; [reflexivity|cbn; lia]).
      destruct side.
      * apply (proj2 (X (Removed, Some i, None))). split; [exact S|apply No].
      * apply (proj2 (X (Added, None, Some i))). split; [exact S|apply No].
    + intros Z. apply shown_keys_nil in Z. rewrite Z in Ek. apply map_eq_nil in Ek as ->. destruct (seq_diff _ _ _ _ _ _ _) as [|e r] eqn:Es; [reflexivity|]. exfalso.
      assert (I : In e (e :: r)) by now left. apply X in I. destruct e as [[t i] j].
      destruct side, t, i as [i|], j as [j|]; auto.
      all: try (destruct I as (_ & I & _); eapply Nq; exact I). all: try (destruct I as (_ & I1 & I2); eapply No; eassumption).
      all: try (destruct I as (I1 & I2); eapply No; eassumption).
Qed.

Section Step.
Variable rec : val -> val -> list elem -> list elem -> res (list dentry).
Hypothesis IH : forall side u fa fb l, composite u -> wfv u -> rec (lft side u) (rgt side u) fa fb = Ok l -> fits side l (hollow u).

Definition slot_hollow (a : val) (p : prop) : Prop := compared opt p -> forall u, seen p a = Some u -> composite u /\ hollow u.
Lemma slot_one c side a fa fb p l : In p (props W c) -> wfv a -> slot_diff rec (lft side a) (rgt side a) fa fb p = Ok l -> fits side l (slot_hollow a p).
Proof.
  intros Ip Wa. destruct opts as (De&Di&Dd&Df&Dr).
  unfold DiffModel.slot_diff, is_filtered, slot_hollow. rewrite Df, orb_false_r.
  destruct (negb (o_extraneous opt) && p_extraneous p) eqn:Ex.
  { intros H. injection H as <-. eapply fits_iff; [|apply fits_nil]. split; auto. intros _ [c1|c1]; rewrite c1 in Ex; [discriminate|]. rewrite andb_false_r in Ex. discriminate. }
  assert (Cp : compared opt p) by (unfold compared; destruct (o_extraneous opt); auto).
  destruct (shown_slot p a) as [Sa Na].
  assert (Sn : normalize_slot opt (match slot VNothing (p_name p) with Some u => u | None => VNothing end) p (VNothing : val) = VNothing).
  { unfold normalize_slot, normalize_val. cbn. rewrite De. destruct (p_compare_as p); reflexivity. }
  rewrite De, Dd.
  assert (Hu : forall u m, composite u -> fits side m (hollow u) -> forall x, hd_error (changes m) = Some x -> x = one_kind side /\ forallb (dt_eqb x) (tl (changes m)) = true).
  { intros u m _ [F1 _] x Hx.
    assert (G : forall y, In y (changes m) -> y = one_kind side).
    { intros y I. unfold changes in I. apply filter_In in I as [I N]. apply in_map_iff in I as (e & <- & I). destruct (F1 e I) as [E|E]; auto. rewrite E in N. discriminate N. }
    destruct (changes m) as [|y r]; [discriminate|]. injection Hx as ->. split; [apply G; now left|]. cbn [tl].
    apply forallb_forall. intros z I. rewrite (G z (or_intror I)), (G x (or_introl eq_refl)). now destruct side. }
  destruct side; cbn [lft rgt]; rewrite Sn; (destruct (seen p a) as [u|] eqn:Ea; [specialize (Na u eq_refl)|clear Na]); rewrite Sa; cbn [is_nothing]; rewrite ?Na; cbn [xorb andb orb negb];
    rewrite ?orb_true_r, ?orb_false_r, ?andb_true_r.
  all: try (intros H; injection H as <-; eapply fits_iff; [|apply fits_nil]; split; [intros _ _ u Z; discriminate Z|auto]; fail).
  all: assert (Wu : wfv u) by exact (shown_wf p c a u Ip Wa Ea).
  - destruct (comparable u) eqn:Cu; cbn [orb andb].
    + apply composite_iff in Cu. intros H. apply bind_ok in H as (m & Hm & H). pose proof (IH true u _ _ m Cu Wu Hm) as F. specialize (Hu u m Cu F).
      destruct F as [F1 F2]. destruct (changes m) as [|d r].
      * injection H as <-. eapply fits_iff; [|]; [|split].
        -- instantiate (1 := True). split; auto. intros _ _ v Z. injection Z as <-. split; auto. apply F2. reflexivity.
        -- destruct (o_unchanged_ opt); [intros e [<-|[]]; right; reflexivity|intros e []].
        -- destruct (o_unchanged_ opt); cbn; tauto.
      * destruct (Hu d eq_refl) as [-> Hf]. cbn [tl] in Hf. rewrite Hf in H. injection H as <-. split.
        -- intros e [<-|[]]. left. reflexivity.
        -- cbn. split; [discriminate|]. intros Z. exfalso. destruct (Z Cp u eq_refl) as [_ Z']. apply F2 in Z'. discriminate Z'.
    + intros H. injection H as <-. split; [intros e [<-|[]]; left; reflexivity|]. cbn. split; [discriminate|]. intros Z. exfalso.
      destruct (Z Cp u eq_refl) as [Z' _]. apply composite_iff in Z'. congruence.
  - destruct (comparable u) eqn:Cu; cbn [orb andb].
    + apply composite_iff in Cu. intros H. apply bind_ok in H as (m & Hm & H). pose proof (IH false u _ _ m Cu Wu Hm) as F. specialize (Hu u m Cu F).
      destruct F as [F1 F2]. destruct (changes m) as [|d r].
      * injection H as <-. eapply fits_iff; [|]; [|split].
        -- instantiate (1 := True). split; auto. intros _ _ v Z. injection Z as <-. split; auto. apply F2. reflexivity.
        -- destruct (o_unchanged_ opt); [intros e [<-|[]]; right; reflexivity|intros e []].
        -- destruct (o_unchanged_ opt); cbn; tauto.
      * destruct (Hu d eq_refl) as [-> Hf]. cbn [tl] in Hf. rewrite Hf in H. injection H as <-. split.
        -- intros e [<-|[]]. left. reflexivity.
        -- cbn. split; [discriminate|]. intros Z. exfalso. destruct (Z Cp u eq_refl) as [_ Z']. apply F2 in Z'. discriminate Z'.
    + intros H. injection H as <-. split; [intros e [<-|[]]; left; reflexivity|]. cbn. split; [discriminate|]. intros Z. exfalso.
      destruct (Z Cp u eq_refl) as [Z' _]. apply composite_iff in Z'. congruence.
Qed.

Lemma record_one c side a fa fb l : class_of a = Some c -> wfv a -> record_iter rec (lft side a) (rgt side a) fa fb = Ok l ->
  fits side l (forall p, In p (props W c) -> slot_hollow a p).
Proof.
  intros Ec Wa H. assert (Na : is_nothing a = false) by (destruct a; auto; discriminate Ec). unfold DiffModel.record_iter in H. rewrite (proj1 (proj2 (proj2 opts))) in H.
  replace (negb false && negb (types_match ceqb (lft side a) (rgt side a)) && negb (is_nothing (lft side a) || is_nothing (rgt side a))) with false in H by (destruct side; cbn; now rewrite ?orb_true_r, ?andb_false_r).
  assert (E : class_of (if is_nothing (lft side a) then rgt side a else lft side a) = Some c) by (destruct side; cbn; rewrite ?Na; auto).
  rewrite E in H. eapply fits_iff; [|eapply (fits_concat side _ (slot_hollow a)); [exact H|]].
  - split; intros G p Ip; apply G; now apply all_properties_in.
  - intros p u Ip Hu. apply all_properties_in in Ip. now apply (slot_one c side a fa fb p u).
Qed.

Lemma id_keys_fst d fa l : forall r, id_keys hashable opt record_id d None fa l = Ok r -> map fst r = map fst l.
Proof.
  destruct opts as (De&Di&Dd&Df&Dr).
  induction l as [|[k v] t IHl]; cbn [id_keys map]; intros r H; [now injection H as <-|].
  rewrite Di in H. apply bind_ok in H as (i&Hi&H). cbn [andb] in H. destruct (negb _); [discriminate|].
  destruct (key_of i) as [|ks]; [discriminate|]. apply bind_ok in H as (r'&Hr&H). injection H as <-. cbn. now rewrite (IHl _ Hr).
Qed.
Lemma records_one c d side a fa fb l : collection a -> class_of a = Some c -> ValModel.item W c = IRec d -> wfv a ->
  records_iter rec d (lft side a) (rgt side a) fa fb = Ok l -> fits side l (forall k x, In (k, x) (contents a) -> hollow x).
Proof.
  intros Ca Ec Ei Wa. destruct opts as (De&Di&Dd&Df&Dr). assert (Na : is_nothing a = false) by (destruct a; auto; destruct Ca).
  unfold DiffModel.records_iter, id_selector. rewrite Df. cbn [bind]. rewrite Dr. intros H.
  apply bind_ok in H as (ga&Ga&H). apply bind_ok in H as (ia&Ia&H). apply bind_ok in H as (gb&Gb&H). apply bind_ok in H as (ib&Ib&H). cbv zeta in H.
  pose proof (fun i x I => contents_rec W a c d i x Wa Ca Ec Ei I) as RA.
  pose proof (fun i x I => contents_wf W a i x Wa I) as WA.
  assert (Cx : forall i x, In (i, x) (contents a) -> composite x) by (intros i x I; specialize (RA i x I); destruct x; cbn in *; auto; congruence).
  destruct (key_equalities veqb vrefl vsym vtrans) as (E1&E2&E3&E4) eqn:EE. clear EE.
  destruct (ord_ok fa fb) as (_&_&Oc&_&_&Ou&_).
  assert (Nil : forall (f : _ -> res (list dentry)), (if o_unchanged_ opt || o_moved opt then concatM f (so_unchanged (ord fa fb) []) else Ok []) = Ok []).
  { intros f. rewrite (Permutation_nil (Permutation_sym (Ou []))). destruct (o_unchanged_ opt), (o_moved opt); reflexivity. }
  assert (Main : forall ix f, map fst ix = map fst (contents a) ->
    (forall x, f x = (do k <- key_at veqb (tag (keqb veqb) [] ix) x; do y <- val_at (contents a) k; rec (lft side y) (rgt side y) (fa ++ [k]) (fb ++ [k]))) ->
    forall m xs, concatM f xs = Ok m -> Permutation xs (filter (fun x => negb (kmem veqb x [])) (map fst (tag (keqb veqb) [] ix))) ->
      fits side m (forall k x, In (k, x) (contents a) -> hollow x)).
  { intros ix f Ek Hf m xs Hm Pm.
    assert (Rx : forall i, In i (positions (keqb veqb) (filter (fun x => negb (kmem veqb x [])) (map fst (tag (keqb veqb) [] ix))) (tag (keqb veqb) [] ix)) <-> surplus (keqb veqb) ix [] i)
      by exact (removed_in (keqb veqb) E1 E2 E3 ix []).
    eapply fits_iff; [|eapply (fits_concat side f (fun z => forall k y, lookup (keqb veqb) z (tag (keqb veqb) [] ix) = Some k -> In (k, y) (contents a) -> hollow y)); [exact Hm|]].
    - split.
      + intros G k x I. assert (Ik : In k (map fst ix)) by (rewrite Ek; apply in_map_iff; exists (k, x); auto).
        apply in_map_iff in Ik as ([k' id] & Z & Ik). cbn in Z. subst k'. apply in_split in Ik as (l1 & l2 & Z).
        assert (S : surplus (keqb veqb) ix [] k) by (exists id, l1, l2; split; auto; cbn; lia).
        apply Rx in S. apply (positions_in (keqb veqb)) in S as (z & Iz & Lz). eapply (G z); eauto. now apply (Permutation_in _ (Permutation_sym Pm)).
      + intros G z _ k y _ I. eauto.
    - intros z u _ Hu. rewrite Hf in Hu. apply bind_ok in Hu as (k & Hk & Hu). apply bind_ok in Hu as (y & Hy & Hu).
      apply (key_at_ok veqb) in Hk. apply (val_at_iff W) in Hy; auto.
      eapply fits_iff; [|exact (IH side y _ _ u (Cx _ _ Hy) (WA _ _ Hy) Hu)]. split.
      + intros Hh k' y' L I. assert (k' = k) as -> by congruence. apply (val_at_iff W) in Hy, I; auto. congruence.
      + intros G. eapply G; eauto. }
  destruct side; cbn [lft rgt] in Ga, Gb, H.
  - cbn in Gb. injection Gb as <-. cbn in Ib. injection Ib as <-. apply gen_contents in Ga; auto. subst ga. apply id_keys_fst in Ia.
    cbn [tag map] in H. rewrite Na in H. cbn [is_nothing orb andb negb] in H.
    replace (filter (fun x => kmem veqb x []) (map fst (tag (keqb veqb) [] ia))) with (@nil (pk val * nat)) in H by (clear; induction (map fst (tag (keqb veqb) [] ia)); cbn; auto).
    apply bind_ok in H as (l1 & H1 & H). cbn [concatM bind] in H.
    rewrite Nil in H. cbn in H. injection H as <-. rewrite app_nil_r.
    eapply (Main ia); [exact Ia|intros x; reflexivity|exact H1|]. rewrite Oc. cbn [filter]. now rewrite app_nil_r.
  - cbn in Ga. injection Ga as <-. cbn in Ia. injection Ia as <-. apply gen_contents in Gb; auto. subst gb. apply id_keys_fst in Ib.
    cbn [tag map] in H. cbn [is_nothing orb andb negb filter] in H.
    apply bind_ok in H as (l1 & H1 & H). cbn [concatM bind] in H.
    rewrite Nil in H. cbn in H. injection H as <-. rewrite app_nil_r.
    eapply (Main ib); [exact Ib|intros x; reflexivity|exact H1|]. rewrite Oc. reflexivity.
Qed.

Lemma hollow_iff a c : class_of a = Some c -> hollow a <->
  (forall p, In p (props W c) -> slot_hollow a p) /\ (collection a -> ValModel.item W c = IPlain -> none_shown W opt a) /\
  (collection a -> forall d k x, ValModel.item W c = IRec d -> In (k, x) (contents a) -> hollow x).
Proof.
  intros Ec. unfold slot_hollow. split.
  - intros H. destruct H as [v Co Ec' Ct|v c' Ec' Hc Hh Hp Hr]; [congruence|]. assert (c' = c) as -> by congruence. split; [|auto]. intros p Ip Cp u Es. split; [eapply Hc|eapply Hh]; eauto.
  - intros (H1 & H2 & H3). apply (vacant_record W opt a c); auto; intros p u Ip Cp Es; now apply (H1 p Ip Cp u).
Qed.
Lemma dispatch_one side u fa fb l : composite u -> wfv u -> dispatch rec (lft side u) (rgt side u) fa fb = Ok l -> fits side l (hollow u).
Proof.
  intros Cu Wu H. unfold DiffModel.dispatch in H.
  assert (Nu : is_nothing u = false) by (destruct u; auto; destruct Cu).
  assert (E : (if is_nothing (lft side u) then rgt side u else lft side u) = u) by (destruct side; cbn; rewrite ?Nu; auto).
  assert (Pl : plain u -> list_iter (lft side u) (rgt side u) fa fb = Ok l -> fits side l (hollow u)).
  { intros P Hl. eapply fits_iff; [|eapply list_one; [left; exact P|exact Hl]]. split.
    - intros Z. apply vacant_plain; auto. destruct u; cbn in P; auto; destruct P.
    - intros Hh. destruct Hh as [v _ _ Z|v c Ec _]; auto. destruct v; cbn in P, Ec; try discriminate Ec; destruct P. }
  assert (Co : forall c, collection u -> class_of u = Some c ->
    (do l <- collection_iter rec (lft side u) (rgt side u) fa fb; do m <- record_iter rec (lft side u) (rgt side u) fa fb; Ok (l ++ m)) = Ok l -> fits side l (hollow u)).
  { intros c Cc Ec Hl. apply bind_ok in Hl as (l1 & H1 & Hl). apply bind_ok in Hl as (l2 & H2 & Hl). injection Hl as <-.
    pose proof (record_one c side u fa fb l2 Ec Wu H2) as X. unfold DiffModel.collection_iter in H1. rewrite E, Ec in H1.
    destruct (ValModel.item W c) as [|d|] eqn:Ei; [discriminate| |].
    - pose proof (records_one c d side u fa fb l1 Cc Ec Ei Wu H1) as Y. eapply fits_iff; [|exact (fits_app _ _ _ _ _ Y X)].
      rewrite (hollow_iff u c Ec). split.
      + intros [Z1 Z2]. split; auto. split; [intros _ Z; congruence|]. intros _ d' k x _ I. eauto.
      + intros (Z1 & _ & Z3). split; auto. intros k x I. eapply Z3; eauto.
    - pose proof (list_one side u fa fb l1 (or_intror Cc) H1) as Y. eapply fits_iff; [|exact (fits_app _ _ _ _ _ Y X)].
      rewrite (hollow_iff u c Ec). split.
      + intros [Z1 Z2]. split; auto. split; auto. intros _ d' k x Z. congruence.
      + intros (Z1 & Z2 & _). auto. }
  rewrite E in H. destruct u as [| | | | | |c sl|c sl la|c sl la]; try (destruct Cu; fail).
  - apply Pl; [exact I|exact H].
  - apply Pl; [exact I|exact H].
  - eapply fits_iff; [|exact (record_one c side (VRec c sl) fa fb l eq_refl Wu H)]. rewrite (hollow_iff (VRec c sl) c eq_refl). split; [|tauto].
    intros Z. split; auto. split; intros [].
  - apply (Co c); [exact I|reflexivity|exact H].
  - apply (Co c); [exact I|reflexivity|exact H].
Qed.
End Step.

Lemma one_sided n : forall side u fa fb l, composite u -> wfv u -> diff n (lft side u) (rgt side u) fa fb = Ok l -> fits side l (hollow u).
Proof. induction n as [|n IHn]; intros side u fa fb l Cu Wu; cbn [DiffModel.diff]; [discriminate|]. now apply dispatch_one. Qed.


Section Under.
Variable rec : val -> val -> list elem -> list elem -> res (list dentry).
Hypothesis IH : forall u v fa fb l, rec u v fa fb = Ok l -> under fa fb l.
Lemma slot_under a b fa fb p l : slot_diff rec a b fa fb p = Ok l -> under (fa ++ [EStr (p_name p)]) (fb ++ [EStr (p_name p)]) l.
Proof.
  assert (One : forall t, under (fa ++ [EStr (p_name p)]) (fb ++ [EStr (p_name p)]) [(t, fa ++ [EStr (p_name p)], fb ++ [EStr (p_name p)])]).
  { intros t t' p' q' [E|[]]. injection E as <- <- <-. exists [], []. now rewrite !app_nil_r. }
  unfold DiffModel.slot_diff. intros H. repeat match type of H with (if ?b then _ else _) = _ => destruct b end;
    try (injection H as <-; first [apply under_nil|apply One|apply under_if; [apply One|apply under_nil]]).
  apply bind_ok in H as (m & Hm & H). apply IH in Hm. destruct (xorb _ _); [|now injection H as <-].
  destruct (changes m) as [|d r]; [injection H as <-; apply under_if; [apply One|apply under_nil]|]. destruct (forallb _ r); [injection H as <-; apply One|discriminate].
Qed.
Lemma record_under a b fa fb l : record_iter rec a b fa fb = Ok l -> under fa fb l.
Proof.
  unfold DiffModel.record_iter. destruct (_ && _ && _); [discriminate|]. destruct (class_of _); [|discriminate].
  apply under_concat. intros p u H. eapply under_sub, slot_under, H.
Qed.
Lemma list_under a b fa fb l : list_iter a b fa fb = Ok l -> under fa fb l.
Proof.
  unfold DiffModel.list_iter. intros H.
  repeat (apply bind_ok in H as (? & ? & H)). injection H as <-. intros t p q I. apply in_map_iff in I as ([[t' i] j] & E & _). injection E as <- <- <-.
  exists (match i with Some k => [k] | None => [] end), (match j with Some k => [k] | None => [] end).
  destruct i, j; cbn; rewrite ?app_nil_r; auto.
Qed.
Lemma records_under d a b fa fb l : records_iter rec d a b fa fb = Ok l -> under fa fb l.
Proof.
  unfold DiffModel.records_iter. intros H. apply bind_ok in H as (sel & _ & H). destruct (match sel with Some (inr s) => _ | _ => _ end); [injection H as <-; apply under_nil|].
  apply bind_ok in H as (ga & _ & H). apply bind_ok in H as (ia & _ & H). apply bind_ok in H as (gb & _ & H). apply bind_ok in H as (ib & _ & H). cbv zeta in H.
  destruct (o_recurse opt).
  - apply bind_ok in H as (l1 & H1 & H). injection H as <-. apply under_app; [|apply under_app].
    + revert H1. apply under_concat. intros k u H. apply bind_ok in H as (x & _ & H). apply bind_ok in H as (y & _ & H). eapply under_sub, IH, H.
    + intros t p q I. apply in_map_iff in I as (k & E & _). injection E as <- <- <-. exists [k], []. now rewrite app_nil_r.
    + intros t p q I. apply in_map_iff in I as (k & E & _). injection E as <- <- <-. exists [], [k]. now rewrite app_nil_r.
  - apply bind_ok in H as (l1 & H1 & H). apply bind_ok in H as (l2 & H2 & H). apply bind_ok in H as (l3 & H3 & H). apply bind_ok in H as (l4 & H4 & H). apply bind_ok in H as (l5 & H5 & H).
    injection H as <-. repeat apply under_app.
    + destruct (is_nothing a || is_nothing b); revert H1; apply under_concat.
      * intros x u H. destruct (is_nothing a); apply bind_ok in H as (k & _ & H); apply bind_ok in H as (y & _ & H); eapply under_sub, IH, H.
      * intros x u H. apply bind_ok in H as (k & _ & H). apply bind_ok in H as (y & _ & H). apply bind_ok in H as (j & _ & H). apply bind_ok in H as (z & _ & H). eapply under_sub, IH, H.
    + revert H2. apply under_concat. intros x u H. apply bind_ok in H as (k & _ & H). apply bind_ok in H as (y & _ & H). apply bind_ok in H as (j & _ & H). apply bind_ok in H as (z & _ & H).
      apply bind_ok in H as (m & Hm & H). injection H as <-. apply under_app; [eapply under_sub, IH, Hm|]. apply under_if; [apply under_one|apply under_if; [apply under_one|apply under_nil]].
    + destruct (o_unchanged_ opt || o_moved opt); [|injection H3 as <-; apply under_nil]. revert H3. apply under_concat. intros x u H.
      apply bind_ok in H as (k & _ & H). apply bind_ok in H as (j & _ & H). injection H as <-. apply under_if; [apply under_one|apply under_if; [apply under_one|apply under_nil]].
    + destruct (is_nothing a || is_nothing b); [injection H4 as <-; apply under_nil|]. revert H4. apply under_concat. intros x u H. apply bind_ok in H as (k & _ & H). injection H as <-. apply under_l.
    + destruct (is_nothing a || is_nothing b); [injection H5 as <-; apply under_nil|]. revert H5. apply under_concat. intros x u H. apply bind_ok in H as (k & _ & H). injection H as <-. apply under_r.
Qed.
End Under.
Lemma diff_under n : forall u v fa fb l, diff n u v fa fb = Ok l -> under fa fb l.
Proof.
  induction n as [|n IHn]; intros u v fa fb l; cbn [DiffModel.diff]; [discriminate|]. unfold DiffModel.dispatch.
  assert (Co : (do l <- collection_iter (diff n) u v fa fb; do m <- record_iter (diff n) u v fa fb; Ok (l ++ m)) = Ok l -> under fa fb l).
  { intros H. apply bind_ok in H as (l1 & H1 & H). apply bind_ok in H as (l2 & H2 & H). injection H as <-. apply under_app; [|eapply record_under; eauto].
    unfold DiffModel.collection_iter in H1. destruct (class_of _); [|discriminate]. destruct (ValModel.item W _); [discriminate|eapply records_under; eauto|eapply list_under; eauto]. }
  destruct (if is_nothing u then v else u); try (intros H; injection H as <-; apply under_nil); try exact Co; try (apply list_under; fail); apply record_under; exact IHn.
Qed.


Notation of_slot := (of_slot (A := A) (C := C)).
Lemma record_slots c rec a b l : class_of (if is_nothing a then b else a) = Some c -> types_match ceqb a b = true -> NoDup (map p_name (props W c)) ->
  (forall u v fa fb l, rec u v fa fb = Ok l -> under fa fb l) -> record_iter rec a b [] [] = Ok l ->
  (forall p, In p (props W c) -> slot_diff rec a b [] [] p = Ok (of_slot p l)) /\
  (forall t q r, In (t, q, r) l -> exists p q' r', In p (props W c) /\ q = EStr (p_name p) :: q' /\ r = EStr (p_name p) :: r').
Proof.
  intros Ec Tm N IH H. unfold DiffModel.record_iter in H. rewrite Tm in H. cbn [negb andb] in H. rewrite andb_false_r in H. rewrite Ec in H.
  pose proof (all_properties_perm W c) as P.
  assert (F : forall p u, slot_diff rec a b [] [] p = Ok u -> forall t q r, In (t, q, r) u -> exists q', q = EStr (p_name p) :: q').
  { intros p u Hu t q r I. destruct (slot_under rec IH a b [] [] p u Hu t q r I) as (q' & r' & -> & _). exists q'. reflexivity. }
  destruct (of_slot_concat _ F _ l H) as [G1 _].
  { eapply Permutation_NoDup; [|exact N]. now apply Permutation_map, Permutation_sym. }
  split.
  - intros p Ip. apply G1. now apply (Permutation_in _ (Permutation_sym P)).
  - intros t q r I. destruct (concatM_in _ _ _ H _ I) as (p & u & Ip & Hu & Iu). destruct (slot_under rec IH a b [] [] p u Hu t q r Iu) as (q' & r' & -> & ->).
    exists p, q', r'. split; [now apply (Permutation_in _ P)|auto].
Qed.


Lemma nets side n u here l : composite u -> wfv u -> wfv u ->
  (do m <- diff n (lft side u) (rgt side u) here here;
   match changes m with
   | [] => Ok (if o_unchanged_ opt then [(NoChange, here, here)] else [])
   | d :: t => if forallb (dt_eqb d) t then Ok [(d, here, here)] else Err AssertErr
   end) = Ok l ->
  (composite u /\ hollow u /\ changes l = []) \/ (~ (composite u /\ hollow u) /\ l = [(one_kind side, here, here)]).
Proof.
  intros Cu Wu _ H. apply bind_ok in H as (m & Hm & H). destruct (one_sided n side u _ _ m Cu Wu Hm) as [F1 F2].
  destruct (changes m) as [|d r] eqn:Em.
  - left. split; [exact Cu|]. split; [now apply F2|]. injection H as <-. now destruct (o_unchanged_ opt).
  - right. split; [intros [_ Z]; apply F2 in Z; discriminate Z|]. destruct (forallb _ r); [|discriminate H]. injection H as <-.
    assert (Id : In d (changes m)) by (rewrite Em; now left). unfold changes in Id. apply filter_In in Id as [Id Nd]. apply in_map_iff in Id as (e & <- & Ie).
    destruct (F1 e Ie) as [E|E]; rewrite E in *; [reflexivity|discriminate Nd].
Qed.
Hypothesis ceqb_ok : forall c d, ceqb c d = true <-> c = d.
Lemma comparables_iff (u v : val) : (comparable u || comparable v) && types_match ceqb u v = true <-> comparables u v.
Proof.
  unfold comparables. rewrite andb_true_iff, orb_true_iff, !composite_iff. destruct u, v; cbn; rewrite ?ceqb_ok, ?Bool.eqb_true_iff; intuition congruence.
Qed.
Lemma slot_cases n c a b p l : In p (props W c) -> wfv a -> wfv b -> compared opt p -> slot_diff (diff n) a b [] [] p = Ok l ->
  let here := [EStr (p_name p)] in
  match seen p a, seen p b with
  | None, None => l = []
  | Some u, None => (composite u /\ hollow u /\ changes l = []) \/ (~ (composite u /\ hollow u) /\ l = [(Removed, here, here)])
  | None, Some v => (composite v /\ hollow v /\ changes l = []) \/ (~ (composite v /\ hollow v) /\ l = [(Added, here, here)])
  | Some u, Some v => (comparables u v -> diff n u v here here = Ok l) /\
      (~ comparables u v -> l = if veqb u v then (if o_unchanged_ opt then [(NoChange, here, here)] else []) else [(Modified, here, here)])
  end.
Proof.
  intros Ip Wa Wb Cp. cbv zeta. pose proof opts as (De&Di&Dd&Df&Dr).
  unfold DiffModel.slot_diff, is_filtered. rewrite Df, orb_false_r.
  replace (negb (o_extraneous opt) && p_extraneous p) with false by (destruct Cp as [E|E]; rewrite E; auto; now rewrite andb_false_r).
  destruct (shown_slot p a) as [Sa Na]. destruct (shown_slot p b) as [Sb Nb]. rewrite De, Dd. cbn [app].
  destruct (seen p a) as [u|] eqn:Ea, (seen p b) as [v|] eqn:Eb; rewrite Sa, Sb.
  - rewrite (Na u eq_refl), (Nb v eq_refl). cbn [andb xorb orb]. rewrite !orb_false_r.
    pose proof (comparables_iff u v) as Cv. destruct ((comparable u || comparable v) && types_match ceqb u v).
    + intros H. apply bind_ok in H as (m & Hm & H). injection H as <-. split; [auto|]. intros Z. exfalso. now apply Z, Cv.
    + intros H. split; [intros Z; apply Cv in Z; discriminate Z|]. intros _. destruct (veqb u v); cbn [negb] in H; now injection H as <-.
  - rewrite (Na u eq_refl). cbn [is_nothing andb xorb orb]. replace (comparable VNothing) with false by reflexivity. rewrite !orb_true_r, orb_false_r, andb_true_r.
    assert (Wu : wfv u) by exact (shown_wf p c a u Ip Wa Ea).
    pose proof (composite_iff u) as Cu. destruct (comparable u) eqn:Eu.
    + apply (nets true n u [EStr (p_name p)] l (proj1 Cu eq_refl) Wu Wu).
    + intros H. injection H as <-. right. split; [|reflexivity]. intros [Z _]. apply Cu in Z. discriminate Z.
  - rewrite (Nb v eq_refl). cbn [is_nothing andb xorb orb]. replace (comparable VNothing) with false by reflexivity. rewrite !orb_true_r, orb_false_l, andb_true_r.
    assert (Wv : wfv v) by exact (shown_wf p c b v Ip Wb Eb).
    pose proof (composite_iff v) as Cv. destruct (comparable v) eqn:Ev.
    + apply (nets false n v [EStr (p_name p)] l (proj1 Cv eq_refl) Wv Wv).
    + intros H. injection H as <-. right. split; [|reflexivity]. intros [Z _]. apply Cv in Z. discriminate Z.
  - cbn. now intros [= <-].
Qed.

(** ** Only what is seen matters *)
Lemma same_slots rec a a' b b' fa fb p : seen p a = seen p a' -> seen p b = seen p b' -> slot_diff rec a b fa fb p = slot_diff rec a' b' fa fb p.
Proof.
  intros Ea Eb. unfold DiffModel.slot_diff.
  rewrite (proj1 (shown_slot p a)), (proj1 (shown_slot p a')), (proj1 (shown_slot p b)), (proj1 (shown_slot p b')), Ea, Eb. reflexivity.
Qed.
Lemma concatM_ext {X Y} (f g : X -> res (list Y)) l : (forall x, In x l -> f x = g x) -> concatM f l = concatM g l.
Proof. induction l as [|x l IHl]; cbn; intros H; auto. rewrite (H x (or_introl eq_refl)), IHl; auto. Qed.
Lemma same_records n c sa sa' sb sb' fa fb :
  (forall p, In p (props W c) -> seen p (VRec c sa) = seen p (VRec c sa')) -> (forall p, In p (props W c) -> seen p (VRec c sb) = seen p (VRec c sb')) ->
  diff n (VRec c sa) (VRec c sb) fa fb = diff n (VRec c sa') (VRec c sb') fa fb.
Proof.
  intros Fa Fb. destruct n as [|n]; [reflexivity|]. cbn [DiffModel.diff]. unfold DiffModel.dispatch. cbn [is_nothing].
  unfold DiffModel.record_iter. cbn [is_nothing types_match class_of]. match goal with |- (if ?x then _ else _) = _ => destruct x; auto end.
  apply concatM_ext. intros p Ip. pose proof (all_properties_perm W c) as P. apply (Permutation_in _ P) in Ip. apply same_slots; auto.
Qed.

End Blank.
