(** When a comparison with default options reports nothing. *)
From Coq Require Import List Arith NArith ZArith Bool Lia Permutation.
From Verif Require Import Prelude SelPathModel FSModel PySeq MFSModel ValModel EqModel EqProofs SeqDiffModel SeqDiffProofs
  SeqDiffProps FuzzyModel FuzzyProps FuzzyFlip MFSProofs DiffModel DiffProofs DiffSwap.
Import ListNotations.

(** ** Specification *)
Section Spec.
Context {A C : Type}.
Variable W : classes A C.
Notation val := (val A C).
Notation prop := (prop A C).
Variable veqb : val -> val -> bool.
Variable repr : val -> str.
Variable a_hash : A -> bool.
Variable opt : options.
Variable record_id : rtype C -> option mfs -> val -> res val.

(** The defaults, but for text normalisation, [extraneous], [fuzzy_match] and what is to be
    reported besides changes. *)
Definition default_options : Prop :=
  o_empty_slots opt = false /\ o_empty_items opt = false /\
  o_duck opt = false /\ o_filter opt = None /\ o_recurse opt = false.
Definition changes_only : Prop := o_unchanged_ opt = false /\ o_moved opt = false.

(** text is normalised, anything else is taken as it is *)
Definition as_text (v : val) : val := match v with VText s => VText (o_text opt s) | _ => v end.

(** the value of a slot to be compared; None if it is missing *)
Definition present (v : val) : option val := if is_nothing v then None else Some (as_text v).
Definition seen (p : prop) (o : val) : option val :=
  match slot o (p_name p) with
  | None => None
  | Some u => if is_nothing u then None
              else present (match p_compare_as p with Some f => f o u | None => u end)
  end.

(** not an extraneous property, unless they are wanted *)
Definition compared (p : prop) : Prop := o_extraneous opt = true \/ p_extraneous p = false.

(** positions and values of the items *)
Definition contents (v : val) : list (elem * val) :=
  match v with
  | VSeq _ l | VLC _ _ l => number l
  | VMap l | VDC _ _ l => l
  | _ => []
  end.

(** what an item of a plain list, a dict or an untyped collection counts as *)
Definition counts_as (coll v : val) : val :=
  let v := as_text (match class_of coll with
                    | Some c => match item_as W c, v with
                                | None, _ | _, VNothing => v
                                | Some f, _ => f v
                                end
                    | None => v
                    end) in
  if has_hash a_hash v then v else VText (repr v).
Definition counted (v : val) : list (elem * val) := map (fun kv => (fst kv, counts_as v (snd kv))) (contents v).

(** the identity of a record in a collection *)
Definition identity (v : val) : pk val :=
  match record_id RAuto None v with
  | Ok i => match key_of i with KTup l => l | KV _ => [] end
  | Err _ => []
  end.
Definition identified (v : val) : list (elem * pk val) := map (fun kv => (fst kv, identity (snd kv))) (contents v).

Definition same_type (u v : val) : Prop :=
  match u, v with
  | VSeq t _, VSeq t' _ => t = t'
  | VMap _, VMap _ => True
  | VRec c _, VRec d _ | VLC c _ _, VLC d _ _ | VDC c _ _, VDC d _ _ => c = d
  | _, _ => False
  end.
Definition plain (v : val) : Prop := match v with VSeq _ _ | VMap _ => True | _ => False end.
Definition collection (v : val) : Prop := match v with VLC _ _ _ | VDC _ _ _ => True | _ => False end.

Definition same_counts {K I} (eqb : K -> K -> bool) (a b : list (I * K)) : Prop := forall k, count eqb k a = count eqb k b.

(** Two values agree: records slot by slot, lists and dicts as multisets of items, collections
    of records by identity and then item by item, everything else by ==. *)
Inductive agree : val -> val -> Prop :=
| agree_equal u v : ~ same_type u v -> veqb u v = true -> agree u v
| agree_plain u v : same_type u v -> plain u -> same_counts veqb (counted u) (counted v) -> agree u v
| agree_record u v c : same_type u v -> class_of u = Some c ->
    (forall p, In p (props W c) -> compared p -> (seen p u = None <-> seen p v = None)) ->
    (forall p x y, In p (props W c) -> compared p -> seen p u = Some x -> seen p v = Some y -> agree x y) ->
    (collection u -> ValModel.item W c = IPlain -> same_counts veqb (counted u) (counted v)) ->
    (collection u -> forall d, ValModel.item W c = IRec d -> same_counts (keqb veqb) (identified u) (identified v)) ->
    (collection u -> forall d i j x y, ValModel.item W c = IRec d -> paired (keqb veqb) (identified u) (identified v) i j ->
       In (i, x) (contents u) -> In (j, y) (contents v) -> agree x y) ->
    agree u v.
End Spec.

(** ** Facts about multisets *)
Section Multi.
Context {K I : Type}.
Variable keqb : K -> K -> bool.
Variable ieqb : I -> I -> bool.
Hypothesis E : equalities keqb ieqb.

Lemma seq_diff_empty o a b : set_orders o -> NoDup (map fst a) -> NoDup (map fst b) ->
  seq_diff keqb ieqb o false false a b = [] <-> same_counts keqb a b.
Proof.
  intros Ho Da Db. pose proof (exact keqb ieqb E o Ho a b false false) as X.
  assert (Na := no_surplus keqb ieqb E a b). assert (Nb := no_surplus keqb ieqb E b a).
  split.
  - intros H. rewrite H in X.
    assert (Y : forall i, ~ surplus keqb a b i /\ ~ surplus keqb b a i).
    { intros i.
      assert (N1 : ~ (surplus keqb a b i /\ ~ surplus keqb b a i)) by (intros c; apply (X (Removed, Some i, None)) in c; destruct c).
      assert (N2 : ~ (surplus keqb b a i /\ ~ surplus keqb a b i)) by (intros c; apply (X (Added, None, Some i)) in c; destruct c).
      assert (N3 : ~ (surplus keqb a b i /\ surplus keqb b a i)).
      { intros c. assert (D : i = i /\ surplus keqb a b i /\ surplus keqb b a i) by tauto. apply (X (Modified, Some i, Some i)) in D. destruct D. }
      assert (Dec : surplus keqb b a i \/ ~ surplus keqb b a i).
      { destruct E as (E1&E2&E3&E4). rewrite <- (removed_in keqb E1 E2 E3 b a i).
        match goal with |- In i ?l \/ _ => destruct (imem ieqb i l) eqn:M end.
        - left. now apply (imem_in ieqb E4).
        - right. intros c. apply (imem_in ieqb E4) in c. congruence. }
      tauto. }
    intros k. apply Nat.le_antisymm.
    + apply (proj1 Na). intros i. apply Y.
    + apply (proj1 Nb). intros i. apply Y.
  - intros H. destruct (seq_diff keqb ieqb o false false a b) as [|e l]; auto. exfalso.
    pose proof (proj1 (X e) (or_introl eq_refl)) as I1.
    assert (Na' : forall i, ~ surplus keqb a b i) by (apply (proj2 Na); intros k; apply Nat.eq_le_incl, H).
    assert (Nb' : forall i, ~ surplus keqb b a i) by (apply (proj2 Nb); intros k; apply Nat.eq_le_incl; symmetry; apply H).
    destruct e as [[[] [i|]] [j|]]; try tauto; destruct I1 as [U1 U2]; try discriminate.
    + exact (Nb' j U1).
    + exact (Na' i U1).
    + exact (Na' i (proj1 U2)).
Qed.

(** the members only one side has *)
Lemma only_none (a b : list (I * K)) : filter (fun x => negb (tmem keqb x (map fst (tag keqb [] b)))) (map fst (tag keqb [] a)) = [] <->
  forall k, count keqb k a <= count keqb k b.
Proof.
  destruct E as (E1&E2&E3&_). split.
  - intros H k. destruct (Nat.le_gt_cases (count keqb k a) (count keqb k b)) as [c|c]; auto. exfalso.
    assert (M := proj2 (tmem_count keqb E2 E3 k (count keqb k b) a) c). unfold tmem in M. apply existsb_exists in M as ([k' n]&I1&T).
    apply (teqb_true keqb) in T as [T1 T2]. cbn [fst snd] in T1, T2. subst n.
    assert (In (k', count keqb k b) []) as []. rewrite <- H. apply filter_In. split; auto.
    apply negb_true_iff. apply (tmem_count_false keqb E2 E3). rewrite (count_eqb keqb E2 E3 k k'); auto.
  - intros H. destruct (filter _ _) as [|[k n] t] eqn:F; auto. exfalso.
    assert (I1 : In (k, n) ((k, n) :: t)) by now left. rewrite <- F in I1. apply filter_In in I1 as [I1 I2].
    apply negb_true_iff in I2. apply (tmem_count_false keqb E2 E3) in I2.
    assert (M : tmem keqb (k, n) (map fst (tag keqb [] a)) = true) by now apply tmem_self.
    apply (tmem_count keqb E2 E3) in M. specialize (H k). lia.
Qed.
End Multi.

Lemma concatM_nil {X Y} (f : X -> res (list Y)) l : forall r, concatM f l = Ok r -> (r = [] <-> forall x, In x l -> f x = Ok []).
Proof.
  induction l as [|x t IH]; cbn [concatM]; intros r H.
  - inversion H; subst. split; auto. intros _ x [].
  - apply bind_ok in H as (u&Hu&H). apply bind_ok in H as (v&Hv&H). inversion H; subst. specialize (IH v Hv). split.
    + intros E. apply app_eq_nil in E as [-> ->]. intros y [<-|I]; auto. now apply IH.
    + intros F. assert (f x = Ok []) by (apply F; now left). assert (u = []) as -> by congruence. cbn [app].
      apply IH. intros y I. apply F. now right.
Qed.

Lemma concatM_ok {X Y} (f : X -> res (list Y)) l : forall r, concatM f l = Ok r -> forall x, In x l -> exists u, f x = Ok u /\ incl u r.
Proof.
  induction l as [|x t IH]; cbn [concatM]; intros r H y I; [destruct I|].
  apply bind_ok in H as (u&Hu&H). apply bind_ok in H as (v&Hv&H). inversion H; subst. destruct I as [<-|I].
  - exists u. split; auto. now apply incl_appl.
  - destruct (IH v Hv y I) as (w&Hw&S). exists w. split; auto. now apply incl_appr.
Qed.

Lemma app_nil_iff {X} (l m : list X) : l ++ m = [] <-> l = [] /\ m = [].
Proof. split; [apply app_eq_nil|now intros [-> ->]]. Qed.

Lemma filter_all {X} (l : list X) : filter (fun _ => true) l = l.
Proof. induction l; cbn; congruence. Qed.

Section Exact.
Context {A C : Type}.
Variable W : classes A C.
Variable ceqb : C -> C -> bool.
Notation val := (val A C).
Notation prop := (prop A C).
Variable veqb : val -> val -> bool.
Variable hashable : val -> bool.
Variable repr : val -> str.
Variable a_hash a_falsy : A -> bool.
Variable a_items : A -> res (list (elem * val)).
Variable opt : options.
Variable record_id : rtype C -> option mfs -> val -> res val.
Variable ord : list elem -> list elem -> dorders (A := A) (C := C).

Hypothesis ord_ok : forall fa fb, orders_ok (ord fa fb).
Hypothesis vrefl : forall v, veqb v v = true.
Hypothesis vsym : forall u v, veqb u v = true -> veqb v u = true.
Hypothesis vtrans : forall u v w, veqb u v = true -> veqb v w = true -> veqb u w = true.
Hypothesis ceq : forall c d, ceqb c d = true <-> c = d.
Hypothesis keeps : keeps_wf W.
Hypothesis defaults : default_options opt.
Hypothesis quiet : changes_only opt.

Notation agree := (agree W veqb repr a_hash opt record_id).
Notation seen := (seen (A := A) (C := C) opt).
Notation counted := (counted W repr a_hash opt).
Notation identity := (identity record_id).
Notation identified := (identified record_id).
Notation diff := (diff W ceqb veqb hashable repr a_hash a_falsy a_items opt record_id ord).
Notation dispatch := (dispatch W ceqb veqb hashable repr a_hash a_falsy a_items opt record_id ord).
Notation records_iter := (records_iter veqb hashable a_falsy a_items opt record_id ord).
Notation list_iter := (list_iter W veqb hashable repr a_hash a_items opt ord).
Notation collection_iter := (collection_iter W veqb hashable repr a_hash a_falsy a_items opt record_id ord).
Notation record_iter := (record_iter W ceqb veqb opt).
Notation slot_diff := (slot_diff ceqb veqb opt).
Notation wfv := (wfv W).

(** With fuzzy matching: the truth of equal values is the same; records which agree have the same identity. *)
Hypothesis truth_ok : o_fuzzy opt = true -> forall u v, veqb u v = true -> v_falsy a_falsy u = v_falsy a_falsy v.
Hypothesis ids_ok : o_fuzzy opt = true -> forall u v, class_of u <> None -> class_of v <> None -> agree u v ->
  keqb veqb (identity u) (identity v) = true.

Lemma same_type_iff (u v : val) : types_match ceqb u v = true <-> same_type u v.
Proof.
  clear - ceq. destruct u, v; cbn; split; intros H; try discriminate; try tauto; try (now apply ceq);
    try (now apply Bool.eqb_prop); try (now subst; apply Bool.eqb_reflx).
Qed.
Lemma same_type_false (u v : val) : types_match ceqb u v = false <-> ~ same_type u v.
Proof. rewrite <- same_type_iff. destruct (types_match ceqb u v); split; congruence. Qed.

Lemma slot_seen p o :
  match seen p o with
  | Some u => normalize_slot opt (match slot o (p_name p) with Some u => u | None => VNothing end) p o = u /\ is_nothing u = false
  | None => normalize_slot opt (match slot o (p_name p) with Some u => u | None => VNothing end) p o = VNothing
  end.
Proof.
  destruct defaults as (De&_). unfold DiffExact.seen, present, normalize_slot, normalize_val. rewrite De. cbn [andb].
  assert (G : forall x : val, match (if is_nothing x then None else Some (as_text opt x)) with
     | Some u => match x with VText s => VText (o_text opt s) | _ => x end = u /\ is_nothing u = false
     | None => match x with VText s => VText (o_text opt s) | _ => x end = VNothing end) by (intros []; cbn; auto).
  destruct (slot o (p_name p)) as [u|]; [|destruct (p_compare_as p); reflexivity].
  destruct (is_nothing u) eqn:Nu; [destruct u; try discriminate Nu; destruct (p_compare_as p); reflexivity|].
  destruct (p_compare_as p) as [f|]; apply G.
Qed.

Lemma seen_wf p c o u : In p (props W c) -> wfv o -> seen p o = Some u -> wfv u.
Proof.
  intros Ip Wo. unfold DiffExact.seen, present. destruct (slot o (p_name p)) as [w|] eqn:S; [|discriminate].
  assert (Ww : wfv w) by (eapply wf_slot; eauto).
  destruct (is_nothing w); [discriminate|]. destruct (is_nothing _); [discriminate|]. intros H. inversion H; subst.
  assert (Wx : wfv (match p_compare_as p with Some f => f o w | None => w end)) by (destruct (p_compare_as p) eqn:Ef; [eapply keeps; eauto|auto]).
  destruct Wx; cbn [as_text]; constructor; auto.
Qed.

Lemma counted_keys coll l : forall r, item_keys W hashable repr a_hash opt coll l = Ok r ->
  r = map (fun kv => (fst kv, counts_as W repr a_hash opt coll (snd kv))) l.
Proof.
  destruct defaults as (De&_).
  induction l as [|[k v] t IH]; cbn [item_keys map]; intros r H; [now inversion H|].
  apply bind_ok in H as (i&Hi&H). apply bind_ok in H as (r'&Hr&H). rewrite (IH _ Hr) in H.
  assert (i = Some (counts_as W repr a_hash opt coll v)) as ->; [|now inversion H].
  revert Hi. unfold item_key, normalize_item, normalize_val, counts_as. rewrite De, andb_false_r. cbn [andb].
  replace (match class_of coll with
           | Some c => match item_as W c with Some f => if is_nothing v then v else f v | None => v end | None => v end)
    with (match class_of coll with
          | Some c => match item_as W c, v with None, _ | _, VNothing => v | Some f, _ => f v end | None => v end).
  - change (fun v => match v with VText s => VText (o_text opt s) | _ => v end) with (as_text (A := A) (C := C) opt).
    fold (as_text opt (match class_of coll with
          | Some c => match item_as W c, v with None, _ | _, VNothing => v | Some f, _ => f v end | None => v end)).
    destruct (hashable _); intros H1; now inversion H1.
  - destruct (class_of coll) as [c|]; auto. destruct (item_as W c); auto. now destruct v.
Qed.

Lemma gen_contents (v : val) g : plain v \/ collection v -> generator a_items v = Ok g -> g = contents v.
Proof. intros [P|P] G; destruct v; try (destruct P); cbn in *; congruence. Qed.

Lemma contents_nodup v : wfv v -> NoDup (map fst (contents v)).
Proof. intros Wv. destruct Wv; cbn [contents map]; try apply number_nodup; auto; constructor. Qed.
Lemma contents_wf v k u : wfv v -> In (k, u) (contents v) -> wfv u.
Proof. intros Wv I. destruct Wv; cbn [contents] in I; try (destruct I; fail); try apply number_in in I; eauto. Qed.
Lemma contents_rec v c d k u : wfv v -> collection v -> class_of v = Some c -> ValModel.item W c = IRec d ->
  In (k, u) (contents v) -> class_of u <> None.
Proof.
  intros Wv Cv Ec Ei I. destruct Wv; try (destruct Cv; fail); cbn in Ec, I; inversion Ec; subst.
  - apply number_in in I. eauto.
  - eauto.
Qed.
Lemma map_fst_map {X Y Z} (f : Y -> Z) (l : list (X * Y)) : map fst (map (fun kv => (fst kv, f (snd kv))) l) = map fst l.
Proof. rewrite map_map. reflexivity. Qed.

Lemma list_exact a b fa fb l : same_type a b -> plain a \/ collection a -> wfv a -> wfv b ->
  list_iter a b fa fb = Ok l -> (l = [] <-> same_counts veqb (counted a) (counted b)).
Proof.
  intros T P Wa Wb. destruct defaults as (De&Di&Dd&Df&Dr), quiet as (Du&Dm).
  assert (Q : plain b \/ collection b) by (destruct a, b; try (destruct T; fail); tauto).
  unfold DiffModel.list_iter. rewrite Du, Dm, Dd. intros H.
  apply bind_ok in H as (ga&Ga&H). apply bind_ok in H as (ka&Ka&H).
  apply bind_ok in H as (gb&Gb&H). apply bind_ok in H as (kb&Kb&H).
  apply gen_contents in Ga; auto. apply gen_contents in Gb; auto. subst ga gb.
  apply counted_keys in Ka, Kb. fold (counted a) in Ka. fold (counted b) in Kb. subst ka kb.
  assert (Da : NoDup (map fst (counted a))) by (unfold DiffExact.counted; rewrite map_fst_map; now apply contents_nodup).
  assert (Db : NoDup (map fst (counted b))) by (unfold DiffExact.counted; rewrite map_fst_map; now apply contents_nodup).
  rewrite <- (seq_diff_empty veqb elem_eqb (veq_equalities veqb vrefl vsym vtrans) (so_seq (ord fa fb)) _ _ (proj1 (ord_ok fa fb)) Da Db).
  assert (X : l = map (fun e => (fst (fst e), place fa (snd (fst e)), place fb (snd e)))
    (seq_diff veqb elem_eqb (so_seq (ord fa fb)) false false (counted a) (counted b))) by congruence.
  rewrite X. split; intros E0; [exact (map_eq_nil _ _ E0)|rewrite E0; reflexivity].
Qed.

Lemma identified_keys d fa l : forall r, id_keys hashable opt record_id d None fa l = Ok r ->
  r = map (fun kv => (fst kv, identity (snd kv))) l.
Proof.
  destruct defaults as (De&Di&Dd&Df&Dr).
  induction l as [|[k v] t IH]; cbn [id_keys map]; intros r H; [now inversion H|].
  rewrite Dd, Di in H. apply bind_ok in H as (i&Hi&H). cbn [andb] in H. destruct (negb _); [discriminate|].
  cbn [fst snd]. unfold DiffExact.identity at 1. rewrite Hi. destruct (key_of i) as [|ks]; [discriminate|].
  apply bind_ok in H as (r'&Hr&H). inversion H. now rewrite (IH _ Hr).
Qed.

Section Step.
Variable rec : val -> val -> list elem -> list elem -> res (list dentry).
Hypothesis IH : forall a b fa fb l, same_type a b \/ (class_of a <> None /\ class_of b <> None) -> wfv a -> wfv b ->
  rec a b fa fb = Ok l -> same_type a b /\ (l = [] <-> agree a b).

Lemma comparable_type (u v : val) : same_type u v -> comparable u = true.
Proof. now destruct u, v. Qed.

Lemma slot_exact c a b fa fb p l : In p (props W c) -> wfv a -> wfv b -> slot_diff rec a b fa fb p = Ok l ->
  (l = [] <-> (compared opt p -> (seen p a = None <-> seen p b = None) /\
                (forall x y, seen p a = Some x -> seen p b = Some y -> agree x y))).
Proof.
  intros Ip Wa Wb. destruct defaults as (De&Di&Dd&Df&Dr), quiet as (Du&Dm).
  unfold DiffModel.slot_diff, is_filtered. rewrite Df, orb_false_r.
  destruct (negb (o_extraneous opt) && p_extraneous p) eqn:Ex.
  { intros H. inversion H. split; auto. intros _ [c1|c1]; rewrite c1 in Ex; [discriminate|].
    rewrite andb_false_r in Ex. discriminate. }
  assert (Cp : compared opt p).
  { unfold compared. destruct (o_extraneous opt); auto. }
  pose proof (slot_seen p a) as Sa. pose proof (slot_seen p b) as Sb.
  destruct (seen p a) as [u|] eqn:Ea; [destruct Sa as [Sa Na]|]; (destruct (seen p b) as [v|] eqn:Eb; [destruct Sb as [Sb Nb]|]);
    rewrite Sa, Sb; rewrite ?Du, ?De, ?Dd; cbn [is_nothing]; rewrite ?Na, ?Nb; cbn [xorb andb orb negb].
  - assert (Wu : wfv u) by exact (seen_wf p c a u Ip Wa Ea). assert (Wv : wfv v) by exact (seen_wf p c b v Ip Wb Eb).
    destruct (types_match ceqb u v) eqn:T; cbn [orb].
    + apply same_type_iff in T. rewrite (comparable_type u v T). cbn [orb andb]. intros H.
      apply bind_ok in H as (m&Hm&H). assert (m = l) as -> by congruence.
      destruct (IH _ _ _ _ _ (or_introl T) Wu Wv Hm) as [_ X]. rewrite X. split.
      * intros G _. split; [split; congruence|]. intros x y Hx Hy. congruence.
      * intros G. now apply G.
    + apply same_type_false in T. rewrite andb_false_r.
      destruct (veqb u v) eqn:Ev; cbn [negb]; intros H; inversion H.
      * split; auto. intros _ _. split; [split; congruence|]. intros x y Hx Hy. inversion Hx; inversion Hy; subst. now apply agree_equal.
      * split; [discriminate|]. intros G. exfalso. destruct (G Cp) as [_ G2]. specialize (G2 u v eq_refl eq_refl).
        destruct G2 as [? ? _ G2|? ? G2|? ? ? G2]; congruence.
  - rewrite orb_false_r. replace (types_match ceqb u VNothing) with false by now destruct u. rewrite andb_false_r. intros H.
    assert (l = [(Removed, fa ++ [EStr (p_name p)], fb ++ [EStr (p_name p)])]) as -> by congruence.
    split; [discriminate|]. intros G. destruct (G Cp) as [[_ G1] _]. discriminate (G1 eq_refl).
  - replace (types_match ceqb VNothing v) with false by now destruct v. rewrite andb_false_r. intros H.
    assert (l = [(Added, fa ++ [EStr (p_name p)], fb ++ [EStr (p_name p)])]) as -> by congruence.
    split; [discriminate|]. intros G. destruct (G Cp) as [[G1 _] _]. discriminate (G1 eq_refl).
  - intros H. inversion H. split; auto. intros _ _. split; [tauto|]. congruence.
Qed.

Lemma insert_prop_in (p q : prop) l : In q (insert_prop p l) <-> q = p \/ In q l.
Proof.
  induction l as [|x t IHl]; cbn [insert_prop In].
  - intuition congruence.
  - destruct (str_ltb _ _); cbn [In]; rewrite ?IHl; intuition congruence.
Qed.
Lemma all_properties_in c p : In p (all_properties W c) <-> In p (props W c).
Proof.
  unfold all_properties.
  assert (G : forall l acc, In p (fold_left (fun acc p => insert_prop p acc) l acc) <-> In p l \/ In p acc).
  { induction l as [|x t IHl]; intros acc; cbn [fold_left In]; [tauto|]. rewrite IHl, insert_prop_in. intuition congruence. }
  rewrite G. cbn. tauto.
Qed.

Lemma record_exact c a b fa fb l : class_of a = Some c -> wfv a -> wfv b -> record_iter rec a b fa fb = Ok l ->
  is_nothing b = false ->
  same_type a b /\ (l = [] <-> (forall p, In p (props W c) -> compared opt p -> (seen p a = None <-> seen p b = None)) /\
                (forall p x y, In p (props W c) -> compared opt p -> seen p a = Some x -> seen p b = Some y -> agree x y)).
Proof.
  intros Ec Wa Wb H Nb. destruct defaults as (De&Di&Dd&Df&Dr), quiet as (Du&Dm). revert H.
  assert (Na : is_nothing a = false) by (destruct a; auto; discriminate).
  unfold DiffModel.record_iter. rewrite Dd, Na, Nb, Ec. cbn [negb andb orb].
  destruct (types_match ceqb a b) eqn:T; [|discriminate]. apply same_type_iff in T. cbn [negb andb]. intros H. split; auto.
  rewrite (concatM_nil _ _ _ H). split.
  - intros G.
    assert (X : forall p, In p (props W c) -> compared opt p -> (seen p a = None <-> seen p b = None) /\
                (forall x y, seen p a = Some x -> seen p b = Some y -> agree x y)).
    { intros p Ip Cp. apply (slot_exact c a b fa fb p []); auto. apply G. now apply all_properties_in. }
    split; [intros p Ip Cp; now apply X|]. intros p x y Ip Cp. now apply X.
  - intros [G1 G2] p Ip. destruct (concatM_ok _ _ _ H p Ip) as (u&Hu&_). rewrite Hu. f_equal.
    apply all_properties_in in Ip.
    apply (proj2 (slot_exact c a b fa fb p u Ip Wa Wb Hu)). intros Cp. split; [now apply G1|]. intros x y. now apply G2.
Qed.

Lemma identified_at v k i l1 l2 : identified v = l1 ++ (k, i) :: l2 -> exists x, In (k, x) (contents v) /\ i = identity x.
Proof.
  intros H. assert (I : In (k, i) (identified v)) by (rewrite H; apply in_or_app; right; now left).
  unfold DiffExact.identified in I. apply in_map_iff in I as ([k' x]&E&I). inversion E; subst. eauto.
Qed.

Lemma val_at_iff v k x : wfv v -> val_at (contents v) k = Ok x <-> In (k, x) (contents v).
Proof.
  intros Wv. split; [apply val_at_in|]. intros I. unfold val_at.
  rewrite (in_eget _ k x); auto using contents_nodup.
Qed.

Lemma records_exact c d a b fa fb l : same_type a b -> collection a -> class_of a = Some c -> ValModel.item W c = IRec d ->
  wfv a -> wfv b -> records_iter rec d a b fa fb = Ok l ->
  (l = [] <-> same_counts (keqb veqb) (identified a) (identified b) /\
     forall i j x y, paired (keqb veqb) (identified a) (identified b) i j ->
       In (i, x) (contents a) -> In (j, y) (contents b) -> agree x y).
Proof.
  intros T Ca Ec Ei Wa Wb. destruct defaults as (De&Di&Dd&Df&Dr), quiet as (Du&Dm).
  assert (Cb : collection b) by (destruct a, b; try (destruct T; fail); try (destruct Ca; fail); exact I).
  assert (Ecb : class_of b = Some c) by (destruct a, b; try (destruct T; fail); try (destruct Ca; fail); cbn in *; congruence).
  assert (Na : is_nothing a = false) by (destruct a; auto; destruct Ca).
  assert (Nb : is_nothing b = false) by (destruct b; auto; destruct Cb).
  unfold DiffModel.records_iter, id_selector. rewrite Df. cbn [bind]. rewrite Dr, Du, Dm, Na, Nb. cbn [orb negb andb]. intros H.
  apply bind_ok in H as (ga&Ga&H). apply bind_ok in H as (ia&Ia&H).
  apply bind_ok in H as (gb&Gb&H). apply bind_ok in H as (ib&Ib&H).
  apply gen_contents in Ga; auto. apply gen_contents in Gb; auto. subst ga gb.
  apply identified_keys in Ia, Ib. fold (identified a) in Ia. fold (identified b) in Ib. subst ia ib.
  destruct (key_equalities veqb vrefl vsym vtrans) as (E1&E2&E3&E4) eqn:EE. clear EE.
  pose proof (key_equalities veqb vrefl vsym vtrans) as KE.
  pose proof (only_none _ _ KE (identified a) (identified b)) as Oa.
  pose proof (only_none _ _ KE (identified b) (identified a)) as Ob.
  set (ta := tag (keqb veqb) [] (identified a)) in *. set (tb := tag (keqb veqb) [] (identified b)) in *.
  change (tmem (keqb veqb)) with (kmem veqb) in Oa, Ob.
  set (removed := filter (fun x => negb (kmem veqb x (map fst tb))) (map fst ta)) in *.
  set (added := filter (fun x => negb (kmem veqb x (map fst ta))) (map fst tb)) in *.
  set (pairs := if o_fuzzy opt then _ else _) in H.
  apply bind_ok in H as (l1&H1&H). apply bind_ok in H as (l2&H2&H). cbn [bind] in H.
  apply bind_ok in H as (l4&H4&H). apply bind_ok in H as (l5&H5&H).
  assert (l = l1 ++ l2 ++ [] ++ l4 ++ l5) as -> by congruence. cbn [app]. clear H.
  rewrite !app_nil_iff, (concatM_nil _ _ _ H1), (concatM_nil _ _ _ H2), (concatM_nil _ _ _ H4), (concatM_nil _ _ _ H5).
  destruct (ord_ok fa fb) as (_&_&Oc&Ofa&Ofb&_&Or&Oad).
  pose proof (fun i x I => contents_rec a c d i x Wa Ca Ec Ei I) as RA.
  pose proof (fun i x I => contents_rec b c d i x Wb Cb Ecb Ei I) as RB.
  pose proof (fun i x I => contents_wf a i x Wa I) as WA.
  pose proof (fun i x I => contents_wf b i x Wb I) as WB.
  (* common items *)
  assert (P1 : (forall x, In x (so_common (ord fa fb) (filter (fun x => kmem veqb x (map fst tb)) (map fst ta))) ->
      (do k <- key_at veqb ta x; do u <- val_at (contents a) k; do j <- key_at veqb tb x; do v <- val_at (contents b) j;
       rec u v (fa ++ [k]) (fb ++ [j])) = Ok []) <->
     forall i j x y, paired (keqb veqb) (identified a) (identified b) i j ->
       In (i, x) (contents a) -> In (j, y) (contents b) -> agree x y).
  { split.
    - intros G i j x y Pij Ix Iy. apply (paired_spec (keqb veqb) E1 E2 E3) in Pij as (z&Iz&La&Lb).
      fold ta in Iz, La. fold tb in Iz, Lb. change (tmem (keqb veqb)) with (kmem veqb) in Iz.
      specialize (G z (Permutation_in _ (Permutation_sym (Oc _)) Iz)).
      apply (key_at_ok veqb) in La, Lb. rewrite La in G. cbn [bind] in G. rewrite (proj2 (val_at_iff a i x Wa) Ix) in G. cbn [bind] in G.
      rewrite Lb in G. cbn [bind] in G. rewrite (proj2 (val_at_iff b j y Wb) Iy) in G. cbn [bind] in G.
      apply IH in G; [now apply G|right; split; eauto|eauto|eauto].
    - intros G z Iz. destruct (concatM_ok _ _ _ H1 z Iz) as (u&Hu&_). rewrite Hu. f_equal.
      apply (Permutation_in _ (Oc _)) in Iz.
      apply bind_ok in Hu as (i&Hi&Hu). apply bind_ok in Hu as (x&Hx&Hu). apply bind_ok in Hu as (j&Hj&Hu). apply bind_ok in Hu as (y&Hy&Hu).
      apply (val_at_iff a i x Wa) in Hx. apply (val_at_iff b j y Wb) in Hy. apply (key_at_ok veqb) in Hi, Hj.
      apply IH in Hu; [|right; split; eauto|eauto|eauto].
      apply (proj2 Hu). apply (G i j); auto. apply (paired_spec (keqb veqb) E1 E2 E3). eauto. }
  rewrite P1. clear P1.
  (* the others *)
  assert (P2 : (forall k, count (keqb veqb) k (identified a) <= count (keqb veqb) k (identified b)) /\
               (forall k, count (keqb veqb) k (identified b) <= count (keqb veqb) k (identified a)) <->
               same_counts (keqb veqb) (identified a) (identified b)).
  { split; [intros [X Y] k; apply Nat.le_antisymm; auto|]. intros X. split; intros k; rewrite X; auto. }
  rewrite <- P2, <- Oa, <- Ob. clear P2. split.
  - intros (G1&G2&G4&G5). split; auto.
    assert (N4 : filter (fun x => negb (kmem veqb x (map fst pairs))) removed = []).
    { destruct (filter _ removed) as [|x t] eqn:F; auto. exfalso.
      assert (Ix : In x (so_removed (ord fa fb) (x :: t))) by (apply (Permutation_in _ (Permutation_sym (Or _))); now left).
      specialize (G4 x Ix). cbv beta in G4. apply bind_ok in G4 as (k&_&G4). discriminate. }
    assert (N5 : filter (fun x => negb (kmem veqb x (map snd pairs))) added = []).
    { destruct (filter _ added) as [|x t] eqn:F; auto. exfalso.
      assert (Ix : In x (so_added (ord fa fb) (x :: t))) by (apply (Permutation_in _ (Permutation_sym (Oad _))); now left).
      specialize (G5 x Ix). cbv beta in G5. apply bind_ok in G5 as (k&_&G5). discriminate. }
    assert (NP : pairs = []).
    { destruct (o_fuzzy opt) eqn:Of; [|reflexivity]. destruct pairs as [|[x y] t] eqn:EP; [reflexivity|]. exfalso.
      assert (I1 : In (x, y) pairs) by (rewrite EP; now left). unfold pairs in I1.
      apply (C32_pairs_share veqb (v_falsy a_falsy)) in I1 as (Ix&Iy&_).
      3:{ eapply set_perm; [apply Ofa|]. apply set_filter, tagged_set; auto. }
      3:{ eapply set_perm; [apply Ofb|]. apply set_filter, tagged_set; auto. }
      2:{ repeat split; auto. }
      apply (Permutation_in _ (Ofa _)) in Ix. apply (Permutation_in _ (Ofb _)) in Iy.
      specialize (G2 (x, y) (or_introl eq_refl)). cbn [fst snd] in G2.
      apply bind_ok in G2 as (i&Hi&G2). apply bind_ok in G2 as (u&Hu&G2). apply bind_ok in G2 as (j&Hj&G2).
      apply bind_ok in G2 as (v&Hv&G2). apply bind_ok in G2 as (m&Hm&G2).
      rewrite app_nil_r in G2. assert (m = []) as -> by congruence.
      apply (val_at_iff a i u Wa) in Hu. apply (val_at_iff b j v Wb) in Hv.
      assert (Cu : class_of u <> None) by exact (contents_rec a c d i u Wa Ca Ec Ei Hu).
      assert (Cv : class_of v <> None) by exact (contents_rec b c d j v Wb Cb Ecb Ei Hv).
      apply IH in Hm; [|auto|eauto|eauto].
      pose proof (ids_ok eq_refl u v Cu Cv (proj1 (proj2 Hm) eq_refl)) as K.
      destruct x as [k n], y as [k' n']. apply (key_at_ok veqb) in Hi, Hj.
      apply (lookup_spec (keqb veqb) E1 E2 E3) in Hi as (p1&ki&p2&Pa&Ka&_), Hj as (q1&kj&q2&Pb&Kb&_).
      assert (ki = identity u).
      { apply identified_at in Pa as (u'&Iu&->). f_equal.
        apply (val_at_iff a i u' Wa) in Iu. apply (val_at_iff a i u Wa) in Hu. congruence. }
      assert (kj = identity v).
      { apply identified_at in Pb as (v'&Iv&->). f_equal.
        apply (val_at_iff b j v' Wb) in Iv. apply (val_at_iff b j v Wb) in Hv. congruence. }
      subst ki kj. assert (Kk : keqb veqb k k' = true) by eauto.
      unfold removed, added in Ix, Iy. apply filter_In in Ix as [Ix Mx], Iy as [Iy My].
      apply negb_true_iff in Mx, My. unfold kmem in Mx, My.
      apply (tmem_count_false (keqb veqb) E2 E3) in Mx, My.
      apply (tmem_self (keqb veqb) E1) in Ix, Iy. apply (tmem_count (keqb veqb) E2 E3) in Ix, Iy.
      rewrite <- !(count_eqb (keqb veqb) E2 E3 k k') in * by auto. lia. }
    rewrite NP in N4, N5. cbn [map kmem tmem existsb negb] in N4, N5.
    split; [rewrite <- N4|rewrite <- N5]; symmetry; apply filter_all.
  - intros ([R1 R2]&G). split; auto. assert (NP : pairs = []).
    { unfold pairs. rewrite R1, R2, (perm_nil _ (Ofa [])), (perm_nil _ (Ofb [])). now destruct (o_fuzzy opt). }
    rewrite NP, R1, R2. cbn [filter]. rewrite (perm_nil _ (Or [])), (perm_nil _ (Oad [])). repeat split; intros x [].
Qed.

Lemma dispatch_exact a b fa fb l : same_type a b \/ (class_of a <> None /\ class_of b <> None) -> wfv a -> wfv b ->
  dispatch rec a b fa fb = Ok l -> same_type a b /\ (l = [] <-> agree a b).
Proof.
  intros R Wa Wb. unfold DiffModel.dispatch.
  assert (Na : is_nothing a = false) by (destruct a; auto; destruct R as [R|[R _]]; [now destruct b|now destruct R]).
  assert (Nb : is_nothing b = false) by (destruct b; auto; destruct R as [R|[_ R]]; [now destruct a|now destruct R]).
  rewrite Na.
  (* plain lists and dicts *)
  assert (P : plain a -> list_iter a b fa fb = Ok l -> same_type a b /\ (l = [] <-> agree a b)).
  { intros Pa H. assert (T : same_type a b) by (destruct R as [R|[R _]]; auto; destruct a; try (destruct Pa; fail); now destruct R).
    split; auto. rewrite (list_exact a b fa fb l T (or_introl Pa) Wa Wb H). split.
    - intros G. now apply agree_plain.
    - intros G. destruct G as [u v G|u v _ _ G|u v c _ G]; [now destruct G|exact G|]. destruct u; try (destruct Pa; fail); discriminate. }
  assert (Inv : forall c, class_of a = Some c -> agree a b -> same_type a b ->
    ((forall p, In p (props W c) -> compared opt p -> (seen p a = None <-> seen p b = None)) /\
     (forall p x y, In p (props W c) -> compared opt p -> seen p a = Some x -> seen p b = Some y -> agree x y)) /\
    (collection a -> ValModel.item W c = IPlain -> same_counts veqb (counted a) (counted b)) /\
    (collection a -> forall d, ValModel.item W c = IRec d -> same_counts (keqb veqb) (identified a) (identified b) /\
      forall i j x y, paired (keqb veqb) (identified a) (identified b) i j ->
       In (i, x) (contents a) -> In (j, y) (contents b) -> agree x y)).
  { intros c Ec G T. destruct G as [u v G|u v _ G|u v c' _ Ec' G1 G2 G3 G4 G5]; [now destruct G|destruct u; try (destruct G; fail); discriminate|].
    assert (c' = c) as -> by congruence. repeat split; auto; try (now apply G1).
    - now apply (G4 H d).
    - intros i j x y. now apply (G5 H d). }
  destruct a as [| | | | | |c sl|c sl la|c sl la]; try discriminate Na.
  - destruct R as [[]|[R _]]; now destruct R.
  - destruct R as [[]|[R _]]; now destruct R.
  - destruct R as [[]|[R _]]; now destruct R.
  - apply P. exact I.
  - apply P. exact I.
  - intros H. destruct (record_exact c (VRec c sl) b fa fb l eq_refl Wa Wb H Nb) as [T X]. split; auto. rewrite X. split.
    + intros [G1 G2]. apply (agree_record W veqb repr a_hash opt record_id (VRec c sl) b c T eq_refl G1 G2); intros [].
    + intros G. exact (proj1 (Inv c eq_refl G T)).
  - intros H. apply bind_ok in H as (l1&H1&H). apply bind_ok in H as (l2&H2&H). assert (l = l1 ++ l2) as -> by congruence. clear H.
    destruct (record_exact c (VLC c sl la) b fa fb l2 eq_refl Wa Wb H2 Nb) as [T X]. split; auto. rewrite app_nil_iff, X. clear X.
    revert H1. unfold DiffModel.collection_iter. cbn [is_nothing class_of]. destruct (ValModel.item W c) as [|d|] eqn:Ei; [discriminate| |]; intros H1.
    + rewrite (records_exact c d (VLC c sl la) b fa fb l1 T I eq_refl Ei Wa Wb H1). split.
      * intros ([G3 G4]&G1&G2). apply (agree_record W veqb repr a_hash opt record_id (VLC c sl la) b c T eq_refl G1 G2); [congruence|auto|].
        intros _ d' i j x y _. apply G4.
      * intros G. destruct (Inv c eq_refl G T) as (G1&_&G3). split; auto. now apply (G3 I d).
    + rewrite (list_exact (VLC c sl la) b fa fb l1 T (or_intror I) Wa Wb H1). split.
      * intros (G3&G1&G2). apply (agree_record W veqb repr a_hash opt record_id (VLC c sl la) b c T eq_refl G1 G2); congruence.
      * intros G. destruct (Inv c eq_refl G T) as (G1&G3&_). split; [exact (G3 I Ei)|exact G1].
  - intros H. apply bind_ok in H as (l1&H1&H). apply bind_ok in H as (l2&H2&H). assert (l = l1 ++ l2) as -> by congruence. clear H.
    destruct (record_exact c (VDC c sl la) b fa fb l2 eq_refl Wa Wb H2 Nb) as [T X]. split; auto. rewrite app_nil_iff, X. clear X.
    revert H1. unfold DiffModel.collection_iter. cbn [is_nothing class_of]. destruct (ValModel.item W c) as [|d|] eqn:Ei; [discriminate| |]; intros H1.
    + rewrite (records_exact c d (VDC c sl la) b fa fb l1 T I eq_refl Ei Wa Wb H1). split.
      * intros ([G3 G4]&G1&G2). apply (agree_record W veqb repr a_hash opt record_id (VDC c sl la) b c T eq_refl G1 G2); [congruence|auto|].
        intros _ d' i j x y _. apply G4.
      * intros G. destruct (Inv c eq_refl G T) as (G1&_&G3). split; auto. now apply (G3 I d).
    + rewrite (list_exact (VDC c sl la) b fa fb l1 T (or_intror I) Wa Wb H1). split.
      * intros (G3&G1&G2). apply (agree_record W veqb repr a_hash opt record_id (VDC c sl la) b c T eq_refl G1 G2); congruence.
      * intros G. destruct (Inv c eq_refl G T) as (G1&G3&_). split; [exact (G3 I Ei)|exact G1].
Qed.
End Step.

Lemma diff_exact n : forall a b fa fb l, same_type a b \/ (class_of a <> None /\ class_of b <> None) -> wfv a -> wfv b ->
  diff n a b fa fb = Ok l -> same_type a b /\ (l = [] <-> agree a b).
Proof.
  induction n as [|n IHn]; intros a b fa fb l R Wa Wb; cbn [DiffModel.diff]; [discriminate|].
  now apply dispatch_exact.
Qed.
End Exact.
