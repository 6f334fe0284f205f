From Coq Require Import List Arith NArith ZArith Bool Lia Permutation.
From Verif Require Import Prelude SelPathModel FSModel PySeq MFSModel ValModel EqModel EqProofs SeqDiffModel SeqDiffProofs
  SeqDiffProps FuzzyModel FuzzyProps MFSProofs DiffModel DiffProofs DiffSwap DiffTotal DiffExact DiffEntries DiffOnce DuckSpec DuckProofs BlankProofs ItemsSpec.
Import ListNotations.

Lemma nested_blank {A C} : forall v : val A C, nested_empty v = true <-> blank v.
Proof.
  induction v as [| |s|a|t l IHl| | | |] using val_ind'; cbn [nested_empty]; try (split; [discriminate|intros X; inversion X]); try (split; auto; constructor).
  - destruct s; split; try discriminate; auto; try constructor. intros X; inversion X.
  - destruct t; [|split; [discriminate|intros X; inversion X]]. rewrite forallb_forall. rewrite Forall_forall in IHl. split.
    + intros F. constructor. intros x I. apply IHl; auto.
    + intros X x I. inversion X as [| | |l' F E]; subst. apply IHl; auto.
Qed.

Section Key.
Context {A C H : Type}.
Variable W : classes A C.
Notation val := (val A C).
Notation prop := (prop A C).
Variable sort_items : list (elem * val) -> list (elem * val).
Variable alien_atom : C -> A -> res (list (elem * val)).
Variable a_hash : A -> bool.
Variable ahash : A -> res H.
Variables hnothing hnone : H.
Variable htext : str -> H.
Variable htuple : list H -> H.
Variable opt : options.
Notation record_id n := (rid W sort_items alien_atom a_hash ahash hnothing hnone htext htuple n
  (Some (fun v p o => normalize_slot (A := A) (C := C) opt v p o))).
Variable S0 : C -> Prop.
Hypothesis tame : plain_keys W S0.

Lemma sorted_in c p : In p (sorted_properties W c) <-> In p (props W c) /\ p_extraneous p = false.
Proof.
  unfold sorted_properties.
  assert (G : forall l acc, In p (fold_left (fun acc q => insert_prop q acc) l acc) <-> In p l \/ In p acc).
  { assert (I1 : forall q l, In p (insert_prop q l) <-> q = p \/ In p l).
    { intros q. induction l as [|x l IH]; cbn [insert_prop]; [cbn; tauto|]. destruct (str_ltb _ _); cbn [In]; [tauto|]. rewrite IH. cbn. tauto. }
    induction l as [|x l IH]; intros acc; cbn [fold_left In]; [tauto|]. rewrite IH, I1. tauto. }
  rewrite G. cbn [In]. rewrite filter_In, negb_true_iff. tauto.
Qed.
Lemma mapM_in {X Y} (f : X -> res Y) l : forall r, mapM f l = Ok r -> (forall P : Y -> Prop, (forall y, In y r -> P y) <-> (forall x, In x l -> exists y, f x = Ok y /\ P y)).
Proof.
  induction l as [|x l IH]; cbn [mapM]; intros r E P.
  - injection E as <-. split; intros F ? [].
  - apply bind_ok in E as (y & Ey & E). apply bind_ok in E as (r' & Er & E). injection E as <-. specialize (IH r' Er P). split.
    + intros F z [<-|I]; [exists y; split; auto; apply F; now left|]. apply IH; auto. intros w Iw. apply F. now right.
    + intros F z [<-|I]; [destruct (F x (or_introl eq_refl)) as (y' & E1 & P1); congruence|]. revert z I. apply IH. intros w Iw. apply F. now right.
Qed.

Lemma fold_none {X Y} (g : res X -> option Y -> res X) (l : list (option Y)) (acc : X) :
  (forall x, g (Ok x) None = Ok x) -> (forall vt, In vt l -> vt = None) -> fold_left g l (Ok acc) = Ok acc.
Proof.
  intros G. induction l as [|vt l IHl]; intros F; [reflexivity|]. cbn [fold_left]. rewrite (F vt (or_introl eq_refl)), G. apply IHl. intros; apply F; now right.
Qed.
(** the value rid puts into the identity and the field *)
Lemma blank_norm p (v : val) : p_compare_as p = None ->
  let u := normalize_slot opt (match slot v (p_name p) with Some u => u | None => VNone end) p v in
  u = field opt p v \/ (u = VNothing /\ (field opt p v = VNone \/ field opt p v = VText [])).
Proof.
  intros N. cbv zeta. unfold normalize_slot, normalize_val, field. rewrite N.
  destruct (slot v (p_name p)) as [[| |s| | | | | |]|]; try (destruct (o_empty_slots opt); cbn; auto; fail).
  destruct (o_empty_slots opt); cbn; auto. destruct (o_text opt s); auto.
Qed.
Lemma blank_eq p (v : val) : p_compare_as p = None ->
  blank (normalize_slot opt (match slot v (p_name p) with Some u => u | None => VNone end) p v) <-> blank (field opt p v).
Proof.
  intros N. destruct (blank_norm p v N) as [->|[-> [X|X]]]; rewrite ?X; [tauto| |]; split; intros _; constructor.
Qed.
Lemma slot_free d (u w : val) : (forall n, slot u n = None) -> (forall n, slot w n = None) -> blank_item W opt d u -> blank_item W opt d w.
Proof.
  intros Hu Hw B. inversion B as [c v F E1 E2]; subst. constructor. intros p K. left. unfold field. rewrite Hw. constructor.
Qed.
Lemma all_missing d (u : val) : (forall n, slot u n = None) -> blank_item W opt d u.
Proof. intros Hu. constructor. intros p K. left. unfold field. rewrite Hu. constructor. Qed.

Lemma key_blank n : forall c v i, S0 c -> record_id n (RClass c) None v = Ok i -> exists l, i = VSeq true l /\ (l = [] -> forall q, ~ key_field W c q) /\ (nested_empty i = true <-> blank_item W opt c v).
Proof.
  induction n as [|n IH]; intros c v i Sc E; [discriminate E|]. cbn [rid] in E. destruct (tame c Sc) as [Kc Kp].
  cbn [sel_true andb] in E.
  set (F := fun p : prop => _) in E.
  assert (E' : (do ids <- mapM F (match pkey W c with [] => sorted_properties W c | _ => pkey W c end); Ok (VSeq true ids)) = Ok i).
  { destruct (pkey W c) as [|q0 qs] eqn:Ep; [|exact E]. destruct Kc as [Kc|Kc]; [|now destruct Kc]. rewrite Kc in E. exact E. }
  clear E. apply bind_ok in E' as (ids & Em & E). injection E as <-.
  assert (Ks : forall p, In p (match pkey W c with [] => sorted_properties W c | _ => pkey W c end) <-> key_field W c p).
  { intros p. unfold key_field. destruct (pkey W c); [apply sorted_in|tauto]. }
  exists ids. split; [reflexivity|]. split.
  { intros -> q Kq. apply Ks in Kq. pose proof (proj1 (mapM_in F _ [] Em (fun _ => True)) (fun _ _ => Logic.I) q Kq) as (y & Ey & _).
    destruct (match pkey W c with [] => sorted_properties W c | _ => pkey W c end) as [|x xs]; [destruct Kq|].
    cbn [mapM] in Em. apply bind_ok in Em as (? & _ & Em). apply bind_ok in Em as (? & _ & Em). discriminate Em. }
  cbn [nested_empty]. rewrite forallb_forall, (mapM_in F _ ids Em (fun y => nested_empty y = true)).
  assert (One : forall p y, key_field W c p -> F p = Ok y ->
    (nested_empty y = true <-> blank (field opt p v) \/ exists d, p_valuetype p = Some [Some d] /\ blank_item W opt d (field opt p v))).
  { intros p y K Ey. destruct (Kp p K) as [Nc Vt]. unfold F in Ey. cbn [normal] in Ey. pose proof (blank_eq p v Nc) as Be. pose proof (blank_norm p v Nc) as Bn. cbv zeta in Bn.
    set (u := normalize_slot opt (match slot v (p_name p) with Some u => u | None => VNone end) p v) in *.
    destruct Vt as [Vt|(d & Vt & Sd & q & Kq)].
    - assert (R : nested_empty y = true <-> blank (field opt p v)).
      { destruct (p_valuetype p) as [vts|] eqn:Ev.
        - destruct (is_same u _).
          + injection Ey as <-. now rewrite nested_blank.
          + match type of Ey with bind (fold_left ?g _ _) _ = _ => assert (Z : fold_left g vts (Ok ([], 0)) = Ok ([], 0)) end.
            { apply fold_none; [intros [vp cnt]; reflexivity|]. intros vt I. exact (Vt vts vt eq_refl I). }
            rewrite Z in Ey. cbn [bind fst] in Ey.
            match type of Ey with match ?x with Ok _ => _ | Err _ => _ end = _ => destruct x; [|discriminate Ey] end. injection Ey as <-. now rewrite nested_blank.
        - injection Ey as <-. now rewrite nested_blank. }
      rewrite R. split; auto. intros [B|(d & E1 & B)]; auto. exfalso. specialize (Vt _ (Some d) E1 (or_introl eq_refl)). discriminate Vt.
    - rewrite Vt in Ey. destruct (is_same u (normalize_slot opt VNone p v)) eqn:Is.
      + injection Ey as <-. rewrite nested_blank, Be. split; auto. intros _. apply Be. unfold u in *. destruct (normalize_slot opt (match slot v (p_name p) with Some u => u | None => VNone end) p v); try discriminate Is; constructor.
      + cbn [fold_left bind] in Ey. apply bind_ok in Ey as (best & Eb & Ey). apply bind_ok in Eb as (j & Ej & Eb).
        destruct (IH d u j Sd Ej) as (l & -> & Nl & Bl). cbn [length Nat.eqb orb] in Eb. injection Eb as <-. cbn [fst] in Ey.
        destruct l as [|x l]; [exfalso; exact (Nl eq_refl q Kq)|].
        match type of Ey with match ?x with Ok _ => _ | Err _ => _ end = _ => destruct x; [|discriminate Ey] end. injection Ey as <-. rewrite Bl.
        assert (Q : blank_item W opt d u <-> blank_item W opt d (field opt p v)).
        { destruct Bn as [E1|[Eu Ef]]; [rewrite E1; tauto|]. split; intros _; apply all_missing; [destruct Ef as [->| ->]|rewrite Eu]; reflexivity. }
        rewrite Q. split; [intros B; right; now exists d|]. intros [B|(d' & E1 & B)].
        * apply all_missing. inversion B; reflexivity.
        * rewrite Vt in E1. now injection E1 as <-. }
  split.
  - intros G. constructor. intros p K. destruct (G p (proj2 (Ks p) K)) as (y & Ey & Ny). now apply (One p y K Ey).
  - intros B p Ip. inversion B as [c' v' G E1 E2]; subst. pose proof (proj1 (Ks p) Ip) as K.
    destruct (proj1 (mapM_in F _ ids Em (fun _ => True)) (fun _ _ => Logic.I) p Ip) as (y & Ey & _). exists y. split; auto. apply (One p y K Ey). now apply G.
Qed.
End Key.

(** ** Leaving items out *)
Section Absent.
Context {A C : Type}.
Variable W : classes A C.
Variable ceqb : C -> C -> bool.
Notation val := (val A C).
Notation prop := (prop A C).
Variable veqb : val -> val -> bool.
Variable hashable : val -> bool.
Variable repr : val -> str.
Variable a_hash a_falsy : A -> bool.
Variable a_items : A -> res (list (elem * val)).
Variable opt : options.
Variable record_id : rtype C -> option mfs -> val -> res val.
Variable ord : list elem -> list elem -> dorders (A := A) (C := C).
Hypothesis ord_ok : forall fa fb, orders_ok (ord fa fb).
Hypothesis empty : o_empty_items opt = true.
Hypothesis unfiltered : o_filter opt = None.
Notation diff := (diff W ceqb veqb hashable repr a_hash a_falsy a_items opt record_id ord).
Notation records_iter := (records_iter veqb hashable a_falsy a_items opt record_id ord).
Notation record_iter := (record_iter W ceqb veqb opt).
Notation id_keys := (id_keys hashable opt record_id).

(** left out *)
Definition void (d : C) (v : val) : bool := match record_id (if o_duck opt then RClass d else RAuto) None v with Ok i => nested_empty i | Err _ => false end.
Definition kept (d : C) (l : list (elem * val)) : list (elem * val) := filter (fun kv => negb (void d (snd kv))) l.

Lemma ids_kept d fa l : id_keys d None fa (kept d l) = id_keys d None fa l.
Proof.
  unfold kept. induction l as [|[k v] l IH]; cbn [filter snd DiffModel.id_keys]; [reflexivity|]. rewrite empty.
  unfold void at 1. destruct (record_id (if o_duck opt then RClass d else RAuto) None v) as [i|e] eqn:E; cbn [negb bind].
  - destruct (nested_empty i) eqn:N; cbn [negb andb]; [exact IH|]. cbn [DiffModel.id_keys]. rewrite empty, E. cbn [bind]. rewrite N. cbn [andb]. now rewrite IH.
  - cbn [DiffModel.id_keys]. now rewrite E.
Qed.
Lemma ids_in d fa l : forall r, id_keys d None fa l = Ok r -> forall k, In k (map fst r) -> exists v, In (k, v) l /\ void d v = false.
Proof.
  induction l as [|[k v] l IH]; cbn [DiffModel.id_keys]; intros r H k0 I; [injection H as <-; destruct I|]. rewrite empty in H.
  apply bind_ok in H as (i & Hi & H). cbn [andb] in H. destruct (nested_empty i) eqn:N; [destruct (IH _ H k0 I) as (w & Iw & Vw); exists w; split; auto; now right|].
  destruct (negb _); [discriminate|]. destruct (key_of i); [discriminate|]. apply bind_ok in H as (r' & Hr & H). injection H as <-.
  destruct I as [<-|I]; [exists v; split; [now left|]; unfold void; now rewrite Hi|]. destruct (IH _ Hr k0 I) as (w & Iw & Vw). exists w. split; auto. now right.
Qed.
Lemma get_kept d l k : NoDup (map fst l) -> (exists v, In (k, v) l /\ void d v = false) -> val_at (kept d l) k = val_at l k.
Proof.
  intros N (v & I & V). unfold val_at. f_equal. revert N I. unfold kept. induction l as [|[j w] l IH]; cbn [map fst]; intros N I; [destruct I|destruct I as [E|I]].
  - injection E as -> ->. cbn [filter snd]. rewrite V. cbn [negb dict_get]. now rewrite (proj2 (elem_eqb_iff k k) eq_refl).
  - apply NoDup_cons_iff in N as [Nj N]. assert (Z : elem_eqb j k = false).
    { destruct (elem_eqb j k) eqn:Z; auto. apply elem_eqb_iff in Z. subst j. exfalso. apply Nj. apply in_map_iff. now exists (k, v). }
    cbn [filter snd dict_get]. rewrite Z. destruct (negb (void d w)); cbn [dict_get]; rewrite ?Z; apply IH; auto.
Qed.
Lemma key_at_in ia x k : key_at veqb (tag (keqb veqb) [] ia) x = Ok k -> In k (map fst ia).
Proof.
  intros H. apply (key_at_ok veqb) in H. apply (lookup_in (keqb veqb)) in H as (y & I & _).
  rewrite <- (tag_snd (keqb veqb) ia []). apply in_map_iff. now exists (y, k).
Qed.

Lemma records_kept rec d a b a' b' ga gb fa fb :
  generator a_items a = Ok ga -> generator a_items b = Ok gb -> generator a_items a' = Ok (kept d ga) -> generator a_items b' = Ok (kept d gb) ->
  is_nothing a' = is_nothing a -> is_nothing b' = is_nothing b -> NoDup (map fst ga) -> NoDup (map fst gb) ->
  records_iter rec d a b fa fb = records_iter rec d a' b' fa fb.
Proof.
  intros Ga Gb Ga' Gb' Na Nb Da Db. unfold DiffModel.records_iter, id_selector. rewrite unfiltered, Ga, Gb, Ga', Gb', Na, Nb. cbn [bind]. rewrite !ids_kept.
  destruct (id_keys d None fa ga) as [ia|] eqn:Ia; [|reflexivity]. cbn [bind]. destruct (id_keys d None fa gb) as [ib|] eqn:Ib; [|reflexivity]. cbn [bind].
  assert (Va : forall k, In k (map fst ia) -> val_at (kept d ga) k = val_at ga k) by (intros k I; apply get_kept; auto; exact (ids_in d fa ga ia Ia k I)).
  assert (Vb : forall k, In k (map fst ib) -> val_at (kept d gb) k = val_at gb k) by (intros k I; apply get_kept; auto; exact (ids_in d fa gb ib Ib k I)).
  assert (Ka : forall X (F : elem -> val -> res X) x, (do k <- key_at veqb (tag (keqb veqb) [] ia) x; do y <- val_at ga k; F k y) =
    (do k <- key_at veqb (tag (keqb veqb) [] ia) x; do y <- val_at (kept d ga) k; F k y)).
  { intros X F x. destruct (key_at _ _ x) as [k|] eqn:K; cbn [bind]; auto. now rewrite (Va k (key_at_in _ _ _ K)). }
  assert (Kb : forall X (F : elem -> val -> res X) x, (do k <- key_at veqb (tag (keqb veqb) [] ib) x; do y <- val_at gb k; F k y) =
    (do k <- key_at veqb (tag (keqb veqb) [] ib) x; do y <- val_at (kept d gb) k; F k y)).
  { intros X F x. destruct (key_at _ _ x) as [k|] eqn:K; cbn [bind]; auto. now rewrite (Vb k (key_at_in _ _ _ K)). }
  assert (Kab : forall X (F : elem -> val -> elem -> val -> res X) x y,
    (do k <- key_at veqb (tag (keqb veqb) [] ia) x; do u <- val_at ga k; do j <- key_at veqb (tag (keqb veqb) [] ib) y; do v <- val_at gb j; F k u j v) =
    (do k <- key_at veqb (tag (keqb veqb) [] ia) x; do u <- val_at (kept d ga) k; do j <- key_at veqb (tag (keqb veqb) [] ib) y; do v <- val_at (kept d gb) j; F k u j v)).
  { intros X F x y. rewrite Ka. destruct (key_at _ _ x) as [k|]; cbn [bind]; auto. destruct (val_at _ k) as [u|]; cbn [bind]; [|reflexivity]. apply (Kb X (F k u)). }
  assert (Bind : forall X Y (x x' : res X) (f f' : X -> res Y), x = x' -> (forall z, f z = f' z) -> bind x f = bind x' f') by (intros X Y x x' f f' -> Hf; destruct x'; cbn; auto).
  destruct (ord_ok fa fb) as (_&Ok_&_).
  destruct (o_recurse opt) eqn:Er.
  - apply Bind; [|reflexivity]. apply concatM_ext. intros k I. apply (Permutation_in _ (Ok_ _)) in I. apply filter_In in I as [I1 I2].
    rewrite (tag_snd (keqb veqb) ia []) in I1. rewrite (tag_snd (keqb veqb) ib []) in I2. apply existsb_exists in I2 as (k' & I2 & Ek). apply elem_eqb_iff in Ek. subst k'.
    now rewrite (Va k I1), (Vb k I2).
  - apply Bind; [|intros l1; apply Bind; [|reflexivity]].
    + destruct (is_nothing a || is_nothing b); apply concatM_ext; intros x _; [destruct (is_nothing a); [apply Kb|apply Ka]|]. apply (Kab _ (fun k u j v => rec u v (fa ++ [k]) (fb ++ [j]))).
    + apply concatM_ext. intros x _. apply (Kab _ (fun k u j v => do l <- rec u v (fa ++ [k]) (fb ++ [j]); Ok (l ++ _))).
Qed.

(** the slots of two collections which differ in their items *)
Lemma record_kept rec c sa sb la la' lb lb' fa fb : (forall p, In p (props W c) -> p_compare_as p = None) ->
  record_iter rec (VDC c sa la) (VDC c sb lb) fa fb = record_iter rec (VDC c sa la') (VDC c sb lb') fa fb.
Proof.
  intros N. unfold DiffModel.record_iter. cbn [is_nothing types_match class_of]. match goal with |- (if ?x then _ else _) = _ => destruct x; auto end.
  apply concatM_ext. intros p Ip. apply (Permutation_in _ (all_properties_perm W c)) in Ip. unfold DiffModel.slot_diff, normalize_slot. rewrite (N p Ip). reflexivity.
Qed.
Lemma dict_kept n c d sa sb la lb fa fb : ValModel.item W c = IRec d -> (forall p, In p (props W c) -> p_compare_as p = None) -> NoDup (map fst la) -> NoDup (map fst lb) ->
  diff n (VDC c sa la) (VDC c sb lb) fa fb = diff n (VDC c sa (kept d la)) (VDC c sb (kept d lb)) fa fb.
Proof.
  intros Ei N Na Nb. destruct n as [|n]; [reflexivity|]. cbn [DiffModel.diff]. unfold DiffModel.dispatch, DiffModel.collection_iter. cbn [is_nothing class_of]. rewrite Ei.
  rewrite (records_kept (diff n) d (VDC c sa la) (VDC c sb lb) (VDC c sa (kept d la)) (VDC c sb (kept d lb)) la lb fa fb); auto.
  now rewrite (record_kept (diff n) c sa sb la (kept d la) lb (kept d lb)).
Qed.
Lemma dict_alone n c d sa la fa fb (side : bool) : ValModel.item W c = IRec d -> (forall p, In p (props W c) -> p_compare_as p = None) -> NoDup (map fst la) ->
  diff n (lft side (VDC c sa la)) (rgt side (VDC c sa la)) fa fb = diff n (lft side (VDC c sa (kept d la))) (rgt side (VDC c sa (kept d la))) fa fb.
Proof.
  intros Ei N Na. destruct n as [|n]; [reflexivity|]. cbn [DiffModel.diff]. unfold DiffModel.dispatch, DiffModel.collection_iter.
  assert (R : forall rec, record_iter rec (lft side (VDC c sa la)) (rgt side (VDC c sa la)) fa fb = record_iter rec (lft side (VDC c sa (kept d la))) (rgt side (VDC c sa (kept d la))) fa fb).
  { intros rec. unfold DiffModel.record_iter. destruct side; cbn [lft rgt is_nothing types_match class_of]; (match goal with |- (if ?x then _ else _) = _ => destruct x; auto end);
    apply concatM_ext; intros p Ip; apply (Permutation_in _ (all_properties_perm W c)) in Ip; unfold DiffModel.slot_diff, normalize_slot; rewrite (N p Ip); reflexivity. }
  rewrite R. destruct side; cbn [lft rgt is_nothing class_of]; rewrite Ei.
  - rewrite (records_kept (diff n) d (VDC c sa la) VNothing (VDC c sa (kept d la)) VNothing la [] fa fb); auto. constructor.
  - rewrite (records_kept (diff n) d VNothing (VDC c sa la) VNothing (VDC c sa (kept d la)) [] la fa fb); auto. constructor.
Qed.

(** ** Where entries are *)
Definition keyed (Ka Kb : elem -> Prop) (fa fb : list elem) (l : list dentry) : Prop :=
  forall t p q, In (t, p, q) l -> (exists p', p = fa ++ p' /\ at_key Ka p') /\ (exists q', q = fb ++ q' /\ at_key Kb q').
Section Keyed.
Variables Ka Kb : elem -> Prop.
Variables fa fb : list elem.
Notation keyed := (keyed Ka Kb fa fb).
Lemma keyed_app l m : keyed l -> keyed m -> keyed (l ++ m).
Proof. intros H G t p q I. apply in_app_iff in I as [I|I]; eauto. Qed.
Lemma keyed_nil : keyed [].
Proof. intros t p q []. Qed.
Lemma keyed_under k j l : Ka k -> Kb j -> under (fa ++ [k]) (fb ++ [j]) l -> keyed l.
Proof.
  intros Hk Hj U t p q I. destruct (U t p q I) as (p' & q' & -> & ->). rewrite <- !app_assoc. split; [exists ([k] ++ p')|exists ([j] ++ q')]; auto.
Qed.
Lemma keyed_one t k j : Ka k -> Kb j -> keyed [(t, fa ++ [k], fb ++ [j])].
Proof. intros Hk Hj. apply (keyed_under k j); auto. intros t' p q [E|[]]. injection E as <- <- <-. exists [], []. now rewrite !app_nil_r. Qed.
Lemma keyed_l t k : Ka k -> keyed [(t, fa ++ [k], fb)].
Proof. intros Hk t' p q [E|[]]. injection E as <- <- <-. split; [exists [k]; auto|exists []; rewrite app_nil_r; split; [auto|exact Logic.I]]. Qed.
Lemma keyed_r t k : Kb k -> keyed [(t, fa, fb ++ [k])].
Proof. intros Hk t' p q [E|[]]. injection E as <- <- <-. split; [exists []; rewrite app_nil_r; split; [auto|exact Logic.I]|exists [k]; auto]. Qed.
Lemma keyed_concat {X} (f : X -> res (list dentry)) xs : (forall x u, In x xs -> f x = Ok u -> keyed u) -> forall l, concatM f xs = Ok l -> keyed l.
Proof.
  induction xs as [|x xs IHx]; cbn [concatM]; intros F l H; [injection H as <-; apply keyed_nil|].
  apply bind_ok in H as (u&Hu&H). apply bind_ok in H as (v&Hv&H). injection H as <-. apply keyed_app; [eapply F; eauto; now left|]. eapply IHx; eauto. intros y w I. apply F. now right.
Qed.
Lemma keyed_if (b : bool) l m : keyed l -> keyed m -> keyed (if b then l else m).
Proof. now destruct b. Qed.

Lemma records_keyed rec d a b ga gb l : (forall u v fa fb l, rec u v fa fb = Ok l -> under fa fb l) ->
  is_nothing a = false -> is_nothing b = false -> generator a_items a = Ok ga -> generator a_items b = Ok gb ->
  (forall k v, In (k, v) ga -> void d v = false -> Ka k) -> (forall k v, In (k, v) gb -> void d v = false -> Kb k) ->
  records_iter rec d a b fa fb = Ok l -> keyed l.
Proof.
  intros IH Na Nb Ga Gb HKa HKb. unfold DiffModel.records_iter, id_selector. rewrite unfiltered, Ga, Gb, Na, Nb. cbn [bind orb]. intros H.
  apply bind_ok in H as (ia & Ia & H). apply bind_ok in H as (ib & Ib & H). cbv zeta in H.
  assert (Va : forall k, In k (map fst ia) -> Ka k) by (intros k I; destruct (ids_in d fa ga ia Ia k I) as (v & Iv & Vv); eauto).
  assert (Vb : forall k, In k (map fst ib) -> Kb k) by (intros k I; destruct (ids_in d fa gb ib Ib k I) as (v & Iv & Vv); eauto).
  assert (Xa : forall x k, key_at veqb (tag (keqb veqb) [] ia) x = Ok k -> Ka k) by (intros x k K; eapply Va, key_at_in, K).
  assert (Xb : forall x k, key_at veqb (tag (keqb veqb) [] ib) x = Ok k -> Kb k) by (intros x k K; eapply Vb, key_at_in, K).
  destruct (ord_ok fa fb) as (_&Ok_&_).
  assert (Ta := tag_snd (keqb veqb) ia []). assert (Tb := tag_snd (keqb veqb) ib []).
  destruct (o_recurse opt).
  - apply bind_ok in H as (l1 & H1 & H). injection H as <-. apply keyed_app; [|apply keyed_app].
    + revert H1. apply keyed_concat. intros k u I H. apply (Permutation_in _ (Ok_ _)) in I. apply filter_In in I as [I1 I2]. rewrite Ta in I1. rewrite Tb in I2.
      apply existsb_exists in I2 as (k' & I2 & Ek). apply elem_eqb_iff in Ek. subst k'.
      apply bind_ok in H as (x & _ & H). apply bind_ok in H as (y & _ & H). eapply keyed_under; [apply Va, I1|apply Vb, I2|eapply IH, H].
    + intros t p q I. apply in_map_iff in I as (k & E & I). apply (Permutation_in _ (Ok_ _)) in I. apply filter_In in I as [I _]. rewrite Ta in I.
      injection E as <- <- <-. exact (keyed_l Removed k (Va k I) _ _ _ (or_introl eq_refl)).
    + intros t p q I. apply in_map_iff in I as (k & E & I). apply (Permutation_in _ (Ok_ _)) in I. apply filter_In in I as [I _]. rewrite Tb in I.
      injection E as <- <- <-. exact (keyed_r Added k (Vb k I) _ _ _ (or_introl eq_refl)).
  - apply bind_ok in H as (l1 & H1 & H). apply bind_ok in H as (l2 & H2 & H). apply bind_ok in H as (l3 & H3 & H). apply bind_ok in H as (l4 & H4 & H). apply bind_ok in H as (l5 & H5 & H).
    injection H as <-. repeat apply keyed_app.
    + revert H1. apply keyed_concat. intros x u _ H. apply bind_ok in H as (k & Hk & H). apply bind_ok in H as (y & _ & H). apply bind_ok in H as (j & Hj & H). apply bind_ok in H as (z & _ & H).
      eapply keyed_under; [eapply Xa, Hk|eapply Xb, Hj|eapply IH, H].
    + revert H2. apply keyed_concat. intros x u _ H. apply bind_ok in H as (k & Hk & H). apply bind_ok in H as (y & _ & H). apply bind_ok in H as (j & Hj & H). apply bind_ok in H as (z & _ & H).
      apply bind_ok in H as (m & Hm & H). injection H as <-. apply Xa in Hk. apply Xb in Hj. apply keyed_app; [eapply keyed_under; [exact Hk|exact Hj|eapply IH, Hm]|].
      apply keyed_if; [now apply keyed_one|apply keyed_if; [now apply keyed_one|apply keyed_nil]].
    + destruct (o_unchanged_ opt || o_moved opt); [|injection H3 as <-; apply keyed_nil]. revert H3. apply keyed_concat. intros x u _ H.
      apply bind_ok in H as (k & Hk & H). apply bind_ok in H as (j & Hj & H). apply Xa in Hk. apply Xb in Hj. injection H as <-. apply keyed_if; [now apply keyed_one|apply keyed_if; [now apply keyed_one|apply keyed_nil]].
    + revert H4. apply keyed_concat. intros x u _ H. apply bind_ok in H as (k & Hk & H). injection H as <-. eapply keyed_l, Xa, Hk.
    + revert H5. apply keyed_concat. intros x u _ H. apply bind_ok in H as (k & Hk & H). injection H as <-. eapply keyed_r, Xb, Hk.
Qed.
End Keyed.
Lemma list_keyed n c d sa sb la lb l t p q : ValModel.item W c = IRec d -> ceqb c c = true -> diff n (VLC c sa la) (VLC c sb lb) [] [] = Ok l -> In (t, p, q) l ->
  (forall k p', p = EInt (Z.of_nat k) :: p' -> exists x, nth_error la k = Some x /\ void d x = false) /\
  (forall k q', q = EInt (Z.of_nat k) :: q' -> exists x, nth_error lb k = Some x /\ void d x = false).
Proof.
  intros Ei Ec. destruct n as [|n]; [discriminate|]. cbn [DiffModel.diff]. unfold DiffModel.dispatch, DiffModel.collection_iter. cbn [is_nothing class_of]. rewrite Ei.
  intros H I. apply bind_ok in H as (l1 & H1 & H). apply bind_ok in H as (l2 & H2 & H). injection H as <-. apply in_app_iff in I as [I|I].
  - pose (Kl := fun (ls : list val) (e : elem) => forall k, e = EInt (Z.of_nat k) -> exists x, nth_error ls k = Some x /\ void d x = false).
    assert (Nm : forall (ls : list val) k v, In (k, v) (number ls) -> void d v = false -> Kl ls k).
    { intros ls k v Iv Vv k' ->. exists v. split; auto. revert Iv. unfold number.
      assert (Z : forall ls s, In (EInt (Z.of_nat k'), v) (combine (map (fun n => EInt (Z.of_nat n)) (seq s (length ls))) ls) -> s <= k' /\ nth_error ls (k' - s) = Some v).
      { clear. induction ls as [|x ls IHl]; intros s Iv; [destruct Iv|]. cbn [length seq map combine] in Iv. destruct Iv as [E|Iv].
        - injection E as E ->. assert (s = k') as -> by lia. rewrite Nat.sub_diag. split; [lia|reflexivity].
        - destruct (IHl (S s) Iv) as [L N]. split; [lia|]. replace (k' - s) with (S (k' - S s)) by lia. exact N. }
      intros Iv. destruct (Z ls 0 Iv) as [_ N]. now rewrite Nat.sub_0_r in N. }
    destruct (records_keyed (Kl la) (Kl lb) [] [] (diff n) d (VLC c sa la) (VLC c sb lb) (number la) (number lb) l1
      (diff_under W ceqb veqb hashable repr a_hash a_falsy a_items opt record_id ord n) eq_refl eq_refl eq_refl eq_refl (Nm la) (Nm lb) H1 t p q I) as [(p1 & -> & Hp) (q1 & -> & Hq)].
    cbn [app]. split; [intros k p' ->; now apply Hp|intros k q' ->; now apply Hq].
  - unfold DiffModel.record_iter in H2. destruct (_ && _ && _); [discriminate|]. cbn [is_nothing class_of] in H2.
    destruct (concatM_in _ _ _ H2 _ I) as (pr & u & _ & Hu & Iu).
    destruct (slot_under ceqb veqb opt (diff n) (diff_under W ceqb veqb hashable repr a_hash a_falsy a_items opt record_id ord n) _ _ [] [] pr u Hu t p q Iu) as (p' & q' & -> & ->).
    split; intros k r E; discriminate E.
Qed.
End Absent.
