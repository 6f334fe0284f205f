(** Where the entries of a comparison lie: below the objects compared. *)
From Coq Require Import String List Arith NArith ZArith Bool Lia Permutation.
From Verif Require Import Prelude Regex SelPathModel SelPathProofs FSModel FSProofs MFSModel MFSProofs
  PySeq ValModel EqModel EqProofs SeqDiffModel SeqDiffProofs FuzzyModel FuzzyProps DiffModel DiffProofs DiffSwap DiffStrSpec.
Import ListNotations.

Section Keys.
Context {K I : Type}.
Variable keqb : K -> K -> bool.
Lemma tag_from l : forall seen x (i : I), In (x, i) (tag keqb seen l) -> exists k, In (i, k) l.
Proof.
  induction l as [|[j v] t IH]; intros seen x i H; [destruct H|]. cbn [tag] in H. destruct H as [H|H].
  - inversion H; subst. exists v. now left.
  - destruct (IH _ _ _ H) as (k&Hk). exists k. now right.
Qed.
Lemma lookup_from x (l : list ((K * nat) * I)) i : lookup keqb x l = Some i -> exists y, In (y, i) l.
Proof.
  induction l as [|[y j] t IH]; cbn [lookup]; [discriminate|]. destruct (teqb _ _ _).
  - intros H. inversion H; subst. exists y. now left.
  - intros H. destruct (IH H) as (z&Hz). exists z. now right.
Qed.
Lemma positions_from xs (l : list (I * K)) i : In i (positions keqb xs (tag keqb [] l)) -> exists k, In (i, k) l.
Proof.
  unfold positions. intros H. apply in_flat_map in H as (x&_&H). destruct (lookup keqb x (tag keqb [] l)) eqn:E; [|destruct H].
  destruct H as [<-|[]]. apply lookup_from in E as (y&E). eapply tag_from; eauto.
Qed.

Variable ieqb : I -> I -> bool.
Hypothesis ieq : forall x y, ieqb x y = true -> x = y.
Lemma seq_diff_from o unchanged moved la lb t i j : (forall l, Permutation (o_modified o l) l) ->
  In (t, i, j) (seq_diff keqb ieqb o unchanged moved la lb) ->
  (t <> Added -> i <> None) /\ (t <> Removed -> j <> None) /\
  (forall k, i = Some k -> exists v, In (k, v) la) /\ (forall k, j = Some k -> exists v, In (k, v) lb).
Proof.
  intros Ho H. unfold seq_diff in H. rewrite !in_app_iff in H. destruct H as [H|[H|[H|H]]].
  - destruct (unchanged || moved); [|destruct H]. apply in_flat_map in H as (x&_&H).
    destruct (lookup keqb x (tag keqb [] la)) as [a|] eqn:Ea; [|destruct H].
    destruct (lookup keqb x (tag keqb [] lb)) as [b|] eqn:Eb; [|destruct H].
    apply lookup_from in Ea as (ya&Ea). apply tag_from in Ea. apply lookup_from in Eb as (yb&Eb). apply tag_from in Eb.
    assert (X : i = Some a /\ j = Some b /\ t <> Added /\ t <> Removed).
    { destruct (moved && _); [destruct H as [H|[]]; inversion H; repeat split; discriminate|].
      destruct unchanged; [|destruct H]. destruct H as [H|[]]; inversion H; repeat split; discriminate. }
    destruct X as (->&->&_&_). repeat split; try discriminate; intros k E; inversion E; subst; auto.
  - apply in_flat_map in H as (x&Hx&H). destruct (imem _ _ _); [destruct H|]. destruct H as [H|[]]. inversion H; subst.
    apply positions_from in Hx. repeat split; try discriminate; try congruence. intros k E. inversion E; subst; auto.
  - apply in_flat_map in H as (x&Hx&H). destruct (imem _ _ _); [destruct H|]. destruct H as [H|[]]. inversion H; subst.
    apply positions_from in Hx. repeat split; try discriminate; try congruence. intros k E. inversion E; subst; auto.
  - apply in_map_iff in H as (x&H&Hx). inversion H; subst. apply (Permutation_in _ (Ho _)) in Hx.
    apply filter_In in Hx as [Hx Hm]. apply positions_from in Hx.
    unfold imem in Hm. apply existsb_exists in Hm as (y&Hy&Ey). apply ieq in Ey. subst y. apply positions_from in Hy.
    repeat split; try discriminate; intros k E; inversion E; subst; auto.
Qed.
End Keys.

Lemma val_at_in {A C} (g : list (elem * val A C)) k v : val_at g k = Ok v -> In (k, v) g.
Proof.
  unfold val_at. induction g as [|[j u] t IH]; cbn [dict_get]; [discriminate|]. destruct (elem_eqb j k) eqn:E.
  - apply elem_eqb_iff in E. subst. intros H. inversion H. now left.
  - intros H. right. now apply IH.
Qed.

(** The entry lies below [fa] in the base and [fb] in the other: strictly, except that ADDED
    may name the object itself in the base, REMOVED in the other; and no step is a wildcard. *)
Definition inside (fa fb : list elem) (e : dentry) : Prop :=
  let '(t, p, q) := e in
  exists x y, p = fa ++ x /\ q = fb ++ y /\ (t <> Added -> x <> []) /\ (t <> Removed -> y <> []) /\
    ~ In ENone x /\ ~ In ENone y.

Lemma inside_sub fa fb k j e : k <> ENone -> j <> ENone -> inside (fa ++ [k]) (fb ++ [j]) e -> inside fa fb e.
Proof.
  intros Hk Hj. destruct e as [[t p] q]. intros (x&y&->&->&_&_&Nx&Ny). exists (k :: x), (j :: y).
  rewrite <- !app_assoc. repeat split; try discriminate; cbn; intuition.
Qed.
Lemma inside_both fa fb t k j : k <> ENone -> j <> ENone -> inside fa fb (t, fa ++ [k], fb ++ [j]).
Proof. intros Hk Hj. exists [k], [j]. repeat split; try discriminate; cbn; intuition. Qed.
Lemma inside_removed fa fb k : k <> ENone -> inside fa fb (Removed, fa ++ [k], fb).
Proof. intros Hk. exists [k], []. rewrite app_nil_r. repeat split; try discriminate; try congruence; cbn; intuition. Qed.
Lemma inside_added fa fb k : k <> ENone -> inside fa fb (Added, fa, fb ++ [k]).
Proof. intros Hk. exists [], [k]. rewrite app_nil_r. repeat split; try discriminate; try congruence; cbn; intuition. Qed.

Section Place.
Context {A C : Type}.
Variable W : classes A C.
Variable ceqb : C -> C -> bool.
Notation val := (val A C).
Variable veqb : val -> val -> bool.
Variable hashable : val -> bool.
Variable repr : val -> str.
Variable a_hash a_falsy : A -> bool.
Variable a_items : A -> res (list (elem * val)).
Variable opt : options.
Variable record_id : rtype C -> option mfs -> val -> res val.
Variable ord : list elem -> list elem -> dorders (A := A) (C := C).
Hypothesis ord_ok : forall fa fb, orders_ok (ord fa fb).
Hypothesis items_named : forall a l, a_items a = Ok l -> forall k v, In (k, v) l -> k <> ENone /\ named v.
Hypothesis as_named : forall c p f o v, In p (props W c) -> p_compare_as p = Some f -> named o -> named v -> named (f o v).

Notation diff := (diff W ceqb veqb hashable repr a_hash a_falsy a_items opt record_id ord).
Notation dispatch := (dispatch W ceqb veqb hashable repr a_hash a_falsy a_items opt record_id ord).
Notation records_iter := (records_iter veqb hashable a_falsy a_items opt record_id ord).
Notation list_iter := (list_iter W veqb hashable repr a_hash a_items opt ord).
Notation record_iter := (record_iter W ceqb veqb opt).
Notation slot_diff := (slot_diff ceqb veqb opt).

Lemma number_from {X} (l : list X) k x : In (k, x) (number l) -> k <> ENone /\ In x l.
Proof.
  intros H. split; [|now apply (number_in l k)]. unfold number in H. apply in_combine_l in H.
  apply in_map_iff in H as (n&<-&_). discriminate.
Qed.

Lemma generator_named v g : named v -> generator a_items v = Ok g -> forall k u, In (k, u) g -> k <> ENone /\ named u.
Proof.
  intros N H k u I. destruct N; cbn [generator] in H; try discriminate; try (inversion H; subst g).
  - destruct I.
  - apply number_from in I as [I1 I2]. split; auto. apply in_map_iff in I2 as (c&<-&_). constructor.
  - eapply items_named; eauto.
  - apply number_from in I as [I1 I2]. auto.
  - auto.
  - apply number_from in I as [I1 I2]. auto.
  - auto.
Qed.

Lemma item_keys_from coll l : forall r, item_keys W hashable repr a_hash opt coll l = Ok r ->
  forall k i, In (k, i) r -> exists v, In (k, v) l.
Proof.
  induction l as [|[j v] t IH]; cbn [item_keys]; intros r H k i I.
  - inversion H; subst. destruct I.
  - apply bind_ok in H as (o&_&H). apply bind_ok in H as (r'&Hr&H). inversion H; subst.
    destruct o as [o|].
    + destruct I as [I|I]; [inversion I; subst; exists v; now left|]. destruct (IH _ Hr _ _ I) as (u&Hu). exists u. now right.
    + destruct (IH _ Hr _ _ I) as (u&Hu). exists u. now right.
Qed.

Lemma id_keys_from d sel fa l : forall r, id_keys hashable opt record_id d sel fa l = Ok r ->
  forall k i, In (k, i) r -> exists v, In (k, v) l.
Proof.
  induction l as [|[j v] t IH]; cbn [id_keys]; intros r H k i I.
  - inversion H; subst. destruct I.
  - assert (Rec : forall r', id_keys hashable opt record_id d sel fa t = Ok r' -> In (k, i) r' -> exists u, In (k, u) ((j, v) :: t)).
    { intros r' Hr I'. destruct (IH _ Hr _ _ I') as (u&Hu). exists u. now right. }
    match type of H with (if ?b then _ else _) = _ => destruct b end; [eauto|].
    apply bind_ok in H as (o&_&H). destruct (o_empty_items opt && nested_empty o); [eauto|].
    destruct (negb (hashable o)); [discriminate|]. destruct (key_of o); [discriminate|].
    apply bind_ok in H as (r'&Hr&H). inversion H; subst. destruct I as [I|I]; [inversion I; subst; exists v; now left|eauto].
Qed.

Lemma list_inside a b fa fb l : named a -> named b -> list_iter a b fa fb = Ok l -> forall e, In e l -> inside fa fb e.
Proof.
  intros Na Nb H e I. unfold DiffModel.list_iter in H. apply bind_ok in H as (ga&Ga&H). apply bind_ok in H as (ka&Ka&H).
  apply bind_ok in H as (gb&Gb&H). apply bind_ok in H as (kb&Kb&H). inversion H; subst l. clear H.
  apply in_map_iff in I as ([[t i] j]&<-&I). cbn [fst snd].
  destruct (ord_ok fa fb) as ((_&_&_&Om)&_).
  destruct (seq_diff_from _ elem_eqb (fun x y => proj1 (elem_eqb_iff x y)) _ _ _ _ _ _ _ _ Om I) as (H1&H2&H3&H4).
  exists (match i with Some k => [k] | None => [] end), (match j with Some k => [k] | None => [] end).
  assert (Ni : forall k, i = Some k -> k <> ENone).
  { intros k E. destruct (H3 k E) as (v&Hv). destruct (item_keys_from _ _ _ Ka _ _ Hv) as (u&Hu). exact (proj1 (generator_named a ga Na Ga k u Hu)). }
  assert (Nj : forall k, j = Some k -> k <> ENone).
  { intros k E. destruct (H4 k E) as (v&Hv). destruct (item_keys_from _ _ _ Kb _ _ Hv) as (u&Hu). exact (proj1 (generator_named b gb Nb Gb k u Hu)). }
  destruct i as [i|], j as [j|]; cbn [place]; rewrite ?app_nil_r; repeat split; auto; try discriminate;
    try (intros X; specialize (H1 X)); try (intros X; specialize (H2 X)); try congruence; cbn;
    try (intros [X|[]]; eapply Ni; eauto; fail); try (intros [X|[]]; eapply Nj; eauto; fail); auto.
Qed.

Section Parts.
Variable rec : val -> val -> list elem -> list elem -> res (list dentry).
Hypothesis rec_inside : forall a b fa fb l, named a -> named b -> rec a b fa fb = Ok l -> forall e, In e l -> inside fa fb e.

Lemma named_normalize (v : val) : named v -> named (normalize_val opt v).
Proof.
  intros N. unfold normalize_val. match goal with |- named (if ?b then _ else _) => destruct b end; [constructor|].
  destruct v; auto. constructor.
Qed.

Lemma named_slot (v : val) n u : named v -> slot v n = Some u -> named u.
Proof.
  intros N H. assert (G : forall sl : list (str * val), dict_get str_eqb sl n = Some u -> exists k, In (k, u) sl).
  { induction sl as [|[k x] sl IH]; cbn [dict_get]; [discriminate|]. destruct (str_eqb k n).
    - intros E. inversion E; subst. exists k. now left.
    - intros E. destruct (IH E) as (k'&I). exists k'. now right. }
  destruct N; cbn [slot] in H; try discriminate; apply G in H as (k&I); eauto.
Qed.

Lemma slot_inside a b fa fb c p l : In p (props W c) -> named a -> named b ->
  slot_diff rec a b fa fb p = Ok l -> forall e, In e l -> inside fa fb e.
Proof.
  intros Ip Na Nb H e I.
  assert (G : forall v, named v -> named (normalize_slot opt (match slot v (p_name p) with Some u => u | None => VNothing end) p v)).
  { intros v Nv. unfold normalize_slot. apply named_normalize.
    assert (Nu : named (match slot v (p_name p) with Some u => u | None => VNothing end)).
    { destruct (slot v (p_name p)) eqn:E; [eapply named_slot; eauto|constructor]. }
    destruct (p_compare_as p) as [f|] eqn:Ef; auto. destruct (is_nothing _); auto. eapply as_named; eauto. }
  unfold DiffModel.slot_diff in H. destruct (is_filtered opt p (fa ++ [EStr (p_name p)])); [inversion H; subst; destruct I|].
  pose proof (G a Na) as Nu. pose proof (G b Nb) as Nv. clear G. cbv zeta in H. cbv beta in H.
  match type of Nu with named ?x => set (u := x) in * end. match type of Nv with named ?x => set (v := x) in * end. clearbody u v.
  assert (B : forall t, inside fa fb (t, fa ++ [EStr (p_name p)], fb ++ [EStr (p_name p)])) by (intros t; apply inside_both; discriminate).
  destruct (is_nothing u && is_nothing v); [inversion H; subst; destruct I|].
  destruct ((comparable u || comparable v) && _).
  - apply bind_ok in H as (l'&Hl&H). destruct (xorb _ _).
    + destruct (changes l') as [|d t].
      * inversion H; subst. destruct (o_unchanged_ opt); [|destruct I]. destruct I as [<-|[]]. apply B.
      * destruct (forallb _ t); inversion H; subst. destruct I as [<-|[]]. apply B.
    + inversion H; subst. eapply inside_sub; [| |eapply (rec_inside u v); eauto]; discriminate.
  - destruct (xorb _ _); [inversion H; subst; destruct I as [<-|[]]; apply B|].
    destruct (negb _); [inversion H; subst; destruct I as [<-|[]]; apply B|].
    inversion H; subst. destruct (o_unchanged_ opt); [|destruct I]. destruct I as [<-|[]]. apply B.
Qed.

Lemma record_inside a b fa fb l : named a -> named b -> record_iter rec a b fa fb = Ok l -> forall e, In e l -> inside fa fb e.
Proof.
  intros Na Nb H e I. unfold DiffModel.record_iter in H. destruct (_ && _); [discriminate|].
  destruct (class_of _) as [c|]; [|discriminate]. destruct (concatM_in _ _ _ H e I) as (p&u&Hp&Hu&He).
  apply all_properties_in in Hp. eapply (slot_inside a b fa fb c p u); eauto.
Qed.

Lemma key_at_from (i : list (elem * pk val)) (g : list (elem * val)) x k :
  (forall k j, In (k, j) i -> exists v, In (k, v) g) ->
  key_at veqb (tag (keqb veqb) [] i) x = Ok k -> exists v, In (k, v) g.
Proof.
  intros F H. unfold key_at in H. destruct (lookup _ _ _) eqn:E; inversion H; subst. apply lookup_from in E as (y&E).
  apply tag_from in E as (j&E). eauto.
Qed.

Lemma records_inside d a b fa fb l : named a -> named b -> records_iter rec d a b fa fb = Ok l -> forall e, In e l -> inside fa fb e.
Proof.
  intros Na Nb H e I. unfold DiffModel.records_iter in H. apply bind_ok in H as (sel&Hs&H).
  match type of H with (if ?b then _ else _) = _ => destruct b end; [inversion H; subst; destruct I|].
  cbv zeta in H. apply bind_ok in H as (ga&Ga&H). apply bind_ok in H as (ia&Ia&H). apply bind_ok in H as (gb&Gb&H). apply bind_ok in H as (ib&Ib&H).
  pose proof (generator_named a ga Na Ga) as Nga. pose proof (generator_named b gb Nb Gb) as Ngb.
  pose proof (id_keys_from _ _ _ _ _ Ia) as Fa. pose proof (id_keys_from _ _ _ _ _ Ib) as Fb.
  destruct (ord_ok fa fb) as (_&Ok_&Oc&Ofa&Ofb&Ou&Or&Oa).
  assert (KA : forall x k, key_at veqb (tag (keqb veqb) [] ia) x = Ok k -> k <> ENone).
  { intros x k E. destruct (key_at_from ia ga x k Fa E) as (v&Hv). exact (proj1 (Nga _ _ Hv)). }
  assert (KB : forall x k, key_at veqb (tag (keqb veqb) [] ib) x = Ok k -> k <> ENone).
  { intros x k E. destruct (key_at_from ib gb x k Fb E) as (v&Hv). exact (proj1 (Ngb _ _ Hv)). }
  assert (VA : forall k v, val_at ga k = Ok v -> k <> ENone /\ named v) by (intros k v E; apply val_at_in in E; eauto).
  assert (VB : forall k v, val_at gb k = Ok v -> k <> ENone /\ named v) by (intros k v E; apply val_at_in in E; eauto).
  assert (R : forall u v k j l' e', named u -> named v -> k <> ENone -> j <> ENone ->
    rec u v (fa ++ [k]) (fb ++ [j]) = Ok l' -> In e' l' -> inside fa fb e').
  { intros u v k j l' e' Nu Nv Nk Nj E I'. eapply (inside_sub fa fb k j); eauto. }
  destruct (o_recurse opt).
  - apply bind_ok in H as (l1&H1&H). inversion H; subst l. clear H. rewrite !in_app_iff in I. destruct I as [I|[I|I]].
    + destruct (concatM_in _ _ _ H1 e I) as (k&u&Hk&Hu&He). apply bind_ok in Hu as (x&Hx&Hu). apply bind_ok in Hu as (y&Hy&Hu).
      destruct (VA k x Hx). destruct (VB k y Hy). eapply (R x y k k); eauto.
    + apply in_map_iff in I as (k&<-&I). apply inside_removed. apply (Permutation_in _ (Ok_ _)) in I. apply filter_In in I as [I _].
      apply in_map_iff in I as ([x k']&E&I). cbn in E. subst k'. apply tag_from in I as (j&I). destruct (Fa _ _ I) as (v&Hv). exact (proj1 (Nga _ _ Hv)).
    + apply in_map_iff in I as (k&<-&I). apply inside_added. apply (Permutation_in _ (Ok_ _)) in I. apply filter_In in I as [I _].
      apply in_map_iff in I as ([x k']&E&I). cbn in E. subst k'. apply tag_from in I as (j&I). destruct (Fb _ _ I) as (v&Hv). exact (proj1 (Ngb _ _ Hv)).
  - apply bind_ok in H as (l1&H1&H). apply bind_ok in H as (l2&H2&H). apply bind_ok in H as (l3&H3&H).
    apply bind_ok in H as (l4&H4&H). apply bind_ok in H as (l5&H5&H). inversion H; subst l. clear H.
    rewrite !in_app_iff in I. destruct I as [I|[I|[I|[I|I]]]].
    + destruct (is_nothing a || is_nothing b).
      * destruct (concatM_in _ _ _ H1 e I) as (x&u&_&Hu&He). destruct (is_nothing a).
        -- apply bind_ok in Hu as (k&Hk&Hu). apply bind_ok in Hu as (y&Hy&Hu). destruct (VB k y Hy).
           eapply (R VNothing y k k); eauto. constructor.
        -- apply bind_ok in Hu as (k&Hk&Hu). apply bind_ok in Hu as (y&Hy&Hu). destruct (VA k y Hy).
           eapply (R y VNothing k k); eauto. constructor.
      * destruct (concatM_in _ _ _ H1 e I) as (x&u&_&Hu&He).
        apply bind_ok in Hu as (k&Hk&Hu). apply bind_ok in Hu as (y&Hy&Hu). apply bind_ok in Hu as (j&Hj&Hu). apply bind_ok in Hu as (z&Hz&Hu).
        destruct (VA k y Hy). destruct (VB j z Hz). eapply (R y z k j); eauto.
    + destruct (concatM_in _ _ _ H2 e I) as (x&u&_&Hu&He).
      apply bind_ok in Hu as (k&Hk&Hu). apply bind_ok in Hu as (y&Hy&Hu). apply bind_ok in Hu as (j&Hj&Hu). apply bind_ok in Hu as (z&Hz&Hu).
      apply bind_ok in Hu as (l'&Hl'&Hu). inversion Hu; subst u. destruct (VA k y Hy). destruct (VB j z Hz).
      apply in_app_iff in He as [He|He]; [eapply (R y z k j); eauto|].
      destruct (o_moved opt && _); [destruct He as [<-|[]]; now apply inside_both|].
      destruct (o_unchanged_ opt && _); [destruct He as [<-|[]]; now apply inside_both|destruct He].
    + destruct (o_unchanged_ opt || o_moved opt); [|inversion H3; subst; destruct I].
      destruct (concatM_in _ _ _ H3 e I) as (x&u&_&Hu&He). apply bind_ok in Hu as (k&Hk&Hu). apply bind_ok in Hu as (j&Hj&Hu).
      inversion Hu; subst u. pose proof (KA _ _ Hk). pose proof (KB _ _ Hj).
      destruct (o_moved opt && _); [destruct He as [<-|[]]; now apply inside_both|].
      destruct (o_unchanged_ opt); [destruct He as [<-|[]]; now apply inside_both|destruct He].
    + destruct (is_nothing a || is_nothing b); [inversion H4; subst; destruct I|].
      destruct (concatM_in _ _ _ H4 e I) as (x&u&_&Hu&He). apply bind_ok in Hu as (k&Hk&Hu). inversion Hu; subst u.
      destruct He as [<-|[]]. apply inside_removed. eauto.
    + destruct (is_nothing a || is_nothing b); [inversion H5; subst; destruct I|].
      destruct (concatM_in _ _ _ H5 e I) as (x&u&_&Hu&He). apply bind_ok in Hu as (k&Hk&Hu). inversion Hu; subst u.
      destruct He as [<-|[]]. apply inside_added. eauto.
Qed.

Lemma dispatch_inside a b fa fb l : named a -> named b -> dispatch rec a b fa fb = Ok l -> forall e, In e l -> inside fa fb e.
Proof.
  intros Na Nb H e I. unfold DiffModel.dispatch in H.
  assert (X : forall l', collection_iter W veqb hashable repr a_hash a_falsy a_items opt record_id ord rec a b fa fb = Ok l' ->
    In e l' -> inside fa fb e).
  { intros l' H' I'. unfold collection_iter in H'. destruct (class_of _) as [c|]; [|discriminate].
    destruct (ValModel.item W c) as [|d|]; [discriminate|exact (records_inside d a b fa fb l' Na Nb H' e I')|exact (list_inside a b fa fb l' Na Nb H' e I')]. }
  destruct (if is_nothing a then b else a).
  all: try (inversion H; subst; destruct I; fail).
  all: try (exact (list_inside a b fa fb l Na Nb H e I)).
  all: try (exact (record_inside a b fa fb l Na Nb H e I)).
  all: apply bind_ok in H as (l1&H1&H); apply bind_ok in H as (l2&H2&H); inversion H; subst;
    apply in_app_iff in I as [I|I]; [exact (X l1 H1 I)|exact (record_inside a b fa fb l2 Na Nb H2 e I)].
Qed.
End Parts.

Lemma diff_inside n : forall a b fa fb l, named a -> named b -> diff n a b fa fb = Ok l -> forall e, In e l -> inside fa fb e.
Proof.
  induction n as [|n IH]; intros a b fa fb l Na Nb H; [discriminate|]. cbn [DiffModel.diff] in H.
  exact (dispatch_inside (diff n) IH a b fa fb l Na Nb H).
Qed.
End Place.
