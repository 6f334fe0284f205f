From Coq Require Import List Arith NArith ZArith Bool Lia Permutation.
From Verif Require Import Prelude SelPathModel FSModel PySeq MFSModel ValModel EqModel EqProofs SeqDiffModel SeqDiffProofs FuzzyModel DiffModel.
Import ListNotations.

Lemma bind_ok {X Y} (r : res X) (f : X -> res Y) y : (do x <- r; f x) = Ok y -> exists x, r = Ok x /\ f x = Ok y.
Proof. destruct r; cbn; [eauto|discriminate]. Qed.

Lemma concatM_in {X Y} (f : X -> res (list Y)) l : forall r, concatM f l = Ok r ->
  forall e, In e r -> exists x u, In x l /\ f x = Ok u /\ In e u.
Proof.
  induction l as [|x t IH]; cbn [concatM]; intros r H e I.
  - inversion H; subst. destruct I.
  - apply bind_ok in H as (u&Hu&H). apply bind_ok in H as (v&Hv&H). inversion H; subst.
    apply in_app_or in I as [I|I].
    + exists x, u. auto using in_eq.
    + destruct (IH v Hv e I) as (y&w&?&?&?). exists y, w. auto using in_cons.
Qed.

Section Self.
Context {A C : Type}.
Variable W : classes A C.
Variable ceqb : C -> C -> bool.
Notation val := (val A C).
Variable veqb : val -> val -> bool.
Variable hashable : val -> bool.
Variable repr : val -> str.
Variable a_hash a_falsy : A -> bool.
Variable a_items : A -> res (list (elem * val)).
Variable opt : options.
Variable record_id : rtype C -> option mfs -> val -> res val.
Variable ord : list elem -> list elem -> dorders (A := A) (C := C).

(** Orders of sets: permutations. *)
Definition orders_ok (d : dorders (A := A) (C := C)) : Prop :=
  set_orders (so_seq d) /\ (forall l, Permutation (so_keys d l) l) /\ (forall l, Permutation (so_common d l) l) /\
  (forall l, Permutation (so_fuzzy_a d l) l) /\ (forall l, Permutation (so_fuzzy_b d l) l) /\
  (forall l, Permutation (so_unchanged d l) l) /\ (forall l, Permutation (so_removed d l) l) /\
  (forall l, Permutation (so_added d l) l).

Hypothesis ord_ok : forall fa fb, orders_ok (ord fa fb).
Hypothesis vrefl : forall v, veqb v v = true.

Notation diff := (diff W ceqb veqb hashable repr a_hash a_falsy a_items opt record_id ord).
Notation dispatch := (dispatch W ceqb veqb hashable repr a_hash a_falsy a_items opt record_id ord).
Notation records_iter := (records_iter veqb hashable a_falsy a_items opt record_id ord).

Lemma elem_refl k : elem_eqb k k = true.
Proof. now apply elem_eqb_iff. Qed.

(** Only NO_CHANGE, at the same place on both sides, and only on demand. *)
Definition unmoved (fa fb : list elem) (l : list dentry) : Prop :=
  forall e, In e l -> o_unchanged_ opt = true /\ exists r, e = (NoChange, fa ++ r, fb ++ r).

Lemma unmoved_nil fa fb : unmoved fa fb [].
Proof. intros e []. Qed.
Lemma unmoved_app fa fb l m : unmoved fa fb l -> unmoved fa fb m -> unmoved fa fb (l ++ m).
Proof. intros H1 H2 e I. apply in_app_or in I as [I|I]; auto. Qed.
Lemma unmoved_sub fa fb k l : unmoved (fa ++ [k]) (fb ++ [k]) l -> unmoved fa fb l.
Proof.
  intros H e I. destruct (H e I) as (U&r&->). split; auto. exists (k :: r). now rewrite <- !app_assoc.
Qed.
Lemma unmoved_one fa fb k : unmoved fa fb (if o_unchanged_ opt then [(NoChange, fa ++ [k], fb ++ [k])] else []).
Proof. destruct (o_unchanged_ opt) eqn:U; intros e I; [|destruct I]. destruct I as [<-|[]]. split; auto. now exists [k]. Qed.
Lemma unmoved_concat {X} (f : X -> res (list dentry)) l r fa fb : concatM f l = Ok r ->
  (forall x u, In x l -> f x = Ok u -> unmoved fa fb u) -> unmoved fa fb r.
Proof.
  intros H G e I. destruct (concatM_in f l r H e I) as (x&u&Hx&Hu&He). exact (G x u Hx Hu e He).
Qed.

Lemma unmoved_changes fa fb l : unmoved fa fb l -> changes l = [].
Proof.
  unfold changes. induction l as [|e t IH]; intros H; cbn [map filter]; auto.
  destruct (H e) as (_&r&->); [now left|]. cbn. apply IH. intros x I. apply H. now right.
Qed.

Lemma kveqb_refl : forall x, kveqb veqb x x = true.
Proof.
  fix IH 1. intros [v|l]; cbn [kveqb]; [apply vrefl|].
  induction l as [|u l IHl]; auto. rewrite IH. exact IHl.
Qed.
Lemma pkeqb_refl x : keqb veqb x x = true.
Proof. unfold keqb, pkeqb. apply kveqb_refl. Qed.

Section TagSelf.
Context {K I : Type}.
Variable keqb : K -> K -> bool.
Hypothesis krefl : forall x, keqb x x = true.
Lemma tmem_self x (l : list (K * nat)) : In x l -> tmem keqb x l = true.
Proof.
  intros H. apply existsb_exists. exists x. split; auto. unfold teqb. now rewrite krefl, Nat.eqb_refl.
Qed.
Lemma none_missing (l : list (K * nat)) : filter (fun x => negb (tmem keqb x l)) l = [].
Proof.
  assert (G : forall m, incl m l -> filter (fun x => negb (tmem keqb x l)) m = []).
  { induction m as [|x m IH]; intros H; cbn [filter]; auto.
    rewrite tmem_self by (apply H; now left). apply IH. intros y Hy. apply H. now right. }
  apply G. apply incl_refl.
Qed.
End TagSelf.

Lemma perm_nil {X} (l : list X) : Permutation l [] -> l = [].
Proof. intros H. apply Permutation_nil. now apply Permutation_sym. Qed.

Lemma list_iter_self a fa fb l :
  list_iter W veqb hashable repr a_hash a_items opt ord a a fa fb = Ok l -> unmoved fa fb l.
Proof.
  unfold list_iter. intros H.
  apply bind_ok in H as (ga&Ga&H). apply bind_ok in H as (ka&Ka&H).
  apply bind_ok in H as (gb&Gb&H). apply bind_ok in H as (kb&Kb&H).
  rewrite Ga in Gb. inversion Gb; subst gb. replace (if o_duck opt then a else a) with a in Kb by now destruct (o_duck opt).
  rewrite Ka in Kb. inversion Kb; subst kb. inversion H as [H']. clear H Gb Kb Ga Ka.
  destruct (ord_ok fa fb) as [(_&Or&Oa&Om) _].
  unfold seq_diff. rewrite (none_missing veqb vrefl).
  rewrite (perm_nil _ (Or [])), (perm_nil _ (Oa [])). cbn [positions flat_map filter app].
  rewrite (perm_nil _ (Om [])). cbn [map]. rewrite app_nil_r.
  intros e I. apply in_map_iff in I as ([[t p] q]&<-&I). cbn [fst snd].
  destruct (o_unchanged_ opt || o_moved opt); [|destruct I].
  apply in_flat_map in I as (x&_&I). destruct (lookup veqb x (tag veqb [] ka)) as [i|]; [|destruct I].
  rewrite elem_refl in I. cbn [negb] in I. rewrite andb_false_r in I.
  destruct (o_unchanged_ opt) eqn:U; [|destruct I]. destruct I as [E|[]]. inversion E; subst.
  split; auto. now exists [i].
Qed.

Section Step.
Variable rec : val -> val -> list elem -> list elem -> res (list dentry).
Hypothesis IH : forall a fa fb l, rec a a fa fb = Ok l -> unmoved fa fb l.

Lemma slot_self a fa fb p l : slot_diff ceqb veqb opt rec a a fa fb p = Ok l -> unmoved fa fb l.
Proof.
  unfold slot_diff. destruct (is_filtered opt p _); [intros H; inversion H; apply unmoved_nil|].
  set (u := normalize_slot _ _ _ _). rewrite xorb_nilpotent, andb_false_r, orb_false_r, orb_diag, vrefl. cbn [negb].
  destruct (is_nothing u && is_nothing u); [intros H; inversion H; apply unmoved_nil|].
  destruct (comparable u && _).
  - intros H. apply bind_ok in H as (m&Hm&H). inversion H; subst. eapply unmoved_sub, IH, Hm.
  - intros H. inversion H. apply unmoved_one.
Qed.

Lemma record_self a fa fb l : record_iter W ceqb veqb opt rec a a fa fb = Ok l -> unmoved fa fb l.
Proof.
  unfold record_iter. destruct (_ && _); [discriminate|]. destruct (class_of _); [|discriminate].
  intros H. eapply unmoved_concat; [exact H|]. intros x u _ Hu. eapply slot_self, Hu.
Qed.

Lemma records_self d a fa fb l : is_nothing a = false -> records_iter rec d a a fa fb = Ok l -> unmoved fa fb l.
Proof.
  intros Na. unfold DiffModel.records_iter. intros H. apply bind_ok in H as (sel&_&H).
  destruct (match sel with Some (inr s) => negb (sel_true s) | _ => false end); [inversion H; apply unmoved_nil|].
  destruct (ord_ok fa fb) as (_&Ok_&Oc&Ofa&Ofb&Ou&Or&Oa).
  apply bind_ok in H as (ga&Ga&H). apply bind_ok in H as (ia&Ia&H).
  apply bind_ok in H as (gb&Gb&H). apply bind_ok in H as (ib&Ib&H).
  rewrite Ga in Gb. inversion Gb; subst gb. rewrite Ia in Ib. inversion Ib; subst ib. clear Gb Ib Ga Ia.
  set (ta := tag (keqb veqb) [] ia) in *.
  destruct (o_recurse opt).
  - assert (N : filter (fun k => negb (emem k (map snd ta))) (map snd ta) = []).
    { assert (G : forall m, incl m (map snd ta) -> filter (fun k => negb (emem k (map snd ta))) m = []).
      { induction m as [|x m IHm]; intros S; cbn [filter]; auto.
        replace (emem x (map snd ta)) with true.
        - apply IHm. intros y Hy. apply S. now right.
        - symmetry. apply existsb_exists. exists x. split; [apply S; now left|apply elem_refl]. }
      apply G, incl_refl. }
    apply bind_ok in H as (m&Hm&H). rewrite N, (perm_nil _ (Ok_ [])) in H. cbn [map app] in H. rewrite app_nil_r in H.
    inversion H; subst. eapply unmoved_concat; [exact Hm|].
    intros k u _ Hu. cbv beta in Hu. apply bind_ok in Hu as (x&Hx&Hu). apply bind_ok in Hu as (y&Hy&Hu).
    rewrite Hx in Hy. inversion Hy; subst. eapply unmoved_sub, IH, Hu.
  - assert (N : filter (fun x => negb (kmem veqb x (map fst ta))) (map fst ta) = [])
      by (apply (none_missing (keqb veqb)), pkeqb_refl).
    rewrite N, Na in H. cbn [orb negb andb] in H.
    apply bind_ok in H as (l1&H1&H). apply bind_ok in H as (l2&H2&H).
    apply bind_ok in H as (l3&H3&H). apply bind_ok in H as (l4&H4&H). apply bind_ok in H as (l5&H5&H).
    assert (P : (if o_fuzzy opt then fuzzy_match veqb (v_falsy a_falsy) (so_fuzzy_a (ord fa fb) []) (so_fuzzy_b (ord fa fb) []) else []) = []).
    { rewrite (perm_nil _ (Ofa [])), (perm_nil _ (Ofb [])). now destruct (o_fuzzy opt). }
    rewrite P in *. cbn [concatM filter] in *. rewrite (perm_nil _ (Or [])) in H4. rewrite (perm_nil _ (Oa [])) in H5.
    cbn [concatM] in *. inversion H2; inversion H4; inversion H5; subst. inversion H; subst. cbn [app]. rewrite app_nil_r.
    apply unmoved_app.
    + eapply unmoved_concat; [exact H1|]. intros x u _ Hu. cbv beta in Hu.
      apply bind_ok in Hu as (k&Hk&Hu). apply bind_ok in Hu as (y&Hy&Hu).
      apply bind_ok in Hu as (k'&Hk'&Hu). apply bind_ok in Hu as (y'&Hy'&Hu).
      rewrite Hk in Hk'. inversion Hk'; subst. rewrite Hy in Hy'. inversion Hy'; subst.
      eapply unmoved_sub, IH, Hu.
    + destruct (_ || _); [|inversion H3; apply unmoved_nil].
      eapply unmoved_concat; [exact H3|]. intros x u _ Hu. cbv beta in Hu.
      apply bind_ok in Hu as (k&Hk&Hu). apply bind_ok in Hu as (k'&Hk'&Hu). rewrite Hk in Hk'. inversion Hk'; subst k'.
      rewrite elem_refl in Hu. cbn [negb] in Hu. rewrite andb_false_r in Hu. inversion Hu. apply unmoved_one.
Qed.

Lemma dispatch_self a fa fb l : dispatch rec a a fa fb = Ok l -> unmoved fa fb l.
Proof.
  unfold DiffModel.dispatch. replace (if is_nothing a then a else a) with a by now destruct (is_nothing a).
  assert (G : is_nothing a = false -> (do l <- collection_iter W veqb hashable repr a_hash a_falsy a_items opt record_id ord rec a a fa fb;
      do m <- record_iter W ceqb veqb opt rec a a fa fb; Ok (l ++ m)) = Ok l -> unmoved fa fb l).
  { intros Na H. apply bind_ok in H as (u&Hu&H). apply bind_ok in H as (v&Hv&H). inversion H; subst.
    apply unmoved_app; [|eapply record_self, Hv]. revert Hu. unfold collection_iter.
    destruct (class_of _) as [c|]; [|discriminate]. destruct (ValModel.item W c) as [|d|]; [discriminate| |].
    - now apply records_self.
    - apply list_iter_self. }
  destruct a; try (intros H; inversion H; apply unmoved_nil); auto.
  - apply list_iter_self.
  - apply list_iter_self.
  - apply record_self.
Qed.
End Step.

Lemma diff_self n : forall a fa fb l, diff n a a fa fb = Ok l -> unmoved fa fb l.
Proof.
  induction n as [|n IHn]; intros a fa fb l; cbn [DiffModel.diff]; [discriminate|].
  apply dispatch_self. exact IHn.
Qed.

End Self.
