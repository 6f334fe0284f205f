(** Theorems about multi field selectors: C08, C09, C10. *)
From Coq Require Import String List Arith NArith ZArith Bool Lia Permutation.
From Verif Require Import Prelude Regex SelPathModel SelPathProofs FSModel FSProofs SelProps MFSModel MFSProofs MFSText.
Import ListNotations.

(** The order in which Python iterates a set: any permutation. *)
Definition set_order (ord : list arg -> list arg) : Prop := forall l, Permutation (ord l) l.

(** The selectors a program can build: from paths and from selectors already built. *)
Inductive constructible : mfs -> Prop :=
| constructed ord args m :
    set_order ord -> (forall m', In (AMFS m') args -> constructible m') ->
    make ord args = Ok m -> constructible m.

Definition args_ok (args : list arg) : Prop := forall m', In (AMFS m') args -> constructible m'.

Fixpoint constructible_wf m (H : constructible m) {struct H} : wf m.
Proof.
  destruct H as [ord args m Ho Ha Hm].
  eapply (build_wf ord Ho _ args m); [|exact Hm].
  apply Forall_forall. intros [p|m'] Hin; [exact I|]. cbn. apply constructible_wf. now apply Ha.
Qed.

Lemma args_ok_good args : args_ok args -> Forall good_arg args.
Proof.
  intros H. apply Forall_forall. intros [p|m'] Hin; [exact I|]. cbn. now apply constructible_wf, H.
Qed.

(** What a constructor argument matches. *)
Definition arg_covers (a : arg) (q : list elem) : Prop :=
  match a with AFS p => covers p q | AMFS m => contains m q = true end.

Lemma covers_norm p q : covers (norm p) q <-> covers p q.
Proof. destruct p; [|reflexivity]. split; constructor. Qed.

Lemma paths_covers args q : args_ok args ->
  (exists p, In p (paths args) /\ covers p q) <-> exists a, In a args /\ arg_covers a q.
Proof.
  intros Ha. unfold paths. split.
  - intros [p [H1 H2]]. apply in_map_iff in H1 as [p0 [<- H1]]. apply (proj1 (covers_norm _ _)) in H2.
    apply in_flat_map in H1 as [a [H3 H4]]. exists a. split; auto. destruct a as [s|m]; cbn in *.
    + destruct H4 as [->|[]]. exact H2.
    + apply iter_contains; eauto. now apply constructible_wf, Ha.
  - intros [a [H1 H2]]. destruct a as [s|m]; cbn in H2.
    + exists (norm s). split; [|now apply (proj2 (covers_norm _ _))]. apply in_map_iff. exists s. split; auto.
      apply in_flat_map. exists (AFS s). cbn. auto.
    + apply iter_contains in H2 as [p [H2 H3]]; [|now apply constructible_wf, Ha].
      exists (norm p). split; [|now apply (proj2 (covers_norm _ _))]. apply in_map_iff. exists p. split; auto.
      apply in_flat_map. exists (AMFS m). auto.
Qed.

(** ** C08 *)

Theorem C08_denotes_union : forall ord args m,
  set_order ord -> args_ok args -> make ord args = Ok m ->
  forall q, contains m q = true <-> exists a, In a args /\ arg_covers a q.
Proof.
  intros ord args m Ho Ha Hm q.
  rewrite <- (paths_covers args q Ha).
  eapply (build_contains ord Ho); [now apply args_ok_good | exact Hm].
Qed.

Theorem C08_value_error_exactly_on_mixed_level : forall ord args,
  set_order ord -> args_ok args ->
  (clash (paths args) -> make ord args = Err ValueErr) /\
  (~ clash (paths args) -> exists m, make ord args = Ok m).
Proof.
  intros ord args Ho Ha. destruct (make_total ord Ho args (args_ok_good _ Ha)) as [[m [H1 H2]]|[H1 H2]].
  - split; [contradiction|eauto].
  - split; [auto|contradiction].
Qed.

Theorem C08_iteration_denotes_same_set : forall m, constructible m ->
  (forall q, contains m q = true <-> exists p, In p (iter m) /\ covers p q) /\
  ForallOrdPairs (fun p q => ~ prefix p q /\ ~ prefix q p) (iter m).
Proof.
  intros m Hc. apply constructible_wf in Hc. split; [now apply iter_contains | now apply iter_antichain].
Qed.

(** argument order, repetition and nesting do not matter *)
Theorem C08_depends_only_on_path_set : forall ord1 ord2 args1 args2,
  set_order ord1 -> set_order ord2 -> args_ok args1 -> args_ok args2 ->
  (forall p, In p (paths args1) <-> In p (paths args2)) ->
  match make ord1 args1, make ord2 args2 with
  | Ok m1, Ok m2 => forall q, contains m1 q = contains m2 q
  | Err e1, Err e2 => e1 = ValueErr /\ e2 = ValueErr
  | _, _ => False
  end.
Proof.
  assert (Hc : forall P Q, (forall p : list elem, In p P <-> In p Q) -> clash P -> clash Q).
  { intros P Q H [pre [u [x [v [H1 [H2 [H3 H4]]]]]]]. exists pre, u, x, v. repeat split; auto; try (now apply H).
    intros p Hp. apply H4. now apply H. }
  intros ord1 ord2 args1 args2 Ho1 Ho2 Ha1 Ha2 H.
  pose proof (make_total ord1 Ho1 args1 (args_ok_good _ Ha1)) as T1.
  pose proof (make_total ord2 Ho2 args2 (args_ok_good _ Ha2)) as T2.
  destruct T1 as [[m1 [E1 C1]]|[E1 C1]], T2 as [[m2 [E2 C2]]|[E2 C2]]; rewrite E1, E2; auto.
  - intros q. apply eq_true_iff_eq.
    rewrite (build_contains ord1 Ho1 _ _ _ (args_ok_good _ Ha1) E1 q).
    rewrite (build_contains ord2 Ho2 _ _ _ (args_ok_good _ Ha2) E2 q).
    split; intros [p [Hp Hq]]; exists p; (split; [now apply H|exact Hq]).
  - apply C1. eapply Hc; [|exact C2]. intros p. symmetry. apply H.
  - apply C2. eapply Hc; [|exact C1]. exact H.
Qed.

Lemma paths_iter m : constructible m -> paths (map AFS (iter m)) = iter m.
Proof.
  intros Hc. unfold paths. rewrite flat_map_concat_map, map_map. cbn [paths_of].
  rewrite <- flat_map_concat_map.
  assert (H : forall l : list (list elem), (forall p, In p l -> p <> []) -> map norm (flat_map (fun x => [x]) l) = l).
  { induction l as [|p l IH]; intros Hl; [reflexivity|]. cbn. rewrite IH by (intros; apply Hl; cbn; auto).
    f_equal. destruct p; [|reflexivity]. exfalso. apply (Hl []); cbn; auto. }
  apply H. intros p. apply iter_nonempty.
Qed.

(** building again from the iterated selectors, or from the selector itself *)
Theorem C08_rebuild : forall ord m, set_order ord -> constructible m ->
  (exists m1, make ord (map AFS (iter m)) = Ok m1 /\ forall q, contains m1 q = contains m q) /\
  (exists m2, make ord [AMFS m] = Ok m2 /\ forall q, contains m2 q = contains m q).
Proof.
  intros ord m Ho Hc. pose proof (constructible_wf m Hc) as Hw.
  assert (Hgen : forall args, args_ok args -> (forall p, In p (paths args) <-> In p (iter m)) ->
            exists m1, make ord args = Ok m1 /\ forall q, contains m1 q = contains m q).
  { intros args Ha Hp. destruct (make_total ord Ho args (args_ok_good _ Ha)) as [[m1 [E _]]|[_ [pre [u [x [v [H1 [H2 [H3 H4]]]]]]]]].
    - exists m1. split; auto. intros q. apply eq_true_iff_eq.
      rewrite (build_contains ord Ho _ _ _ (args_ok_good _ Ha) E q), (iter_contains m Hw q).
      split; intros [p [H1 H2]]; exists p; (split; [now apply Hp|exact H2]).
    - exfalso. apply (iter_no_clash m Hw). exists pre, u, x, v. repeat split; auto; try (now apply Hp).
      intros p Hin. apply H4. now apply Hp. }
  split; apply Hgen.
  - intros m' Hin. apply in_map_iff in Hin as [p [E _]]. discriminate.
  - intros p. now rewrite paths_iter.
  - intros m' [E|[]]. inversion E; now subst.
  - intros p. unfold paths. cbn [flat_map paths_of]. rewrite app_nil_r. split.
    + intros H. apply in_map_iff in H as [p' [<- H]]. pose proof (iter_nonempty _ _ H). destruct p'; [congruence|exact H].
    + intros H. apply in_map_iff. exists p. split; auto. pose proof (iter_nonempty _ _ H). destruct p; [congruence|reflexivity].
Qed.

Definition id_ord (l : list arg) : list arg := l.
Lemma id_set_order : set_order id_ord. Proof. intros l. apply Permutation_refl. Qed.

Example C08_example :
  let args := [AFS [S_ "a"; S_ "b"]; AFS [S_ "a"; ENone; EInt 1]] in
  make id_ord args = Err ValueErr /\ clash (paths args) /\
  exists m, make id_ord [AFS [S_ "a"; S_ "b"]; AFS [S_ "c"; ENone; EInt 1]; AFS [S_ "a"; S_ "b"; S_ "z"]] = Ok m /\
    constructible m /\ iter m = [[S_ "a"; S_ "b"]; [S_ "c"; ENone; EInt 1]] /\
    contains m [S_ "c"; S_ "k"; EInt 1; S_ "q"] = true /\ contains m [S_ "c"; S_ "k"] = false.
Proof.
  split; [vm_compute; reflexivity|]. split.
  - exists [S_ "a"], [EInt 1], (S_ "b"), []. cbn. repeat split; auto; try discriminate.
    intros p Hp [u Hu]. destruct Hp as [<-|[<-|[]]]; discriminate.
  - eexists. split; [vm_compute; reflexivity|]. split.
    + eapply (constructed id_ord [AFS [S_ "a"; S_ "b"]; AFS [S_ "c"; ENone; EInt 1]; AFS [S_ "a"; S_ "b"; S_ "z"]]).
      * exact id_set_order.
      * intros m' Hin. cbn in Hin. intuition discriminate.
      * vm_compute. reflexivity.
    + repeat split; vm_compute; reflexivity.
Qed.

(** ** C09 *)

Definition sub_contains (o : option mfs) (q : list elem) : bool :=
  match o with Some m => contains m q | None => false end.

(** [q in mfs[p]] iff [p + q in mfs] *)
Theorem C09_residual : forall m p q, constructible m ->
  sub_contains (getitem_path m p) q = contains m (p ++ q).
Proof. intros m p q Hc. symmetry. apply getitem_path_contains. now apply constructible_wf. Qed.

(** [(mfs[p])[q]] and [mfs[p + q]] denote the same set *)
Theorem C09_composes : forall m p q r, constructible m ->
  sub_contains (match getitem_path m p with Some m' => getitem_path m' q | None => None end) r
  = sub_contains (getitem_path m (p ++ q)) r.
Proof.
  intros m p q r Hc. pose proof (constructible_wf m Hc) as Hw. unfold sub_contains.
  rewrite <- (getitem_path_contains (p ++ q) m r Hw), <- app_assoc, (getitem_path_contains p m (q ++ r) Hw).
  destruct (getitem_path m p) as [m'|] eqn:E; [|reflexivity].
  symmetry. apply getitem_path_contains. eapply getitem_path_wf; eauto.
Qed.

(** [mfs[p] is None] iff nothing at or below [p] is matched (the selector having at least
    one path) *)
Theorem C09_none_iff_nothing_below : forall m p, constructible m -> heads m <> [] ->
  getitem_path m p = None <-> forall q, contains m (p ++ q) = false.
Proof.
  intros m p Hc Hn. pose proof (constructible_wf m Hc) as Hw. split.
  - intros E q. rewrite getitem_path_contains, E by auto. reflexivity.
  - intros H. destruct (getitem_path m p) as [m'|] eqn:E; auto. exfalso.
    destruct (wf_inhabited m') as [q Hq].
    + eapply getitem_path_wf; eauto.
    + eapply getitem_path_nonempty; eauto.
    + specialize (H q). rewrite getitem_path_contains, E in H by auto. congruence.
Qed.

(** once complete, always complete *)
Theorem C09_complete_is_absorbing : forall m p, complete m = true ->
  getitem_path m p = Some m /\ (forall x, getitem m x = Some m) /\ forall q, contains m q = true.
Proof.
  intros m p Hc. split; [destruct p; cbn; now rewrite Hc|]. split; [intros x; unfold getitem; now rewrite Hc|].
  now apply contains_complete.
Qed.

(** single-key subscripting agrees with the one-element path except below a wildcard *)
Theorem C09_bare_key : forall m x, constructible m ->
  (has_none m = false -> getitem m x = getitem_path m [x] /\
     (contains_elem m x = true <-> getitem m x <> None)) /\
  (has_none m = true -> complete m = false -> x <> ENone ->
     getitem m x = None /\ contains_elem m x = true /\ getitem_path m [x] <> None).
Proof.
  intros m x Hc. pose proof (constructible_wf m Hc) as Hw. split.
  - intros Hh. cbn [getitem_path]. unfold getitem, contains_elem. rewrite Hh.
    assert (Hcm : complete m = false).
    { unfold complete. destruct (hget ENone (heads m)) eqn:E; auto. apply hget_in in E.
      assert (has_none m = true); [|congruence]. apply has_none_spec. apply in_map_iff. eexists; split; [|exact E]. reflexivity. }
    rewrite Hcm. cbn [orb]. destruct (hget x (heads m)) as [[m'|]|]; split; auto; split; congruence.
  - intros Hh Hcm Hx. destruct (wf_has_none m Hw Hh) as [o Ho]. cbn [getitem_path]. unfold getitem, contains_elem.
    rewrite Hh, Hcm, Ho. cbn [hget]. replace (elem_eqb x ENone) with false by (symmetry; now apply elem_eqb_neq).
    rewrite elem_eqb_refl. repeat split; auto. destruct o; discriminate.
Qed.

Example C09_example :
  exists m, make id_ord [AFS [ENone; S_ "b"]] = Ok m /\ constructible m /\
    has_none m = true /\ complete m = false /\
    getitem m (EInt 0) = None /\ contains_elem m (EInt 0) = true /\
    sub_contains (getitem_path m [EInt 0]) [S_ "b"] = true.
Proof.
  eexists. split; [vm_compute; reflexivity|]. split.
  - eapply (constructed id_ord [AFS [ENone; S_ "b"]]); [exact id_set_order | intros m' [E|[]]; discriminate | vm_compute; reflexivity].
  - repeat split; vm_compute; reflexivity.
Qed.

(** ** C10 *)

Theorem C10_mfs_path_round_trip : forall uword udigit ord m,
  set_order ord -> constructible m -> heads m <> [] ->
  (forall p e, In p (iter m) -> In e p -> faithful uword e) ->
  exists m', mfs_from_path uword udigit ord (mfs_path uword m) = Ok m' /\
             forall q, contains m' q = contains m q.
Proof.
  intros uword udigit ord m Ho Hc Hn Hf. unfold mfs_from_path.
  rewrite scan_mfs_path; [|now apply constructible_wf|exact Hn|intros; apply faithful_ok; eauto].
  cbn [bind]. apply C08_rebuild; auto.
Qed.

(** the selector without any path prints as "()" and reads back as the complete one *)
Theorem C10_empty_selector_refuted : exists m m' q,
  make id_ord [] = Ok m /\
  mfs_from_path no_uword no_udigit id_ord (mfs_path no_uword m) = Ok m' /\
  contains m q = false /\ contains m' q = true.
Proof. exists (Node []), complete_mfs, [S_ "a"]. repeat split; vm_compute; reflexivity. Qed.

Example C10_example :
  exists m, make id_ord [AFS [S_ "a"; S_ "b"]; AFS [S_ "a"; S_ "d e"; EInt 0]; AFS [S_ "a"; S_ "d e"; EInt 3; ENone]; AFS [S_ "c"]] = Ok m /\
   mfs_path no_uword m = s2l "(.a(.b|['d e']([0]|[3][*]))|.c)" /\
   (forall p e, In p (iter m) -> In e p -> faithful no_uword e) /\
   exists m', mfs_from_path no_uword no_udigit id_ord (mfs_path no_uword m) = Ok m' /\ iter m' = iter m.
Proof.
  eexists. split; [vm_compute; reflexivity|]. split; [vm_compute; reflexivity|]. split.
  - intros p e Hp He. cbn in Hp.
    assert (Hs : forall s, s <> [] -> forallb (fun x => negb (N.eqb x 39) && negb (N.eqb x 10)) s = true ->
               faithful no_uword (EStr s)).
    { intros s Hs Ha. rewrite forallb_forall in Ha. split; [exact Hs|]. split.
      - intros [u [v ->]]. assert (Hin : In 39%N (u ++ s2l "']" ++ v)) by (apply in_or_app; right; left; reflexivity).
        apply Ha in Hin. discriminate.
      - intros [i [_ ->]]. assert (Hin : In 10%N (i ++ [10%N])) by (apply in_or_app; right; left; reflexivity).
        apply Ha in Hin. discriminate. }
    repeat (destruct Hp as [<-|Hp]; [cbn in He; repeat (destruct He as [<-|He];
      [first [exact I | cbn; lia | apply Hs; [discriminate|vm_compute; reflexivity]]|]); destruct He|]).
    destruct Hp.
  - eexists. split; vm_compute; reflexivity.
Qed.

Print Assumptions C08_denotes_union.
Print Assumptions C08_value_error_exactly_on_mixed_level.
Print Assumptions C08_iteration_denotes_same_set.
Print Assumptions C08_depends_only_on_path_set.
Print Assumptions C08_rebuild.
Print Assumptions C09_residual.
Print Assumptions C09_composes.
Print Assumptions C09_none_iff_nothing_below.
Print Assumptions C09_complete_is_absorbing.
Print Assumptions C09_bare_key.
Print Assumptions C10_mfs_path_round_trip.
Print Assumptions C10_empty_selector_refuted.
