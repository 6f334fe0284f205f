From Coq Require Import List Arith NArith ZArith Bool Lia Permutation.
From Verif Require Import Prelude Regex SelPathModel SelPathProofs FSModel FSProofs MFSModel.
Import ListNotations.

(** * Specification *)

(** [covers p q]: pattern [p], with wildcards standing for any key and a final wildcard
    standing for the whole collection, is a prefix of [q]. *)
Inductive covers : list elem -> list elem -> Prop :=
| cov_nil q : covers [] q
| cov_last q : covers [ENone] q
| cov_wild p x q : covers p q -> covers (ENone :: p) (x :: q)
| cov_same p x q : covers p q -> covers (x :: p) (x :: q).

(** The empty path stands for everything. *)
Definition norm (p : list elem) : list elem := match p with [] => [ENone] | _ => p end.

(** The paths denoted by constructor arguments. *)
Definition paths_of (a : arg) : list (list elem) :=
  match a with AFS p => [p] | AMFS m => iter m end.
Definition paths (args : list arg) : list (list elem) := map norm (flat_map paths_of args).

Definition prefix (p q : list elem) : Prop := exists u, q = p ++ u.

(** A wildcard and a name or index at the same level, the level not being hidden below a
    complete path. *)
Definition clash (P : list (list elem)) : Prop :=
  exists pre u x v,
    In (pre ++ ENone :: u) P /\ In (pre ++ x :: v) P /\ x <> ENone /\
    forall p, In p P -> ~ prefix p pre.

(** * Induction on selectors *)

Section MfsInd.
  Variable Q : mfs -> Prop.
  Hypothesis HN : forall hs, (forall h m, In (h, Some m) hs -> Q m) -> Q (Node hs).
  Fixpoint mfs_ind' (m : mfs) : Q m :=
    match m with
    | Node hs =>
        HN hs
          ((fix go (l : list (elem * option mfs)) : forall h m, In (h, Some m) l -> Q m :=
              match l with
              | [] => fun h m H => match H with end
              | (h0, o) :: t => fun h m H =>
                  match H with
                  | or_introl E =>
                      match o as o' return (h0, o') = (h, Some m) -> Q m with
                      | Some m0 => fun E' => eq_ind m0 Q (mfs_ind' m0) m
                                     (f_equal (fun z => match snd z with Some y => y | None => m0 end) E')
                      | None => fun E' => match eq_ind (h0, None)
                                   (fun z => match snd z with None => True | Some _ => False end) I
                                   _ E' with end
                      end E
                  | or_intror H' => go t h m H'
                  end
              end) hs)
    end.
End MfsInd.

(** * Well-formed selectors *)

Fixpoint wf (m : mfs) : Prop :=
  match m with
  | Node hs =>
      NoDup (map fst hs) /\
      (In ENone (map fst hs) -> map fst hs = [ENone]) /\
      fold_right (fun ht acc => match snd ht with
                                | Some m' => heads m' <> [] /\ wf m'
                                | None => True
                                end /\ acc) True hs
  end.

Lemma wf_node hs : wf (Node hs) <->
  NoDup (map fst hs) /\ (In ENone (map fst hs) -> map fst hs = [ENone]) /\
  (forall h m, In (h, Some m) hs -> heads m <> [] /\ wf m).
Proof.
  cbn [wf]. split; intros [H1 [H2 H3]]; (split; [exact H1|split; [exact H2|]]).
  - clear H1 H2. induction hs as [|[k o] t IH]; intros h m Hin; [destruct Hin|].
    cbn in H3. destruct H3 as [H3 H4]. destruct Hin as [E|Hin].
    + inversion E; subst. exact H3.
    + eapply IH; eauto.
  - clear H1 H2. induction hs as [|[k o] t IH]; [exact I|]. cbn. split.
    + destruct o; [|exact I]. apply (H3 k). left; auto.
    + apply IH. intros. eapply H3. right; eauto.
Qed.

(** * Dictionaries *)

Lemma hget_in {A} k (l : list (elem * A)) v : hget k l = Some v -> In (k, v) l.
Proof.
  induction l as [|[k' v'] t IH]; cbn; [discriminate|]. destruct (elem_eqb k k') eqn:E.
  - apply elem_eqb_eq in E. intros H. inversion H; subst. auto.
  - auto.
Qed.

Lemma hget_nodup {A} k (l : list (elem * A)) v :
  NoDup (map fst l) -> In (k, v) l -> hget k l = Some v.
Proof.
  induction l as [|[k' v'] t IH]; cbn; [intros _ []|]. intros Hn [E|Hin].
  - inversion E; subst. now rewrite elem_eqb_refl.
  - inversion Hn; subst. destruct (elem_eqb k k') eqn:E.
    + apply elem_eqb_eq in E. subst k'. exfalso. apply H1. apply in_map_iff. exists (k, v). auto.
    + auto.
Qed.

Lemma hget_none {A} k (l : list (elem * A)) : hget k l = None <-> ~ In k (map fst l).
Proof.
  induction l as [|[k' v'] t IH]; cbn; [tauto|]. destruct (elem_eqb k k') eqn:E.
  - apply elem_eqb_eq in E. subst. split; [discriminate|]. tauto.
  - apply elem_eqb_neq in E. rewrite IH. split; [|tauto]. intros H [F|F]; auto.
Qed.

Lemma has_none_spec m : has_none m = true <-> In ENone (map fst (heads m)).
Proof.
  unfold has_none. rewrite existsb_exists. split.
  - intros [x [H1 H2]]. destruct x; try discriminate. exact H1.
  - intros H. exists ENone. auto.
Qed.

Lemma wf_has_none m : wf m -> has_none m = true -> exists o, heads m = [(ENone, o)].
Proof.
  destruct m as [hs]. rewrite wf_node. intros [_ [H2 _]] H. apply has_none_spec in H. cbn in *.
  specialize (H2 H). destruct hs as [|[k o] [|y t]]; try discriminate.
  cbn in H2. inversion H2. exists o. reflexivity.
Qed.

Lemma contains_complete m : complete m = true -> forall q, contains m q = true.
Proof.
  intros Hc q. assert (Hh : has_none m = true).
  { unfold complete in Hc. apply has_none_spec. destruct (hget ENone (heads m)) as [o|] eqn:E; [|discriminate].
    apply hget_in in E. apply in_map_iff. exists (ENone, o). auto. }
  induction q as [|x q IH]; [exact Hc|]. cbn [contains]. rewrite Hh.
  unfold getitem. rewrite Hc. unfold complete in Hc.
  destruct (hget ENone (heads m)); [exact IH|discriminate].
Qed.

(** * Keys and tails *)

Lemma keys_of_in {A} (es : list (elem * A)) k : In k (keys_of es) <-> In k (map fst es).
Proof.
  induction es as [|[k' v] t IH]; cbn; [tauto|]. rewrite filter_In, IH, negb_true_iff, elem_eqb_neq.
  split; [tauto|]. intros [->|H]; auto. destruct (elem_eq_dec k' k); auto.
Qed.

Lemma keys_of_nodup {A} (es : list (elem * A)) : NoDup (keys_of es).
Proof.
  induction es as [|[k' v] t IH]; cbn; constructor.
  - rewrite filter_In, negb_true_iff, elem_eqb_neq. tauto.
  - now apply NoDup_filter.
Qed.

Lemma tails_of_in k es o : In o (tails_of k es) <-> In (k, o) es.
Proof.
  unfold tails_of. rewrite in_map_iff. split.
  - intros [[k' o'] [E H]]. apply filter_In in H as [H1 H2]. apply elem_eqb_eq in H2. cbn in *. now subst.
  - intros H. exists (k, o). split; auto. apply filter_In. split; auto. apply elem_eqb_refl.
Qed.

Lemma somes_in {A} (l : list (option A)) x : In x (somes l) <-> In (Some x) l.
Proof.
  unfold somes. rewrite in_flat_map. split.
  - intros [[y|] [H1 H2]]; cbn in H2; [destruct H2 as [->|[]]; auto|destruct H2].
  - intros H. exists (Some x). cbn. auto.
Qed.

Definition tail_paths (o : option arg) : list (list elem) :=
  match o with None => [[]] | Some a => paths_of a end.

(** sub-arguments are never empty paths *)
Definition good_arg (a : arg) : Prop :=
  match a with AFS p => True | AMFS m => wf m end.
Definition sub_arg (a : arg) : Prop :=
  match a with AFS p => p <> [] | AMFS m => wf m /\ heads m <> [] end.

Lemma sub_good a : sub_arg a -> good_arg a.
Proof. destruct a; cbn; tauto. Qed.

Lemma iter_nonempty m p : In p (iter m) -> p <> [].
Proof.
  destruct m as [hs]. cbn [iter]. rewrite in_flat_map. intros [[h o] [_ H]]. cbn in H.
  destruct o as [m'|].
  - apply in_map_iff in H as [t [<- _]]. discriminate.
  - destruct H as [<-|[]]. discriminate.
Qed.

Lemma paths_of_sub a p : sub_arg a -> In p (paths_of a) -> p <> [].
Proof.
  destruct a; cbn.
  - intros H [<-|[]]. exact H.
  - intros _. apply iter_nonempty.
Qed.

Lemma split_arg_paths a h t : good_arg a ->
  (exists p, In p (paths_of a) /\ norm p = h :: t) <->
  exists o, In (h, o) (split_arg a) /\ In t (tail_paths o).
Proof.
  intros Hg. destruct a as [p|m]; cbn [paths_of split_arg].
  - destruct p as [|x p].
    + cbn. split.
      * intros [p [[<-|[]] E]]. inversion E; subst. exists None. cbn. auto.
      * intros [o [[E|[]] Ht]]. inversion E; subst. cbn in Ht. destruct Ht as [<-|[]]. exists []. auto.
    + split.
      * intros [q [[<-|[]] E]]. cbn in E. inversion E; subst. destruct t.
        -- exists None. cbn. auto.
        -- eexists. split; [left; reflexivity|]. cbn. auto.
      * intros [o [[E|[]] Ht]]. inversion E; subst. exists (h :: t). split; auto. left. f_equal.
        destruct p; cbn in Ht; destruct Ht as [<-|[]]; reflexivity.
  - destruct m as [hs]. cbn [iter heads]. split.
    + intros [p [Hp E]]. assert (Hne : p <> []) by (apply (iter_nonempty (Node hs)); exact Hp).
      destruct p as [|x p]; [congruence|]. cbn in E. inversion E; subst.
      apply in_flat_map in Hp as [[k o] [H1 H2]]. cbn in H2. destruct o as [m'|].
      * apply in_map_iff in H2 as [t' [E' H2]]. inversion E'; subst.
        exists (Some (AMFS m')). split; [|exact H2]. apply in_map_iff. exists (h, Some m'). auto.
      * destruct H2 as [E'|[]]. inversion E'; subst. exists None. split; [|cbn; auto].
        apply in_map_iff. exists (h, None). auto.
    + intros [o [H1 H2]]. apply in_map_iff in H1 as [[k o'] [E H1]]. cbn in E. inversion E; subst.
      exists (h :: t). split; [|reflexivity]. apply in_flat_map. exists (h, o'). split; auto. cbn.
      destruct o' as [m'|]; cbn in H2.
      * apply in_map_iff. exists t. auto.
      * destruct H2 as [<-|[]]. left; reflexivity.
Qed.

Lemma entries_in args h o : In (h, o) (entries args) <-> exists a, In a args /\ In (h, o) (split_arg a).
Proof.
  unfold entries. rewrite in_app_iff, !in_flat_map. split.
  - intros [[a [H1 H2]]|[a [H1 H2]]]; apply filter_In in H1 as [H1 _]; eauto.
  - intros [a [H1 H2]]. destruct (is_mfs a) eqn:E.
    + left. exists a. rewrite filter_In. auto.
    + right. exists a. rewrite filter_In, E. auto.
Qed.

Lemma paths_entries args h t : Forall good_arg args ->
  In (h :: t) (paths args) <-> exists o, In (h, o) (entries args) /\ In t (tail_paths o).
Proof.
  intros Hg. rewrite Forall_forall in Hg. unfold paths. rewrite in_map_iff. split.
  - intros [p [E Hp]]. apply in_flat_map in Hp as [a [Ha Hp]].
    destruct (split_arg_paths a h t (Hg _ Ha)) as [H _].
    destruct H as [o [H1 H2]]; [eauto|]. exists o. split; auto. apply entries_in. eauto.
  - intros [o [H1 H2]]. apply entries_in in H1 as [a [Ha H1]].
    destruct (split_arg_paths a h t (Hg _ Ha)) as [_ H].
    destruct H as [p [H3 H4]]; [eauto|]. exists p. split; auto. apply in_flat_map. eauto.
Qed.

Lemma paths_nonempty args p : In p (paths args) -> p <> [].
Proof. unfold paths. rewrite in_map_iff. intros [q [<- _]]. destruct q; discriminate. Qed.

Lemma split_sub a h b : good_arg a -> In (h, Some b) (split_arg a) -> sub_arg b.
Proof.
  intros Hg. destruct a as [p|m]; cbn [split_arg].
  - destruct p as [|x [|y p]]; cbn.
    + intros [E|[]]. discriminate.
    + intros [E|[]]. discriminate.
    + intros [E|[]]. inversion E. cbn. discriminate.
  - intros H. apply in_map_iff in H as [[k o] [E H]]. cbn in E. inversion E; subst.
    destruct o as [m'|]; [|discriminate]. cbn in *. inversion H2; subst. cbn.
    destruct m as [hs]. cbn in Hg, H. apply (wf_node hs) in Hg as [_ [_ Hg]]. apply Hg in H. tauto.
Qed.

Lemma mapM_ok {A B} (f : A -> res B) l ys : mapM f l = Ok ys <-> Forall2 (fun x y => f x = Ok y) l ys.
Proof.
  revert ys. induction l as [|x t IH]; intros ys; cbn.
  - split; [intros H; inversion H; constructor | intros H; inversion H; reflexivity].
  - destruct (f x) as [y|e] eqn:E; cbn.
    + destruct (mapM f t) as [ys'|e] eqn:E'; cbn.
      * split.
        -- intros H. inversion H; subst. constructor; auto. now apply IH.
        -- intros H. inversion H; subst. rewrite E in H2. inversion H2; subst.
           apply IH in H4. congruence.
      * split; [discriminate|]. intros H. inversion H; subst. apply IH in H4. congruence.
    + split; [discriminate|]. intros H. inversion H; subst. congruence.
Qed.

Lemma mapM_err {A B} (f : A -> res B) l e : mapM f l = Err e -> exists x, In x l /\ f x = Err e.
Proof.
  induction l as [|x t IH]; cbn; [discriminate|]. destruct (f x) as [y|e'] eqn:E; cbn.
  - destruct (mapM f t) as [ys'|e''] eqn:E'; cbn; [discriminate|].
    intros H. inversion H; subst. destruct (IH eq_refl) as [z [H1 H2]]. eauto.
  - intros H. inversion H; subst. eauto.
Qed.

Lemma bad_level_spec ks : bad_level ks = true <-> In ENone ks /\ exists x, In x ks /\ x <> ENone.
Proof.
  unfold bad_level. rewrite andb_true_iff, !existsb_exists. split.
  - intros [[x [H1 H2]] [y [H3 H4]]]. destruct x; try discriminate. split; auto. exists y. split; auto.
    destruct y; try discriminate; intros K; discriminate.
  - intros [H1 [x [H2 H3]]]. split.
    + exists ENone. auto.
    + exists x. split; auto. destruct x; auto; congruence.
Qed.

Section Build.
  Variable ord : list arg -> list arg.
  Hypothesis ord_perm : forall l, Permutation (ord l) l.

  Definition sub_args (args : list arg) (k : elem) : list arg := ord (somes (tails_of k (entries args))).

  Definition is_all (args : list arg) (k : elem) : bool :=
    existsb (fun o : option arg => match o with None => true | Some _ => false end) (tails_of k (entries args)).

  Lemma is_all_spec args k : is_all args k = true <-> In (k, None) (entries args).
  Proof.
    unfold is_all. rewrite existsb_exists. split.
    - intros [[a|] [H1 H2]]; [discriminate|]. now apply tails_of_in.
    - intros H. exists None. split; auto. now apply tails_of_in.
  Qed.

  Lemma sub_args_in args k b : In b (sub_args args k) <-> In (k, Some b) (entries args).
  Proof.
    unfold sub_args. split; intros H.
    - apply (Permutation_in _ (ord_perm _)) in H. apply somes_in in H. now apply tails_of_in.
    - apply (Permutation_in _ (Permutation_sym (ord_perm _))). apply somes_in. now apply tails_of_in.
  Qed.

  Lemma sub_args_sub args k : Forall good_arg args -> Forall sub_arg (sub_args args k).
  Proof.
    intros Hg. apply Forall_forall. intros b Hb. apply sub_args_in, entries_in in Hb as [a [Ha Hb]].
    rewrite Forall_forall in Hg. eapply split_sub; eauto.
  Qed.

  Lemma sub_args_good args k : Forall good_arg args -> Forall good_arg (sub_args args k).
  Proof.
    intros H. apply sub_args_sub with (k := k) in H. revert H. apply Forall_impl. apply sub_good.
  Qed.

  (** residual of the paths after [k] *)
  Lemma sub_args_paths args k t : Forall good_arg args -> is_all args k = false ->
    In t (paths (sub_args args k)) <-> In (k :: t) (paths args).
  Proof.
    intros Hg Ha. rewrite paths_entries by auto. unfold paths. rewrite in_map_iff. split.
    - intros [p [E Hp]]. apply in_flat_map in Hp as [b [Hb Hp]].
      assert (Hs : sub_arg b).
      { pose proof (sub_args_sub args k Hg) as H. rewrite Forall_forall in H. auto. }
      assert (p <> []) by (eapply paths_of_sub; eauto).
      destruct p; [congruence|]. cbn in E. subst t.
      exists (Some b). split; [now apply sub_args_in|exact Hp].
    - intros [[b|] [H1 H2]].
      + exists t. split.
        * assert (Hs : sub_arg b).
          { pose proof (sub_args_sub args k Hg) as H. rewrite Forall_forall in H. apply H. now apply sub_args_in. }
          assert (t <> []) by (eapply paths_of_sub; eauto). destruct t; [congruence|reflexivity].
        * apply in_flat_map. exists b. split; auto. now apply sub_args_in.
      + apply is_all_spec in H1. congruence.
  Qed.

  Lemma is_all_paths args k : Forall good_arg args -> is_all args k = true <-> In [k] (paths args).
  Proof.
    intros Hg. rewrite is_all_spec, paths_entries by auto. split.
    - intros H. exists None. cbn. auto.
    - intros [[b|] [H1 H2]]; auto. cbn in H2. exfalso.
      apply entries_in in H1 as [a [Ha H1]]. rewrite Forall_forall in Hg.
      apply split_sub in H1; auto. eapply paths_of_sub in H2; eauto.
  Qed.

  Lemma key_paths args k : Forall good_arg args ->
    In k (keys_of (entries args)) <-> exists t, In (k :: t) (paths args).
  Proof.
    intros Hg. rewrite keys_of_in, in_map_iff. split.
    - intros [[k' o] [E H]]. cbn in E. subst k'.
      destruct o as [b|].
      + assert (Hs : sub_arg b).
        { apply entries_in in H as [a [Ha H1]]. rewrite Forall_forall in Hg. eapply split_sub; eauto. }
        assert (exists t, In t (paths_of b)) as [t Ht].
        { destruct b as [p|m]; cbn; [eauto|]. destruct Hs as [Hw Hn]. clear -Hw Hn.
          induction m as [hs IH] using mfs_ind'. cbn in Hn. destruct hs as [|[h o] t]; [congruence|].
          cbn [iter flat_map fst snd]. destruct o as [m'|].
          - apply wf_node in Hw as [_ [_ Hw]]. destruct (Hw h m' (or_introl eq_refl)) as [Hn' Hw'].
            destruct (IH h m' (or_introl eq_refl) Hw' Hn') as [p Hp]. exists (h :: p).
            apply in_or_app. left. now apply in_map.
          - exists [h]. left; reflexivity. }
        exists t. rewrite paths_entries by auto. exists (Some b). auto.
      + exists []. rewrite paths_entries by auto. exists None. cbn. auto.
    - intros [t H]. rewrite paths_entries in H by auto. destruct H as [o [H _]]. exists (k, o). auto.
  Qed.

  (** One level of [build]. *)
  Lemma build_S n args :
    build ord (S n) args =
    (do hs <- mapM (fun k => if is_all args k then Ok (k, None)
                             else do m <- build ord n (sub_args args k); Ok (k, Some m))
              (keys_of (entries args));
     if bad_level (map fst hs) then Err ValueErr else Ok (Node hs)).
  Proof. reflexivity. Qed.

  Lemma level_keys n args hs :
    mapM (fun k => if is_all args k then Ok (k, None)
                   else do m <- build ord n (sub_args args k); Ok (k, Some m))
         (keys_of (entries args)) = Ok hs ->
    map fst hs = keys_of (entries args).
  Proof.
    intros H. apply mapM_ok in H. induction H as [|k [k' o] l l' H _ IH]; [reflexivity|].
    cbn. rewrite IH. f_equal. destruct (is_all args k); [now inversion H|].
    destruct (build ord n (sub_args args k)); cbn in H; now inversion H.
  Qed.

  Lemma level_in n args hs k o :
    mapM (fun k => if is_all args k then Ok (k, None)
                   else do m <- build ord n (sub_args args k); Ok (k, Some m))
         (keys_of (entries args)) = Ok hs ->
    In (k, o) hs ->
    In k (keys_of (entries args)) /\
    match o with
    | None => is_all args k = true
    | Some m => is_all args k = false /\ build ord n (sub_args args k) = Ok m
    end.
  Proof.
    intros H. apply mapM_ok in H. induction H as [|k0 [k' o'] l l' H _ IH]; [intros []|].
    intros [E|Hin].
    - inversion E; subst. destruct (is_all args k0) eqn:Ea.
      + inversion H; subst. cbn. auto.
      + destruct (build ord n (sub_args args k0)) eqn:Eb; cbn in H; inversion H; subst. cbn. auto.
    - destruct (IH Hin). cbn. auto.
  Qed.

  Lemma build_wf : forall n args m, Forall good_arg args -> build ord n args = Ok m ->
    wf m /\ (heads m = [] -> paths args = []).
  Proof.
    induction n as [|n IH]; intros args m Hg H; [discriminate|].
    rewrite build_S in H. destruct (mapM _ _) as [hs|e] eqn:E; cbn [bind] in H; [|discriminate].
    destruct (bad_level (map fst hs)) eqn:Eb; [discriminate|]. inversion H; subst m. clear H.
    pose proof (level_keys _ _ _ E) as Hk. split.
    - apply wf_node. split; [rewrite Hk; apply keys_of_nodup|]. split.
      + intros Hin. assert (Hall : forall x, In x (map fst hs) -> x = ENone).
        { intros x Hx. destruct (elem_eq_dec x ENone); auto. exfalso.
          assert (bad_level (map fst hs) = true) by (apply bad_level_spec; eauto). congruence. }
        assert (Hnd : NoDup (map fst hs)) by (rewrite Hk; apply keys_of_nodup).
        destruct (map fst hs) as [|a [|b l]].
        * destruct Hin.
        * rewrite (Hall a); cbn; auto.
        * exfalso. inversion Hnd as [|? ? Hna _]; subst. apply Hna.
          rewrite (Hall a), (Hall b); cbn; auto.
      + intros h m Hin. destruct (level_in _ _ _ _ _ E Hin) as [H1 [H2 H3]].
        destruct (IH (sub_args args h) m) as [Hw Hn]; auto using sub_args_good.
        split; [|exact Hw]. intros Hm. specialize (Hn Hm).
        apply key_paths in H1 as [t Ht]; auto. apply sub_args_paths in Ht; auto. rewrite Hn in Ht. destruct Ht.
    - cbn. intros ->. cbn in Hk. symmetry in Hk.
      destruct (paths args) as [|p P] eqn:Ep; [reflexivity|].
      assert (Hin : In p (paths args)) by (rewrite Ep; left; auto).
      pose proof (paths_nonempty _ _ Hin). destruct p as [|h t]; [congruence|].
      assert (In h (keys_of (entries args))) by (apply key_paths; eauto). rewrite Hk in H0. destruct H0.
  Qed.

  Lemma covers_nil_inv p : covers p [] -> p = [] \/ p = [ENone].
  Proof. intros H. inversion H; auto. Qed.

  (** Membership in a freshly built selector. *)
  Lemma build_contains : forall n args m, Forall good_arg args -> build ord n args = Ok m ->
    forall q, contains m q = true <-> exists p, In p (paths args) /\ covers p q.
  Proof.
    induction n as [|n IH]; intros args m Hg H q; [discriminate|].
    pose proof (build_wf _ _ _ Hg H) as [Hwf _].
    rewrite build_S in H. destruct (mapM _ _) as [hs|e] eqn:E; cbn [bind] in H; [|discriminate].
    destruct (bad_level (map fst hs)) eqn:Eb; [discriminate|]. inversion H; subst m. clear H.
    pose proof (level_keys _ _ _ E) as Hk.
    assert (Hnd : NoDup (map fst hs)) by (rewrite Hk; apply keys_of_nodup).
    assert (Hget : forall k, match hget k hs with
                             | None => ~ exists t, In (k :: t) (paths args)
                             | Some None => In [k] (paths args)
                             | Some (Some m') => is_all args k = false /\ build ord n (sub_args args k) = Ok m'
                             end).
    { intros k. destruct (hget k hs) as [o|] eqn:Eg.
      - apply hget_in in Eg. destruct (level_in _ _ _ _ _ E Eg) as [H1 H2].
        destruct o as [m'|]; auto. now apply is_all_paths.
      - apply hget_none in Eg. rewrite Hk in Eg. rewrite key_paths in Eg by auto. exact Eg. }
    assert (Hcomp : complete (Node hs) = true <-> In [ENone] (paths args)).
    { unfold complete. cbn [heads]. specialize (Hget ENone). destruct (hget ENone hs) as [[m'|]|].
      - split; [discriminate|]. intros H. apply is_all_paths in H; auto. destruct Hget. congruence.
      - tauto.
      - split; [discriminate|]. intros H. exfalso. apply Hget. exists []. exact H. }
    destruct (complete (Node hs)) eqn:Ec.
    { rewrite contains_complete by auto. split; auto. intros _. exists [ENone]. split; [now apply Hcomp|constructor]. }
    assert (Hnc : ~ In [ENone] (paths args)) by (intros K; apply Hcomp in K; discriminate).
    destruct q as [|x q]; cbn [contains].
    { rewrite Ec. split; [discriminate|]. intros [p [H1 H2]]. apply covers_nil_inv in H2 as [->| ->].
      - apply paths_nonempty in H1. congruence.
      - contradiction. }
    set (k := if has_none (Node hs) then ENone else x).
    unfold getitem. rewrite Ec. cbn [heads].
    specialize (Hget k).
    (* the given paths that can cover x :: q are those with head k *)
    assert (Hcov : (exists p, In p (paths args) /\ covers p (x :: q)) <->
                   exists t, In (k :: t) (paths args) /\ covers t q).
    { subst k. destruct (has_none (Node hs)) eqn:Eh.
      - destruct (wf_has_none _ Hwf Eh) as [o Ho]. cbn in Ho. subst hs. cbn in Hk.
        split.
        + intros [p [H1 H2]]. pose proof (paths_nonempty _ _ H1). destruct p as [|h t]; [congruence|].
          assert (h = ENone).
          { assert (In h (keys_of (entries args))) by (apply key_paths; eauto). rewrite <- Hk in H0.
            destruct H0 as [<-|[]]. reflexivity. }
          subst h. exists t. split; auto. inversion H2; subst; auto. constructor.
        + intros [t [H1 H2]]. exists (ENone :: t). split; auto. now constructor.
      - split.
        + intros [p [H1 H2]]. pose proof (paths_nonempty _ _ H1). destruct p as [|h t]; [congruence|].
          assert (Hne : h <> ENone).
          { intros ->. assert (In ENone (keys_of (entries args))) by (apply key_paths; eauto).
            rewrite <- Hk in H0. apply (has_none_spec (Node hs)) in H0. congruence. }
          inversion H2; subst; try congruence. eauto.
        + intros [t [H1 H2]]. exists (x :: t). split; auto. now constructor. }
    rewrite Hcov. destruct (hget k hs) as [[m'|]|].
    - destruct Hget as [Ha Hb]. rewrite (IH _ _ (sub_args_good args k Hg) Hb q).
      split; intros [t [H1 H2]]; exists t; (split; [|exact H2]); now apply (sub_args_paths args k t Hg Ha).
    - rewrite contains_complete by reflexivity. split; auto. intros _. exists []. split; auto. constructor.
    - split; [discriminate|]. intros [t [H1 _]]. exfalso. apply Hget. eauto.
  Qed.

  Lemma clash_sub args k : Forall good_arg args -> is_all args k = false ->
    clash (paths (sub_args args k)) -> clash (paths args).
  Proof.
    intros Hg Ha [pre [u [x [v [H1 [H2 [H3 H4]]]]]]].
    apply sub_args_paths in H1, H2; auto. exists (k :: pre), u, x, v. repeat split; auto.
    intros p Hp [w Hw]. pose proof (paths_nonempty _ _ Hp). destruct p as [|h p]; [congruence|].
    cbn in Hw. inversion Hw; subst h. apply sub_args_paths in Hp; auto.
    apply (H4 p Hp). exists w. auto.
  Qed.

  Lemma build_err : forall n args e, Forall good_arg args -> depths args < n ->
    build ord n args = Err e -> e = ValueErr /\ clash (paths args).
  Proof.
    induction n as [|n IH]; intros args e Hg Hd H; [lia|].
    rewrite build_S in H. destruct (mapM _ _) as [hs|e'] eqn:E; cbn [bind] in H.
    - destruct (bad_level (map fst hs)) eqn:Eb; [|discriminate]. inversion H; subst e. split; auto.
      rewrite (level_keys _ _ _ E) in Eb. apply bad_level_spec in Eb as [H1 [x [H2 H3]]].
      apply key_paths in H1 as [u Hu]; auto. apply key_paths in H2 as [v Hv]; auto.
      exists [], u, x, v. repeat split; auto. intros p Hp [w Hw].
      apply paths_nonempty in Hp. destruct p; [congruence|discriminate].
    - inversion H; subst e'. apply mapM_err in E as [k [Hk E]].
      destruct (is_all args k) eqn:Ea; [discriminate|].
      destruct (build ord n (sub_args args k)) as [m|e'] eqn:Eb; cbn in E; [discriminate|].
      inversion E; subst e'. apply IH in Eb as [-> Hc]; auto using sub_args_good.
      + split; auto. eapply clash_sub; eauto.
      + (* depth decreases *)
        assert (Hle : forall d l, (forall a, In a l -> depth a <= d) -> depths l <= d).
        { clear. intros d l. induction l as [|a l IHl]; intros Hl; [cbn; lia|].
          change (depths (a :: l)) with (Nat.max (depth a) (depths l)).
          specialize (IHl (fun b Hb => Hl b (or_intror Hb))). specialize (Hl a (or_introl eq_refl)). lia. }
        assert (Hge : forall a, In a args -> depth a <= depths args).
        { clear. induction args as [|b l IHl]; intros a Ha; [destruct Ha|].
          change (depths (b :: l)) with (Nat.max (depth b) (depths l)).
          destruct Ha as [->|Ha]; [lia|]. specialize (IHl _ Ha). lia. }
        assert (Hsub : forall b, In b (sub_args args k) -> S (depth b) <= depths args).
        { intros b Hb. apply sub_args_in, entries_in in Hb as [a [Ha Hb]].
          eapply Nat.le_trans; [|apply (Hge _ Ha)]. destruct a as [p|[ms]]; cbn in Hb.
          - destruct p as [|y [|z p]]; cbn in Hb; destruct Hb as [Hb|[]]; inversion Hb; subst. cbn. lia.
          - apply in_map_iff in Hb as [[k' o] [E1 E2]]. cbn in E1. inversion E1; subst.
            destruct o as [m'|]; [|discriminate]. cbn in H2. inversion H2; subst. cbn [depth height].
            apply le_n_S. clear - E2. induction ms as [|[k0 o0] t IHt]; [destruct E2|].
            cbn [fold_right snd]. destruct E2 as [E2|E2]; [inversion E2; subst; lia|]. specialize (IHt E2). lia. }
        assert (Hex : exists b, In b (sub_args args k)).
        { apply key_paths in Hk as [t Ht]; auto. apply sub_args_paths in Ht; auto.
          destruct (sub_args args k) as [|b l]; [destruct Ht|]. exists b. left; auto. }
        destruct Hex as [b Hb]. apply Hsub in Hb.
        assert (depths (sub_args args k) <= depths args - 1).
        { apply Hle. intros c Hc. apply Hsub in Hc. lia. }
        lia.
  Qed.

  Lemma build_ok_no_clash : forall n args m, Forall good_arg args ->
    build ord n args = Ok m -> ~ clash (paths args).
  Proof.
    induction n as [|n IH]; intros args m Hg H; [discriminate|].
    rewrite build_S in H. destruct (mapM _ _) as [hs|e] eqn:E; cbn [bind] in H; [|discriminate].
    destruct (bad_level (map fst hs)) eqn:Eb; [discriminate|].
    pose proof (level_keys _ _ _ E) as Hk.
    intros [pre [u [x [v [H1 [H2 [H3 H4]]]]]]]. destruct pre as [|k pre].
    - cbn in H1, H2. assert (bad_level (map fst hs) = true); [|congruence].
      rewrite Hk. apply bad_level_spec. split; [apply key_paths; eauto|].
      exists x. split; auto. apply key_paths; eauto.
    - cbn in H1, H2. assert (Hin : In k (keys_of (entries args))) by (apply key_paths; eauto).
      assert (Ha : is_all args k = false).
      { destruct (is_all args k) eqn:Ea; auto. apply is_all_paths in Ea; auto. exfalso.
        apply (H4 [k] Ea). exists pre. reflexivity. }
      rewrite <- Hk in Hin. apply in_map_iff in Hin as [[k' o] [Ek Hin]]. cbn in Ek. subst k'.
      destruct (level_in _ _ _ _ _ E Hin) as [_ Ho]. destruct o as [m'|]; [|congruence].
      destruct Ho as [_ Hb]. apply (IH _ _ (sub_args_good args k Hg) Hb).
      exists pre, u, x, v. repeat split; auto; try (apply sub_args_paths; auto).
      intros p Hp [w Hw]. apply sub_args_paths in Hp; auto. apply (H4 _ Hp). exists w. cbn. congruence.
  Qed.

  Lemma make_total args : Forall good_arg args ->
    (exists m, make ord args = Ok m /\ ~ clash (paths args)) \/
    (make ord args = Err ValueErr /\ clash (paths args)).
  Proof.
    intros Hg. unfold make. destruct (build ord (S (depths args)) args) as [m|e] eqn:E.
    - left. exists m. split; auto. eapply build_ok_no_clash; eauto.
    - right. apply build_err in E as [-> Hc]; auto.
  Qed.
End Build.

(** * Iteration *)

Lemma iter_contains m : wf m -> forall q,
  contains m q = true <-> exists p, In p (iter m) /\ covers p q.
Proof.
  induction m as [hs IH] using mfs_ind'. intros Hwf q.
  pose proof Hwf as Hwf'. apply wf_node in Hwf' as [Hnd [Hno Hsub]].
  assert (Hcomp : complete (Node hs) = true <-> In [ENone] (iter (Node hs))).
  { unfold complete. cbn [heads iter]. rewrite in_flat_map. split.
    - destruct (hget ENone hs) as [[m'|]|] eqn:E; try discriminate. intros _.
      apply hget_in in E. exists (ENone, None). cbn. auto.
    - intros [[h [m'|]] [H1 H2]]; cbn in H2.
      + apply in_map_iff in H2 as [t [E Ht]]. inversion E; subst.
        apply iter_nonempty in Ht. congruence.
      + destruct H2 as [E|[]]. inversion E; subst. now rewrite (hget_nodup ENone hs None Hnd H1). }
  destruct (complete (Node hs)) eqn:Ec.
  { rewrite contains_complete by auto. split; auto. intros _. exists [ENone]. split; [now apply Hcomp|constructor]. }
  assert (Hnc : ~ In [ENone] (iter (Node hs))) by (intros K; apply Hcomp in K; discriminate).
  destruct q as [|x q]; cbn [contains].
  { rewrite Ec. split; [discriminate|]. intros [p [H1 H2]]. apply covers_nil_inv in H2 as [->| ->].
    - apply iter_nonempty in H1. congruence.
    - contradiction. }
  set (k := if has_none (Node hs) then ENone else x).
  unfold getitem. rewrite Ec. cbn [heads].
  assert (Hcov : (exists p, In p (iter (Node hs)) /\ covers p (x :: q)) <->
                 exists o, In (k, o) hs /\
                   match o with None => True | Some m' => exists t, In t (iter m') /\ covers t q end).
  { subst k. split.
    - intros [p [H1 H2]]. cbn [iter] in H1. apply in_flat_map in H1 as [[h o] [Hin H1]]. cbn in H1.
      assert (Hh : h = if has_none (Node hs) then ENone else x).
      { assert (Hp : exists t, p = h :: t).
        { destruct o; [apply in_map_iff in H1 as [t [<- _]]; eauto | destruct H1 as [<-|[]]; eauto]. }
        destruct Hp as [t ->].
        destruct (has_none (Node hs)) eqn:Eh.
        - destruct (wf_has_none _ Hwf Eh) as [o' Ho]. cbn in Ho. subst hs. destruct Hin as [E|[]]. now inversion E.
        - assert (h <> ENone).
          { intros ->. assert (has_none (Node hs) = true); [|congruence]. apply has_none_spec.
            apply in_map_iff. exists (ENone, o). auto. }
          inversion H2; subst; congruence. }
      rewrite <- Hh. exists o. split; auto. destruct o as [m'|]; auto.
      apply in_map_iff in H1 as [t [<- Ht]]. exists t. split; auto. inversion H2; subst; auto. constructor.
    - intros [o [Hin Ho]]. destruct o as [m'|].
      + destruct Ho as [t [H1 H2]]. exists ((if has_none (Node hs) then ENone else x) :: t). split.
        * cbn [iter]. apply in_flat_map. eexists. split; [exact Hin|]. cbn. now apply in_map.
        * destruct (has_none (Node hs)); constructor; auto.
      + exists [if has_none (Node hs) then ENone else x]. split.
        * cbn [iter]. apply in_flat_map. eexists. split; [exact Hin|]. cbn. auto.
        * destruct (has_none (Node hs)); constructor; constructor. }
  rewrite Hcov. destruct (hget k hs) as [[m'|]|] eqn:E.
  - apply hget_in in E. pose proof (Hsub _ _ E) as [_ Hw']. rewrite (IH _ _ E Hw' q). split.
    + intros Ht. exists (Some m'). auto.
    + intros [o [H1 H2]]. assert (o = Some m').
      { apply (hget_nodup _ _ _ Hnd) in H1, E. congruence. }
      subst o. exact H2.
  - rewrite contains_complete by reflexivity. split; auto. intros _. exists None. split; auto. now apply hget_in.
  - apply hget_none in E. split; [discriminate|]. intros [o [H1 _]]. exfalso. apply E.
    apply in_map_iff. exists (k, o). auto.
Qed.

(** No iterated selector extends another one (positions differ). *)
Lemma iter_antichain m : wf m ->
  ForallOrdPairs (fun p q => ~ prefix p q /\ ~ prefix q p) (iter m).
Proof.
  induction m as [hs IH] using mfs_ind'. intros Hwf. apply wf_node in Hwf as [Hnd [_ Hsub]].
  cbn [iter].
  assert (Happ : forall (R : list elem -> list elem -> Prop) l1 l2,
             ForallOrdPairs R l1 -> ForallOrdPairs R l2 ->
             (forall a b, In a l1 -> In b l2 -> R a b) -> ForallOrdPairs R (l1 ++ l2)).
  { clear. intros R l1 l2 H1. induction H1 as [|a l Ha Hl IHl]; intros H2 Hc; cbn; auto.
    constructor.
    - apply Forall_app. split; auto. apply Forall_forall. intros b Hb. apply Hc; cbn; auto.
    - apply IHl; auto. intros. apply Hc; cbn; auto. }
  induction hs as [|[h o] t IHt]; cbn [flat_map fst snd]; [constructor|].
  apply Happ.
  - destruct o as [m'|].
    + pose proof (IH h m' (or_introl eq_refl) (proj2 (Hsub h m' (or_introl eq_refl)))) as Hi.
      clear - Hi. induction Hi as [|a l Ha Hl IHl]; cbn; constructor; auto.
      rewrite Forall_forall in *. intros b Hb. apply in_map_iff in Hb as [c [<- Hc]].
      destruct (Ha c Hc) as [K1 K2]. split; intros [u Hu]; cbn in Hu; inversion Hu.
      * apply K1. exists u. auto.
      * apply K2. exists u. auto.
    + constructor; [constructor|constructor].
  - apply IHt.
    + intros h' m' Hin. apply (IH h' m'). right; auto.
    + cbn in Hnd. now inversion Hnd.
    + intros h' m' Hin. apply (Hsub h' m'). right; auto.
  - intros a b Ha Hb.
    assert (Hh : exists a', a = h :: a').
    { destruct o; [apply in_map_iff in Ha as [a' [<- _]]; eauto | destruct Ha as [<-|[]]; eauto]. }
    destruct Hh as [a' ->].
    apply in_flat_map in Hb as [[k o'] [Hin Hb]]. cbn in Hb.
    assert (Hk : exists b', b = k :: b').
    { destruct o'; [apply in_map_iff in Hb as [b' [<- _]]; eauto | destruct Hb as [<-|[]]; eauto]. }
    destruct Hk as [b' ->].
    assert (h <> k).
    { intros ->. cbn in Hnd. inversion Hnd; subst. apply H1. apply in_map_iff. exists (k, o'). auto. }
    split; intros [u Hu]; cbn in Hu; inversion Hu; congruence.
Qed.

Lemma iter_no_clash m : wf m -> ~ clash (iter m).
Proof.
  induction m as [hs IH] using mfs_ind'. intros Hwf. pose proof Hwf as Hwf'.
  apply wf_node in Hwf' as [Hnd [Hno Hsub]].
  assert (Hh : forall h t, In (h :: t) (iter (Node hs)) ->
            In h (map fst hs) /\ (forall m', In (h, Some m') hs -> In t (iter m')) /\
            (In (h, None) hs -> t = [])).
  { intros h t Hin. cbn [iter] in Hin. apply in_flat_map in Hin as [[k o] [H1 H2]]. cbn in H2.
    assert (Hk : k = h /\ match o with Some m' => In t (iter m') | None => t = [] end).
    { destruct o; [apply in_map_iff in H2 as [a' [E H2]]; inversion E; subst; auto
                  | destruct H2 as [E|[]]; inversion E; auto]. }
    destruct Hk as [-> Ho]. split; [apply in_map_iff; exists (h, o); auto|]. split.
    - intros m' Hm'. apply (hget_nodup _ _ _ Hnd) in H1, Hm'. rewrite H1 in Hm'. inversion Hm'; subst. exact Ho.
    - intros Hn. apply (hget_nodup _ _ _ Hnd) in H1, Hn. rewrite H1 in Hn. inversion Hn; subst. exact Ho. }
  intros [pre [u [x [v [H1 [H2 [H3 H4]]]]]]]. destruct pre as [|k pre].
  - cbn in H1, H2. apply Hh in H1 as [H1 _]. apply Hh in H2 as [H2 _].
    rewrite (Hno H1) in H2. destruct H2 as [H2|[]]. congruence.
  - cbn in H1, H2. pose proof (Hh _ _ H1) as [Hk [Hs1 Hn1]]. pose proof (Hh _ _ H2) as [_ [Hs2 Hn2]].
    apply in_map_iff in Hk as [[k' o] [E Hin]]. cbn in E. subst k'. destruct o as [m'|].
    + apply (IH k m' Hin (proj2 (Hsub _ _ Hin))). exists pre, u, x, v. repeat split; auto.
      intros p Hp [w Hw]. apply (H4 (k :: p)).
      * cbn [iter]. apply in_flat_map. exists (k, Some m'). split; auto. cbn. now apply in_map.
      * exists w. cbn. congruence.
    + specialize (Hn1 Hin). destruct pre; discriminate.
Qed.

(** * Subscripting *)

Lemma getitem_path_contains : forall p m q, wf m ->
  contains m (p ++ q) = match getitem_path m p with Some m' => contains m' q | None => false end.
Proof.
  induction p as [|x p IH]; intros m q Hwf.
  - cbn [app getitem_path]. now destruct (complete m).
  - cbn [getitem_path]. destruct (complete m) eqn:Ec.
    { rewrite !contains_complete by auto. reflexivity. }
    cbn [app contains]. unfold getitem. rewrite Ec.
    destruct (hget (if has_none m then ENone else x) (heads m)) as [[m'|]|] eqn:E.
    + assert (Hw : wf m').
      { destruct m as [hs]. apply wf_node in Hwf as [_ [_ Hs]]. apply hget_in in E. eapply Hs; eauto. }
      rewrite IH by auto. destruct p; [|reflexivity]. cbn [getitem_path]. now destruct (complete m').
    + rewrite !contains_complete by reflexivity. reflexivity.
    + reflexivity.
Qed.

Lemma getitem_path_wf : forall p m m', wf m -> getitem_path m p = Some m' -> wf m'.
Proof.
  assert (Hcw : wf complete_mfs).
  { apply wf_node. repeat split; cbn; auto; try (repeat constructor; auto; fail);
      destruct H as [H|[]]; discriminate. }
  induction p as [|x p IH]; intros m m' Hwf H; cbn [getitem_path] in H; destruct (complete m).
  - inversion H; now subst.
  - inversion H; now subst.
  - inversion H; now subst.
  - destruct (hget (if has_none m then ENone else x) (heads m)) as [[s|]|] eqn:E; [| |discriminate].
    + assert (Hw : wf s).
      { destruct m as [hs]. apply wf_node in Hwf as [_ [_ Hs]]. apply hget_in in E. eapply Hs; eauto. }
      destruct p; [inversion H; now subst | eauto].
    + inversion H; now subst.
Qed.

Lemma wf_inhabited m : wf m -> heads m <> [] -> exists q, contains m q = true.
Proof.
  intros Hw Hn. assert (exists p, In p (iter m)) as [p Hp].
  { induction m as [hs IH] using mfs_ind'. cbn in Hn. destruct hs as [|[h o] t]; [congruence|].
    cbn [iter flat_map fst snd]. destruct o as [m'|].
    - apply wf_node in Hw as [_ [_ Hw]]. destruct (Hw h m' (or_introl eq_refl)) as [Hn' Hw'].
      destruct (IH h m' (or_introl eq_refl) Hw' Hn') as [p Hp]. exists (h :: p).
      apply in_or_app. left. now apply in_map.
    - exists [h]. left; reflexivity. }
  exists p. apply iter_contains; auto. exists p. split; auto.
  clear. induction p; constructor; auto.
Qed.

Lemma getitem_path_nonempty : forall p m m', wf m -> heads m <> [] ->
  getitem_path m p = Some m' -> heads m' <> [].
Proof.
  induction p as [|x p IH]; intros m m' Hwf Hn H; cbn [getitem_path] in H; destruct (complete m).
  - inversion H; now subst.
  - inversion H; now subst.
  - inversion H; now subst.
  - destruct (hget (if has_none m then ENone else x) (heads m)) as [[s|]|] eqn:E; [| |discriminate].
    + assert (Hs : heads s <> [] /\ wf s).
      { destruct m as [hs]. apply wf_node in Hwf as [_ [_ Hs]]. apply hget_in in E. eapply Hs; eauto. }
      destruct Hs as [Hs1 Hs2]. destruct p; [inversion H; subst; exact Hs1 | eapply IH; eauto].
    + inversion H; subst. discriminate.
Qed.
