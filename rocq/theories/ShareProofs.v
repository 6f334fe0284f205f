From Coq Require Import List Arith NArith ZArith Bool Lia.
From Verif Require Import Prelude SelPathModel FSModel ShareModel ShareSpec.
Import ListNotations.

Lemma set_nth_length r l ls : length (set_nth r l ls) = length ls.
Proof. revert r. induction ls; destruct r; cbn; auto. Qed.
Lemma set_nth_same r l ls : r < length ls -> nth_error (set_nth r l ls) r = Some l.
Proof. revert r. induction ls; destruct r; cbn; intros; try lia; auto. apply IHls. lia. Qed.
Lemma set_nth_other r q l ls : q <> r -> nth_error (set_nth r l ls) q = nth_error ls q.
Proof. revert r q. induction ls; destruct r, q; cbn; intros; try lia; auto. Qed.
Lemma set_nth_in r l ls x : In x (set_nth r l ls) -> x = l \/ In x ls.
Proof. revert r. induction ls; destruct r; cbn; intuition. destruct (IHls _ H0); auto. Qed.
Lemma nth_of_error {A} (ls : list A) r x d : nth_error ls r = Some x -> nth r ls d = x.
Proof. intros. now apply nth_error_nth. Qed.

Lemma fs_init_spec l : acceptable l /\ fs_init l = Ok l \/ ~ acceptable l /\ fs_init l = Err ValueErr.
Proof.
  unfold fs_init, acceptable. destruct (existsb raw_bad_true l) eqn:E.
  - right. split; auto. apply existsb_exists in E as [[e|b] [I H]]; cbn in H; [easy|subst]. auto.
  - left. split; auto. intros I. assert (existsb raw_bad_true l = true) by (apply existsb_exists; eexists; split; eauto; auto). congruence.
Qed.
Lemma acceptable_app l m : acceptable (l ++ m) <-> acceptable l /\ acceptable m.
Proof. unfold acceptable. rewrite in_app_iff. tauto. Qed.
Lemma init_ok l : acceptable l -> fs_init l = Ok l.
Proof. destruct (fs_init_spec l) as [[A E]|[A E]]; tauto. Qed.
Lemma in_firstn {A} n (m : list A) x : In x (firstn n m) -> In x m.
Proof. revert m. induction n; destruct m; cbn; intuition eauto. Qed.
Lemma in_skipn {A} n (m : list A) x : In x (skipn n m) -> In x m.
Proof. revert m. induction n; destruct m; cbn; intuition eauto. Qed.
Lemma in_slice {A} (l : list A) lo hi x : In x (py_slice l lo hi) -> In x l.
Proof. unfold py_slice. intros I. eapply in_skipn, in_firstn, I. Qed.
Lemma acceptable_slice l lo hi : acceptable l -> acceptable (py_slice l lo hi).
Proof. unfold acceptable. intros A I. now apply in_slice in I. Qed.

(** Invariants: references are to lists; lists are acceptable *)
Definition fit (s : store) : Prop :=
  (forall r, In r (s_attr s) -> r < length (s_lists s)) /\ (forall l, In l (s_lists s) -> acceptable l).
Lemma fit_empty : fit empty_store.
Proof. split; cbn; tauto. Qed.
Lemma list_of_in s o l : list_of s o = Some l -> exists r, nth_error (s_attr s) o = Some r /\ nth_error (s_lists s) r = Some l.
Proof. unfold list_of, ref_of. destruct (nth_error (s_attr s) o) eqn:E; try discriminate. eauto. Qed.
Lemma list_acceptable s o l : fit s -> list_of s o = Some l -> acceptable l.
Proof. intros [_ F] H. apply list_of_in in H as [r [_ H]]. eauto using nth_error_In. Qed.
Lemma ref_list s o r : fit s -> ref_of s o = Some r -> exists l, nth_error (s_lists s) r = Some l.
Proof.
  intros [F _] H. assert (L : r < length (s_lists s)) by (apply F; eapply nth_error_In; exact H).
  apply nth_error_Some in L. destruct (nth_error (s_lists s) r); eauto; congruence.
Qed.

Lemma fit_make s l : fit s -> acceptable l -> fit (fst (make s l)).
Proof.
  intros [F A] H. split; cbn.
  - intros r I. rewrite app_length. cbn. apply in_app_iff in I as [I|[<-|[]]]; [apply F in I|]; lia.
  - intros m I. apply in_app_iff in I as [I|[<-|[]]]; auto.
Qed.
Lemma make_old s l o : fit s -> o < length (s_attr s) -> list_of (fst (make s l)) o = list_of s o.
Proof.
  intros [F A] H. unfold list_of, ref_of; cbn. rewrite nth_error_app1 by lia.
  destruct (nth_error (s_attr s) o) eqn:E; auto. apply nth_error_In, F in E. now rewrite nth_error_app1.
Qed.
Lemma make_new s l : list_of (fst (make s l)) (length (s_attr s)) = Some l.
Proof. unfold list_of, ref_of; cbn. rewrite nth_error_app2, Nat.sub_diag by lia. cbn. now rewrite nth_error_app2, Nat.sub_diag by lia. Qed.

Lemma fit_grow s o l : fit s -> acceptable l -> fit (fst (grow s o l)).
Proof.
  intros [F A] H. unfold grow. destruct (ref_of s o) as [r|] eqn:E; [|split; auto]. split; cbn.
  - intros q I. rewrite set_nth_length. auto.
  - intros m I. apply set_nth_in in I as [->|I]; auto. apply acceptable_app. split; auto.
    apply nth_error_In, F in E. apply A. now apply nth_In.
Qed.
Lemma grow_attr s o l : s_attr (fst (grow s o l)) = s_attr s.
Proof. unfold grow. now destruct (ref_of s o). Qed.
Lemma grow_shared s o p l m : fit s -> ref_of s o = ref_of s p -> list_of s o = Some m ->
  list_of (fst (grow s p l)) o = Some (m ++ l).
Proof.
  intros F R H. apply list_of_in in H as (r & H1 & H2). unfold ref_of in R. rewrite H1 in R. unfold grow, ref_of. rewrite <- R.
  unfold list_of, ref_of. cbn. rewrite H1. rewrite (nth_of_error _ _ _ [] H2). apply set_nth_same.
  apply nth_error_Some. congruence.
Qed.
Lemma grow_other s o p l : ref_of s o <> ref_of s p -> list_of (fst (grow s p l)) o = list_of s o.
Proof.
  intros R. unfold grow. destruct (ref_of s p) eqn:E; auto. unfold list_of, ref_of in *. cbn.
  destruct (nth_error (s_attr s) o) eqn:E1; auto. apply set_nth_other. congruence.
Qed.

Definition is_err0 (r : res (option nat)) : Prop := r = Err (OtherErr 0).
Lemma exists_list s o : fit s -> o < length (s_attr s) -> exists l, list_of s o = Some l.
Proof.
  intros F H. apply nth_error_Some in H. destruct (nth_error (s_attr s) o) as [r|] eqn:E; [|congruence].
  destruct (ref_list s o r F E) as [l L]. exists l. unfold list_of, ref_of. now rewrite E.
Qed.
Lemma list_lt s o l : list_of s o = Some l -> o < length (s_attr s).
Proof. intros H. apply list_of_in in H as (r & H & _). apply nth_error_Some. congruence. Qed.

(** Every step is one of these. *)
Inductive kind (s : store) (s1 : store) : res (option nat) -> Prop :=
| k_same e : s1 = s -> kind s s1 (Err e)
| k_make l : acceptable l -> s1 = fst (make s l) -> kind s s1 (Ok (Some (length (s_attr s))))
| k_grow o l : acceptable l -> o < length (s_attr s) -> s1 = fst (grow s o l) -> kind s s1 (Ok None)
| k_share o r : ref_of s o = Some r -> s1 = Store (s_attr s ++ [r]) (s_lists s) -> kind s s1 (Ok (Some (length (s_attr s)))).

Lemma construct_kind s l s1 r : construct s l = (s1, r) -> kind s s1 r.
Proof.
  unfold construct. destruct (fs_init_spec l) as [[A ->]|[A ->]]; intros E; inversion E; subst.
  - eapply k_make; eauto.
  - now apply k_same.
Qed.
Lemma grow_kind s o l s1 r : acceptable l -> grow s o l = (s1, r) -> kind s s1 r.
Proof.
  intros A E. unfold grow in E. destruct (ref_of s o) as [q|] eqn:R; inversion E; subst.
  - eapply (k_grow _ _ o l); auto. + apply nth_error_Some. unfold ref_of in R. congruence.
    + unfold grow. now rewrite R.
  - now apply k_same.
Qed.
(** [+] with a selector: as with the list of its elements *)
Lemma make_grow s l m : fit s -> fst (grow (fst (make s l)) (length (s_attr s)) m) = fst (make s (l ++ m)).
Proof.
  intros F. unfold grow, ref_of. cbn. rewrite nth_error_app2, Nat.sub_diag by lia. cbn. f_equal.
  rewrite app_nth2, Nat.sub_diag by lia. cbn. clear. induction (s_lists s); cbn; auto. now rewrite IHl0.
Qed.
Lemma plus_sel s o p l m : fit s -> list_of s o = Some l -> list_of s p = Some m ->
  step s (Plus o (Sel p)) = make s (l ++ m).
Proof.
  intros F L M. cbn. unfold with_list. rewrite L, M. unfold construct.
  rewrite (init_ok l) by eauto using list_acceptable.
  destruct (make s l) as [s1 r] eqn:E. assert (E1 : s1 = fst (make s l)) by now rewrite E.
  inversion E; subst r. rewrite H0. rewrite E1. rewrite make_old by eauto using list_lt. rewrite M.
  rewrite make_grow by auto. reflexivity.
Qed.

Lemma step_kind s x s1 r : fit s -> step s x = (s1, r) -> kind s s1 r.
Proof.
  intros F. destruct x; intros E.
  - eapply construct_kind; eauto.
  - cbn in E. unfold with_list in E. destruct (list_of s o) eqn:L; [eapply construct_kind; eauto|inversion E; subst; now apply k_same].
  - cbn in E. destruct x as [[z|z|]|b]; try (inversion E; subst; now apply k_same).
    eapply grow_kind; [|exact E]. cbn. unfold acceptable; cbn; intuition discriminate.
  - cbn in E. destruct x as [[z|z|]|b]; try (inversion E; subst; now apply k_same).
    eapply grow_kind; [|exact E]. cbn. unfold acceptable; cbn; intuition discriminate.
  - cbn in E. eapply grow_kind; [|exact E]. unfold acceptable; cbn; intuition discriminate.
  - cbn in E. unfold with_list in E. destruct (list_of s p) eqn:L; [|inversion E; subst; now apply k_same].
    eapply grow_kind; [|exact E]. eauto using list_acceptable.
  - destruct x as [e|m|p|].
    + cbn in E. unfold with_list in E. destruct (list_of s o) eqn:L; [|inversion E; subst; now apply k_same].
      destruct e; try (inversion E; subst; now apply k_same); eapply construct_kind; eauto.
    + cbn in E. unfold with_list in E. destruct (list_of s o) eqn:L; [|inversion E; subst; now apply k_same].
      eapply construct_kind; eauto.
    + destruct (list_of s o) as [l|] eqn:L; [destruct (list_of s p) as [m|] eqn:M|].
      * rewrite (plus_sel s o p l m) in E by auto. inversion E; subst. eapply (k_make _ _ (l ++ m)); auto.
        apply acceptable_app; eauto using list_acceptable.
      * cbn in E. unfold with_list in E. rewrite L, M in E. inversion E; subst; now apply k_same.
      * cbn in E. unfold with_list in E. rewrite L in E. inversion E; subst; now apply k_same.
    + cbn in E. unfold with_list in E. destruct (list_of s o) eqn:L; inversion E; subst; now apply k_same.
  - cbn in E. unfold with_list in E. destruct (list_of s o) eqn:L; [eapply construct_kind; eauto|inversion E; subst; now apply k_same].
  - cbn in E. unfold with_list in E. destruct (list_of s o) eqn:L; inversion E; subst; [|now apply k_same].
    eapply (k_make _ _ l); eauto using list_acceptable.
  - cbn in E. destruct (ref_of s o) eqn:L; inversion E; subst; [|now apply k_same]. eapply k_share; eauto.
Qed.

Lemma kind_fit s s1 r : fit s -> kind s s1 r -> fit s1.
Proof.
  intros F K. inversion K; subst; auto using fit_make, fit_grow.
  destruct F as [F A]. split; cbn; auto. intros q I. apply in_app_iff in I as [I|[<-|[]]]; auto.
  eapply F, nth_error_In. exact H.
Qed.

(** Paths only grow. *)
Lemma kind_grows s s1 r o l : fit s -> kind s s1 r -> list_of s o = Some l -> exists m, list_of s1 o = Some (l ++ m).
Proof.
  intros F K L. assert (D := list_lt _ _ _ L). inversion K; subst.
  - exists []. now rewrite app_nil_r.
  - exists []. rewrite app_nil_r, make_old; auto.
  - assert (X : forall a b : option nat, {a = b} + {a <> b}) by (decide equality; apply Nat.eq_dec); destruct (X (ref_of s o) (ref_of s o0)) as [R|R].
    + exists l0. now apply grow_shared.
    + exists []. rewrite app_nil_r. now rewrite grow_other.
  - exists []. rewrite app_nil_r, <- L. unfold list_of, ref_of. cbn. now rewrite nth_error_app1.
Qed.

(** Without copy.copy no two selectors have the same list. *)
Definition unshared (s : store) : Prop := NoDup (s_attr s).

Lemma holds_path s ps o l : holds s ps -> list_of s o = Some l -> nth_error ps o = Some l.
Proof. intros [L H] E. rewrite <- H; auto. rewrite <- L. eauto using list_lt. Qed.

Lemma make_holds s ps l : fit s -> holds s ps -> holds (fst (make s l)) (ps ++ [l]).
Proof.
  intros F [L H]. split; [cbn; rewrite !app_length; cbn; lia|]. intros o D.
  rewrite app_length in D; cbn in D. destruct (Nat.eq_dec o (length ps)) as [->|N].
  - rewrite <- L at 1. rewrite make_new. rewrite nth_error_app2, Nat.sub_diag by lia. reflexivity.
  - rewrite make_old by (auto; lia). rewrite nth_error_app1 by lia. apply H. lia.
Qed.
Lemma make_unshared s l : fit s -> unshared s -> unshared (fst (make s l)).
Proof.
  intros [F _] U. unfold unshared in *. cbn. rewrite <- (rev_involutive (s_attr s ++ _)). apply NoDup_rev. rewrite rev_app_distr. cbn. constructor; [rewrite <- in_rev; intros I; apply F in I; lia | now apply NoDup_rev].
Qed.

Lemma grow_holds s ps o l m : fit s -> unshared s -> holds s ps -> list_of s o = Some m ->
  leads ps (Lengthens o l) (set_nth o (m ++ l) ps) (Ok None) /\ holds (fst (grow s o l)) (set_nth o (m ++ l) ps).
Proof.
  intros F U HP M. assert (P := holds_path _ _ _ _ HP M). destruct HP as [L H].
  assert (D : o < length ps) by (apply nth_error_Some; congruence).
  split.
  - econstructor; eauto.
    + split; [apply set_nth_length|]. intros. now apply set_nth_other.
    + now apply set_nth_same.
  - split; [now rewrite grow_attr, set_nth_length|]. rewrite set_nth_length. intros q Q.
    destruct (Nat.eq_dec q o) as [->|N].
    + rewrite set_nth_same by auto. now apply grow_shared.
    + rewrite set_nth_other by auto. rewrite grow_other; auto.
      intros R. apply N. eapply (proj1 (NoDup_nth_error _)); [exact U| lia | exact R].
Qed.

Lemma construct_ok s l : acceptable l -> construct s l = make s l.
Proof. intros A. unfold construct. now rewrite init_ok. Qed.
Lemma construct_bad s l : ~ acceptable l -> construct s l = (s, Err ValueErr).
Proof. intros A. unfold construct. destruct (fs_init_spec l) as [[B _]|[_ ->]]; tauto. Qed.
Lemma acceptable_dec l : acceptable l \/ ~ acceptable l.
Proof. destruct (fs_init_spec l); tauto. Qed.
Lemma grow_ok s o l m : list_of s o = Some m -> grow s o l = (fst (grow s o l), Ok None).
Proof. intros M. apply list_of_in in M as (r & R & _). unfold grow, ref_of. now rewrite R. Qed.

Definition own_goal ps x s1 r : Prop := exists e ps1, means ps x e /\ leads ps e ps1 r /\ holds s1 ps1 /\ unshared s1.
Lemma own_make s ps x l : fit s -> unshared s -> holds s ps -> means ps x (Makes l) ->
  own_goal ps x (fst (make s l)) (snd (make s l)).
Proof.
  intros F U H M. exists (Makes l), (ps ++ [l]). repeat split; auto using make_unshared.
  - cbn. rewrite (proj1 H). constructor.
  - apply (make_holds s ps l F H).
  - intros o D. now apply (make_holds s ps l F H).
Qed.
Lemma own_grow s ps x o l m : fit s -> unshared s -> holds s ps -> list_of s o = Some m -> means ps x (Lengthens o l) ->
  own_goal ps x (fst (grow s o l)) (Ok None).
Proof.
  intros F U H L M. destruct (grow_holds s ps o l m F U H L) as [A B].
  exists (Lengthens o l), (set_nth o (m ++ l) ps). repeat split; auto; try apply B.
  unfold unshared. now rewrite grow_attr.
Qed.
Lemma own_raise s ps x e : unshared s -> holds s ps -> means ps x (Raises e) -> own_goal ps x s (Err e).
Proof. intros U H M. exists (Raises e), ps. repeat split; auto; try apply H. constructor. Qed.

Lemma own_step s ps x s1 r : fit s -> unshared s -> holds s ps -> ~ shallow x -> step s x = (s1, r) ->
  r <> Err (OtherErr 0) -> own_goal ps x s1 r.
Proof.
  intros F U H S E NE.
  assert (MK : forall l, means ps x (Makes l) -> (s1, r) = make s l -> own_goal ps x s1 r).
  { intros l M Q. generalize (own_make s ps x l F U H M). rewrite <- Q. auto. }
  assert (GR : forall o l m, list_of s o = Some m -> means ps x (Lengthens o l) -> (s1, r) = grow s o l -> own_goal ps x s1 r).
  { intros o l m L M Q. rewrite (grow_ok s o l m L) in Q. inversion Q; subst. eapply own_grow; eauto. }
  assert (RA : forall e, means ps x (Raises e) -> (s1, r) = (s, Err e) -> own_goal ps x s1 r).
  { intros e M Q. inversion Q; subst. now apply own_raise. }
  assert (HP := fun o l => holds_path s ps o l H).
  assert (LA := fun o l => list_acceptable s o l F).
  assert (GL : forall o l, (s1, r) = grow s o l -> exists m, list_of s o = Some m).
  { intros o l Q. unfold grow in Q. destruct (ref_of s o) eqn:R; [|inversion Q; subst; congruence].
    apply exists_list; auto. apply nth_error_Some. unfold ref_of in R. congruence. }
  symmetry in E.
  destruct x; cbn in S.
  - cbn in E. destruct (acceptable_dec l).
    + rewrite construct_ok in E by auto. eapply MK; eauto. now constructor.
    + rewrite construct_bad in E by auto. eapply RA; eauto. now constructor.
  - cbn in E. unfold with_list in E. destruct (list_of s o) eqn:L; [|inversion E; subst; congruence].
    rewrite construct_ok in E by eauto. eapply MK; eauto. constructor; auto.
  - cbn in E. destruct x as [[z|z|]|b]; try (eapply RA; eauto; constructor; congruence).
    destruct (GL _ _ E) as [m L]. eapply GR; eauto. econstructor; eauto.
  - cbn in E. destruct x as [[z|z|]|b]; try (eapply RA; eauto; constructor; congruence).
    destruct (GL _ _ E) as [m L]. eapply GR; eauto. econstructor; eauto.
  - cbn in E. destruct (GL _ _ E) as [m L]. eapply GR; eauto. econstructor; eauto.
  - cbn in E. unfold with_list in E. destruct (list_of s p) eqn:P; [|inversion E; subst; congruence].
    destruct (GL _ _ E) as [m L]. eapply GR; eauto. econstructor; eauto.
  - destruct x as [e|m|p|].
    + cbn in E. unfold with_list in E. destruct (list_of s o) eqn:L; [|inversion E; subst; congruence].
      destruct e as [z|z|].
      * rewrite construct_ok in E by (apply acceptable_app; split; eauto; unfold acceptable; cbn; intuition discriminate).
        eapply MK; eauto. constructor; auto; discriminate.
      * rewrite construct_ok in E by (apply acceptable_app; split; eauto; unfold acceptable; cbn; intuition discriminate).
        eapply MK; eauto. constructor; auto; discriminate.
      * eapply RA; eauto. econstructor; eauto.
    + cbn in E. unfold with_list in E. destruct (list_of s o) eqn:L; [|inversion E; subst; congruence].
      destruct (acceptable_dec m).
      * rewrite construct_ok in E by (apply acceptable_app; eauto). eapply MK; eauto. constructor; auto.
      * rewrite construct_bad in E by (rewrite acceptable_app; tauto). eapply RA; eauto. econstructor; eauto.
    + destruct (list_of s o) as [l|] eqn:L; [destruct (list_of s p) as [m|] eqn:P|].
      * rewrite (plus_sel s o p l m) in E by auto. eapply MK; eauto. constructor; auto.
      * cbn in E. unfold with_list in E. rewrite L, P in E. inversion E; subst; congruence.
      * cbn in E. unfold with_list in E. rewrite L in E. inversion E; subst; congruence.
    + cbn in E. unfold with_list in E. destruct (list_of s o) eqn:L; [|inversion E; subst; congruence].
      eapply RA; eauto. econstructor; eauto.
  - cbn in E. unfold with_list in E. destruct (list_of s o) eqn:L; [|inversion E; subst; congruence].
    rewrite construct_ok in E by eauto using acceptable_slice. eapply MK; eauto. constructor; auto.
  - cbn in E. unfold with_list in E. destruct (list_of s o) eqn:L; [|inversion E; subst; congruence].
    eapply MK; eauto. constructor; auto.
  - tauto.
Qed.

Lemma own_run prog : forall s ps s2 rs, fit s -> unshared s -> holds s ps -> (forall x, In x prog -> ~ shallow x) ->
  run s prog = (s2, rs) -> ~ In (Err (OtherErr 0)) rs -> exists ps2, says ps prog ps2 rs /\ holds s2 ps2.
Proof.
  induction prog as [|x prog IH]; cbn; intros s ps s2 rs F U H S E N.
  - inversion E; subst. exists ps. split; auto. constructor.
  - destruct (step s x) as [s1 r] eqn:E1. destruct (run s1 prog) as [s3 rs3] eqn:E2. inversion E; subst.
    destruct (own_step s ps x s1 r) as (e & ps1 & M & L & H1 & U1); auto.
    { intros ->. apply N. now left. }
    destruct (IH s1 ps1 s2 rs3) as (ps2 & A & B); auto.
    + eapply kind_fit; eauto using step_kind.
    + intros I. apply N. now right.
    + exists ps2. split; auto. econstructor; eauto.
Qed.

Lemma run_fit prog : forall s, fit s -> fit (fst (run s prog)).
Proof.
  induction prog as [|x prog IH]; cbn; intros s F; auto.
  destruct (step s x) as [s1 r] eqn:E1. specialize (IH s1). destruct (run s1 prog) as [s3 rs3]. cbn in *.
  apply IH. eapply kind_fit; eauto using step_kind.
Qed.
Lemma run_grows prog : forall s o l, fit s -> list_of s o = Some l -> exists m, list_of (fst (run s prog)) o = Some (l ++ m).
Proof.
  induction prog as [|x prog IH]; cbn; intros s o l F L.
  - exists []. now rewrite app_nil_r.
  - destruct (step s x) as [s1 r] eqn:E1. assert (K := step_kind _ _ _ _ F E1).
    destruct (kind_grows _ _ _ _ _ F K L) as [m M].
    destruct (IH s1 o (l ++ m)) as [k Q]; auto. { eapply kind_fit; eauto. }
    destruct (run s1 prog) as [s3 rs3]. cbn in *. exists (m ++ k). now rewrite app_assoc.
Qed.

(** References never change. *)
Lemma kind_ref s s1 r o : fit s -> kind s s1 r -> o < length (s_attr s) -> ref_of s1 o = ref_of s o.
Proof.
  intros F K D. inversion K; subst; auto; unfold ref_of; cbn.
  - now rewrite nth_error_app1.
  - now rewrite grow_attr.
  - now rewrite nth_error_app1.
Qed.
Lemma kind_longer s s1 r : kind s s1 r -> length (s_attr s) <= length (s_attr s1).
Proof. intros K. inversion K; subst; cbn; try rewrite grow_attr; try rewrite app_length; lia. Qed.
Lemma run_ref prog : forall s o, fit s -> o < length (s_attr s) -> ref_of (fst (run s prog)) o = ref_of s o.
Proof.
  induction prog as [|x prog IH]; cbn; intros s o F D; auto.
  destruct (step s x) as [s1 r] eqn:E1. assert (K := step_kind _ _ _ _ F E1).
  specialize (IH s1 o (kind_fit _ _ _ F K)). assert (L := kind_longer _ _ _ K).
  destruct (run s1 prog) as [s3 rs3]. cbn in *. rewrite IH by lia. eapply kind_ref; eauto.
Qed.

(** The specification leaves no choice. *)
Lemma nth_error_eq {A} (l : list A) : forall m, length l = length m -> (forall k, nth_error l k = nth_error m k) -> l = m.
Proof.
  induction l; destruct m; cbn; intros L H; auto; try discriminate. f_equal.
  - specialize (H 0). cbn in H. congruence.
  - apply IHl; [lia|]. intros k. exact (H (S k)).
Qed.
Lemma means_fun ps x e e' : means ps x e -> means ps x e' -> e = e'.
Proof.
  intros M M'. inversion M; subst; inversion M'; subst; try congruence; try tauto; try reflexivity;
    try (match goal with H : forall n, _ <> _ |- _ => exfalso; eapply H; reflexivity end).
Qed.
Lemma leads_fun ps e ps1 ps1' r r' : leads ps e ps1 r -> leads ps e ps1' r' -> ps1 = ps1' /\ r = r'.
Proof.
  intros L L'. destruct L as [l|o l m q N O P|e]; inversion L' as [|o' l' m' q' N' O' P'|]; subst; auto. split; auto.
  assert (m' = m) by congruence. subst. apply nth_error_eq.
  - now rewrite (proj1 O), (proj1 O').
  - intros k. destruct (Nat.eq_dec k o) as [->|K]; [congruence|].
    now rewrite (proj2 O k K), (proj2 O' k K).
Qed.
Lemma says_fun prog : forall ps ps1 ps2 rs rs', says ps prog ps1 rs -> says ps prog ps2 rs' -> ps1 = ps2 /\ rs = rs'.
Proof.
  induction prog as [|x prog IH]; intros ps ps1 ps2 rs rs' A B; inversion A; subst; inversion B; subst; auto.
  assert (e0 = e) by eauto using means_fun. subst.
  destruct (leads_fun _ _ _ _ _ _ H2 H4) as [-> ->]. destruct (IH _ _ _ _ _ H5 H8) as [-> ->]. auto.
Qed.

Lemma raws_eqb_good sb a : forall b, (forall x, In x a \/ In x b -> exists e, x = Good e) -> (raws_eqb sb a b = true <-> a = b).
Proof.
  induction a as [|x a IH]; destruct b as [|y b]; cbn; intros G; try (split; congruence).
  destruct (G x) as [ex ->]; auto. destruct (G y) as [ey ->]; auto. cbn.
  rewrite andb_true_iff, IH by (intros z [?|?]; apply G; auto). unfold elem_eqb.
  destruct (elem_eq_dec ex ey) as [->|N]; split; intros Q.
  - destruct Q as [_ ->]. reflexivity.
  - inversion Q; auto.
  - destruct Q; discriminate.
  - inversion Q; congruence.
Qed.
