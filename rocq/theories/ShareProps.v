(** C73: a field selector has its path to itself. *)
From Coq Require Import String List Arith NArith ZArith Bool Lia.
From Verif Require Import Prelude SelPathModel FSModel ShareModel ShareSpec ShareProofs.
Import ListNotations.

(** A program without copy.copy does what it says about paths: nothing is shared.  ([OtherErr 0]: the program
    speaks of a selector which does not exist.) *)
Theorem C73_own prog s rs :
  (forall x, In x prog -> ~ shallow x) -> run empty_store prog = (s, rs) -> ~ In (Err (OtherErr 0)) rs ->
  exists ps, says [] prog ps rs /\ holds s ps.
Proof.
  intros S E N. eapply own_run; eauto using fit_empty. { constructor. } split; cbn; auto. intros; lia.
Qed.
(** What it says is determined. *)
Theorem C73_determined ps prog ps1 ps2 rs rs' : says ps prog ps1 rs -> says ps prog ps2 rs' -> ps1 = ps2 /\ rs = rs'.
Proof. apply says_fun. Qed.

(** Whatever is done to any selectors, the path of each only gets longer at its end, *)
Theorem C73_grows prog prog' o l :
  path_of (fst (run empty_store prog)) o l ->
  exists m, path_of (fst (run (fst (run empty_store prog)) prog')) o (l ++ m).
Proof. intros H. apply run_grows; auto. apply run_fit, fit_empty. Qed.
(** and has only acceptable elements. *)
Theorem C73_valid prog o l : path_of (fst (run empty_store prog)) o l -> acceptable l.
Proof. apply list_acceptable, run_fit, fit_empty. Qed.

(** A selector from copy.copy and its original have one path forever. *)
Theorem C73_copy_shares prog o s1 c prog' :
  step (fst (run empty_store prog)) (Copied o) = (s1, Ok (Some c)) ->
  c <> o /\ (exists l, path_of s1 c l) /\
  forall l, path_of (fst (run s1 prog')) c l <-> path_of (fst (run s1 prog')) o l.
Proof.
  set (s := fst (run empty_store prog)). assert (F : fit s) by (apply run_fit, fit_empty).
  intros E. assert (K := step_kind _ _ _ _ F E). assert (F1 := kind_fit _ _ _ F K).
  cbn in E. destruct (ref_of s o) as [r|] eqn:R; [|discriminate]. inversion E; subst s1 c; clear E.
  assert (D : o < length (s_attr s)) by (apply nth_error_Some; unfold ref_of in R; congruence).
  set (s1 := Store (s_attr s ++ [r]) (s_lists s)) in *.
  assert (L : length (s_attr s1) = S (length (s_attr s))) by (cbn; rewrite app_length; cbn; lia).
  split; [lia|]. split.
  - apply exists_list; auto. lia.
  - intros l. unfold path_of, list_of. rewrite !run_ref by (auto; lia).
    replace (ref_of s1 (length (s_attr s))) with (Some r).
    2:{ unfold ref_of. cbn. now rewrite nth_error_app2, Nat.sub_diag by lia. }
    replace (ref_of s1 o) with (Some r); [tauto|].
    unfold ref_of. cbn. rewrite nth_error_app1 by lia. symmetry. exact R.
Qed.
(** So changing the copy changes the original. *)
Theorem C73_copy_refuted : exists prog prog' s rs o l m,
  run empty_store prog = (s, rs) /\ path_of s o l /\ ~ In (Err (OtherErr 0)) (rs ++ snd (run s prog')) /\
  (forall x, In x prog' -> ~ In o (mentions x)) /\ path_of (fst (run s prog')) o m /\ l <> m.
Proof.
  exists [New [Good (EStr (s2l "a"))]; Copied 0], [AddProperty 1 (Good (EStr (s2l "b")))].
  eexists _, _, 0, [Good (EStr (s2l "a"))], [Good (EStr (s2l "a")); Good (EStr (s2l "b"))].
  split; [reflexivity|]. split; [reflexivity|]. split; [cbn; intuition discriminate|].
  split; [|split; [reflexivity|discriminate]]. intros x [<-|[]]. cbn. lia.
Qed.

(** [==] is sameness of paths and [!=] its opposite; with anything else, both raise. *)
Definition proper (l : list raw) : Prop := forall x, In x l -> exists e, x = Good e.
Theorem C73_equal sb s o p l m : path_of s o l -> path_of s p m -> proper l -> proper m ->
  (l = m -> equal sb s o (Some p) = Ok true /\ not_equal sb s o (Some p) = Ok false) /\
  (l <> m -> equal sb s o (Some p) = Ok false /\ not_equal sb s o (Some p) = Ok true) /\
  equal sb s o None = Err TypeErr /\ not_equal sb s o None = Err AttrErr.
Proof.
  intros L M G1 G2. unfold path_of in *. unfold equal, not_equal. rewrite L, M.
  assert (Q := raws_eqb_good sb l m). destruct (raws_eqb sb l m); repeat split; auto; intros;
    destruct Q as [A B]; try (intros z [?|?]; auto); try (specialize (A eq_refl)); try tauto; exfalso; specialize (B H); discriminate.
Qed.
(** But a set or dict finds a selector only under itself, *)
Theorem C73_set sb s o members : in_set sb s o members = true <-> In o members.
Proof.
  unfold in_set. rewrite existsb_exists. split.
  - intros (x & I & E). apply andb_true_iff in E as [E _]. apply Nat.eqb_eq in E. unfold hash in E. now subst.
  - intros I. exists o. split; auto. now rewrite !Nat.eqb_refl.
Qed.
(** not under an equal one. *)
Theorem C73_set_refuted : exists prog s rs o p, run empty_store prog = (s, rs) /\ ~ In (Err (OtherErr 0)) rs /\
  forall sb, equal sb s o (Some p) = Ok true /\ in_set sb s o [p] = false.
Proof.
  exists [New [Good (EStr (s2l "a"))]; From 0]. eexists _, _, 0, 1. split; [reflexivity|].
  split; [cbn; intuition discriminate|]. intros sb. split; reflexivity.
Qed.

(** a = FieldSelector(["x"]); b = a + [1]; a.extend(a); c = b[1:]; c.add_full_collection(); b + [(1,)]; d = pickled a;
    d.add_index(3); a.add_property(7) *)
Definition ex_prog : list op :=
  [New [Good (EStr (s2l "x"))]; Plus 0 (Many [Good (EInt 1)]); Extend 0 0; Slice 1 (Some 1%Z) None; AddFull 2;
   Plus 1 (Many [Bad true]); Pickled 0; AddIndex 3 (Good (EInt 3)); AddProperty 0 (Good (EInt 7))].
Notation X := (Good (EStr (s2l "x"))).
Example C73_ex_own :
  let (s, rs) := run empty_store ex_prog in
  (forall x, In x ex_prog -> ~ shallow x) /\ ~ In (Err (OtherErr 0)) rs /\
  rs = [Ok (Some 0); Ok (Some 1); Ok None; Ok (Some 2); Ok None; Err ValueErr; Ok (Some 3); Ok None; Err ValueErr] /\
  map (list_of s) [0; 1; 2; 3] =
    [Some [X; X]; Some [X; Good (EInt 1)]; Some [Good (EInt 1); Good ENone]; Some [X; X; Good (EInt 3)]].
Proof.
  vm_compute. repeat split; auto; intuition (subst; auto); discriminate.
Qed.
Example C73_ex_determined : exists ps rs, says [] ex_prog ps rs /\ ps =
  [[X; X]; [X; Good (EInt 1)]; [Good (EInt 1); Good ENone]; [X; X; Good (EInt 3)]].
Proof.
  destruct (C73_own ex_prog (fst (run empty_store ex_prog)) (snd (run empty_store ex_prog))) as (ps & A & B).
  - vm_compute. intuition (subst; auto).
  - now destruct (run empty_store ex_prog).
  - vm_compute. intuition discriminate.
  - exists ps, (snd (run empty_store ex_prog)). split; auto. destruct B as [L H].
    assert (L4 : length ps = 4) by (rewrite <- L; reflexivity). clear L.
    apply nth_error_eq; [now rewrite L4|]. intros k. destruct (Nat.lt_ge_cases k 4) as [K|K].
    + rewrite <- H by lia. do 4 (destruct k as [|k]; [reflexivity|]). lia.
    + rewrite !(proj2 (nth_error_None _ _)); cbn; auto; lia.
Qed.
Example C73_ex_copy : exists s1 prog', step (fst (run empty_store ex_prog)) (Copied 1) = (s1, Ok (Some 4)) /\
  path_of (fst (run s1 prog')) 4 [X; Good (EInt 1); Good ENone; X; X] /\
  path_of (fst (run s1 prog')) 1 [X; Good (EInt 1); Good ENone; X; X].
Proof. eexists _, [AddFull 1; Extend 4 0]. split; [reflexivity|]. split; reflexivity. Qed.
Example C73_ex_equal : exists s rs, run empty_store ex_prog = (s, rs) /\
  path_of s 1 [X; Good (EInt 1)] /\ path_of s 3 [X; X; Good (EInt 3)] /\ proper [X; Good (EInt 1)] /\
  forall sb, not_equal sb s 1 (Some 3) = Ok true.
Proof.
  eexists _, _. split; [reflexivity|]. repeat split; try reflexivity. intros x I. cbn in I. intuition (subst; eauto).
Qed.

Print Assumptions C73_own.
Print Assumptions C73_determined.
Print Assumptions C73_grows.
Print Assumptions C73_valid.
Print Assumptions C73_copy_shares.
Print Assumptions C73_copy_refuted.
Print Assumptions C73_equal.
Print Assumptions C73_set.
Print Assumptions C73_set_refuted.
