From Coq Require Import List Arith Bool Lia.
From Verif Require Import Prelude OwnModel OwnSpec OwnProofs.
Import ListNotations.

Section Props.
Context {V : Type}.
Variable fits : V -> bool.
Variable coerce : V -> option V.
Notation step := (step fits coerce).
Notation reachable := (reachable fits coerce).

(** Whatever the program does to an object, with collections or lists as arguments, every other object has the contents it had. *)
Theorem C78_others : forall n s x s' out o, reachable s -> step n s x = (s', out) -> target x <> Some o -> o < length (objs s) -> contents s' o = contents s o.
Proof. intros n s x s' out o R E. apply (did_contents s x s' out o); [now apply (reachable_private fits coerce)|now apply (step_did fits coerce n)]. Qed.

(** A method that succeeds changes the contents of its object as one would say without thinking of lists... *)
Theorem C78_effect : forall n s x o s', reachable s -> target x = Some o -> x <> Extend o (Object o) -> step n s x = (s', Done) ->
  exists l l', contents s o = Some l /\ contents s' o = Some l' /\ alters fits coerce s x l l'.
Proof. intros n s x o s' R. apply step_alters. now apply (reachable_private fits coerce). Qed.
(** ... and what makes an object gives it contents of its own: nothing the program does afterwards to other objects changes them. *)
Theorem C78_made : forall n s x s' c, reachable s -> step n s x = (s', Made c) ->
  contents s c = None /\ exists l, contents s' c = Some l /\ makes fits coerce s x l.
Proof.
  intros n s x s' c R E. apply step_makes in E as (l & -> & E1 & E2). split; [|eauto].
  unfold contents. now rewrite (proj2 (nth_error_None (objs s) _)) by auto.
Qed.
Theorem C78_kept : forall n s prog c, reachable s -> c < length (objs s) -> Forall (fun x => target x <> Some c /\ forall o, x <> Copied o) prog ->
  contents (fst (run fits coerce n s prog)) c = contents s c.
Proof.
  intros n s prog c. revert s. induction prog as [|x prog IH]; intros s R Lt F; [reflexivity|]. apply Forall_cons_iff in F as [[T Nc] F].
  cbn. destruct (step n s x) as [s1 out] eqn:E.
  assert (R1 : reachable s1) by (econstructor; [exact R| |exact E]; intros (o & r & -> & _); now apply (Nc o)).
  assert (Lt1 : c < length (objs s1)) by (destruct (did_objs s x s1 out (step_did fits coerce n s x s1 out E)) as (e & ->); rewrite app_length; lia).
  specialize (IH s1 R1 Lt1 F). destruct (run fits coerce n s1 prog) as [s2 outs]. cbn in *. rewrite IH. eapply C78_others; eauto.
Qed.

(** A method that raises leaves everything as it was, except [extend]. *)
Theorem C78_failed : forall n s x s', step n s x = (s', Raises) -> (forall o src, x <> Extend o src) -> s' = s.
Proof.
  assert (Co : forall s k l s', construct fits coerce s k l = (s', Raises) -> s' = s).
  { intros s k l s'. unfold construct, new. destruct (coerce_all _ _ _); intros H; injection H; auto; discriminate. }
  intros n s x s' H Ne. destruct x as [l|o l|k src|o v|o src|o lo hi src|o lo hi|o|o src|o lo hi|o|o]; cbn in H.
  - unfold new in H. discriminate.
  - destruct (nth_error (objs s) o) as [[[] r]|]; discriminate.
  - destruct k; [| |discriminate]; (apply with_items_done in H as (m & _ & H); [|discriminate]); eapply Co; eauto.
  - apply with_coll_done in H as (k & r & l & _ & _ & _ & H); [|discriminate]. destruct (coerce_value _ _ v); [discriminate|now injection H].
  - now destruct (Ne o src).
  - apply with_coll_done in H as (k & r & l & _ & _ & _ & H); [|discriminate]. apply with_items_done in H as (m & _ & H); [|discriminate].
    destruct (coerce_all _ _ m); [discriminate|now injection H].
  - apply with_coll_done in H as (k & r & l & _ & _ & _ & H); discriminate.
  - apply with_coll_done in H as (k & r & l & _ & _ & _ & H); discriminate.
  - apply with_coll_done in H as (k & r & l & _ & _ & _ & H); [|discriminate]. apply with_items_done in H as (m & _ & H); [|discriminate].
    match type of H with match ?c with _ => _ end = _ => destruct c end; [eapply Co; eauto|now injection H].
  - apply with_coll_done in H as (k & r & l & _ & _ & _ & H); [|discriminate]. unfold new in H. discriminate.
  - destruct (nth_error (objs s) o) as [[[] r]|]; destruct (contents s o); try discriminate. eapply Co; eauto.
  - destruct (nth_error (objs s) o) as [[[] r]|]; destruct (contents s o); try discriminate. eapply Co; eauto.
Qed.

(** Extending a collection by another object ends ... *)
Theorem C78_extend_other : forall n s o p l m, reachable s -> contents s o = Some l -> contents s p = Some m -> o <> p -> length m < n ->
  snd (step n s (Extend o (Object p))) <> Endless.
Proof.
  intros n s o p l m R Eo Ep Ne Lt. apply (reachable_private fits coerce) in R as [N Hv]. cbn. unfold with_coll. unfold contents in Eo, Ep.
  destruct (nth_error (objs s) o) as [[k r]|] eqn:E1; [|discriminate Eo]. destruct (nth_error (objs s) p) as [[kp q]|] eqn:E2; [|discriminate Ep].
  assert (Hr : r <> q).
  { intros ->. apply Ne. apply (proj1 (NoDup_nth_error (map snd (objs s))) N); [rewrite map_length; apply nth_error_Some; congruence|now rewrite !nth_error_map, E1, E2]. }
  assert (El := nth_error_nth _ _ [] Ep).
  destruct (extend_from_ends fits coerce n r q 0 s Hr) as [Z|Z]; [lia|rewrite El; cbn; lia| |];
    destruct k; rewrite ?Eo, ?Z; discriminate.
Qed.
(** ... but extending a collection with items by itself does not: it grows as long as the program runs. *)
Theorem C78_extend_self : forall n s o k r l, reachable s -> nth_error (objs s) o = Some (k, r) -> k <> Plain -> contents s o = Some l -> l <> [] ->
  Forall (fun v => fits v = true) l ->
  exists s' l', step n s (Extend o (Object o)) = (s', Endless) /\ contents s' o = Some l' /\ length l' = length l + n.
Proof.
  intros n s o k r l R E Nk Ec Nl F. apply (reachable_private fits coerce) in R as [_ Hv]. assert (Lt := Hv _ _ _ E). cbn. unfold with_coll. unfold contents in Ec. rewrite E in *.
  assert (El := nth_error_nth _ _ [] Ec).
  destruct (extend_self fits coerce n r 0 s Lt) as (s' & E1 & E2); [rewrite El; destruct l; cbn; [congruence|lia]|now rewrite El|].
  destruct (only_extend_from fits coerce _ _ _ _ _ _ _ E1) as (O1 & O2 & _).
  exists s', (nth r (lists s') []). split; [destruct k; [rewrite Ec; auto|rewrite Ec; auto|congruence]|]. split.
  - unfold contents. rewrite O1, E. apply nth_error_nth'. lia.
  - now rewrite E2, El.
Qed.

(** A copy.copy of a collection of a declared class has the contents of its original for ever: what is done to the one is done to the other. *)
Theorem C78_copy_shares : forall n s o r s' c prog, nth_error (objs s) o = Some (Declared, r) -> step n s (Copied o) = (s', Made c) ->
  c <> o /\ contents (fst (run fits coerce n s' prog)) c = contents (fst (run fits coerce n s' prog)) o.
Proof.
  intros n s o r s' c prog E H. cbn in H. rewrite E in H. destruct (contents s o); [|discriminate]. injection H as <- <-.
  assert (Lt : o < length (objs s)) by (apply nth_error_Some; congruence). split; [lia|].
  destruct (run_objs fits coerce n prog (Store (objs s ++ [(Declared, r)]) (lists s))) as (e & Eo). cbn in Eo.
  unfold contents. rewrite Eo. rewrite !(nth_error_app1 (objs s ++ _)) by (rewrite app_length; cbn; lia).
  rewrite nth_error_app2, Nat.sub_diag by auto. rewrite nth_error_app1 by auto. now rewrite E.
Qed.
End Props.

(** Numbers up to 9 fit; up to 99 they are cut; larger ones are refused. *)
Module Ex.
Definition fits (n : nat) : bool := n <? 10.
Definition cut (n : nat) : option nat := if n <? 100 then Some (n mod 10) else None.
Definition go := run fits cut 50 (Store [] []).
(** A list, a declared and a generic collection made of it, a sum, and a slice *)
Definition prog : list (op nat) :=
  [Lst [1; 22; 3]; Make Declared (Object 0); Make Generic (Object 1); Change 0 [7]; Append 1 44; Extend 2 (Object 1);
   Plus 1 (Object 0); Slice 2 1 3; Assign 1 0 2 (Object 1); Reverse 2; Delete 2 0 1; Pickled 1; Copied 2; Append 5 6; Append 2 100].
End Ex.
Definition all_contents {V} (s : store V) : list (option (list V)) := map (contents s) (seq 0 (length (objs s))).

Example C78_ex : all_contents (fst (Ex.go Ex.prog)) =
  [Some [7]; Some [1; 2; 3; 4; 3; 4]; Some [3; 2; 1; 3; 2; 1]; Some [1; 2; 3; 4; 7]; Some [2; 3]; Some [1; 2; 3; 4; 3; 4; 6]; Some [3; 2; 1; 3; 2; 1]] /\
  nth_error (snd (Ex.go Ex.prog)) 14 = Some Raises /\ reachable Ex.fits Ex.cut (fst (Ex.go Ex.prog)).
Proof.
  split; [vm_compute; reflexivity|]. split; [vm_compute; reflexivity|].
  assert (G : forall prog s, reachable Ex.fits Ex.cut s ->
    (fix ok s prog := match prog with [] => True | x :: prog => (match x with Copied o => match nth_error (objs s) o with Some (Declared, _) => False | _ => True end | _ => True end)
       /\ ok (fst (step Ex.fits Ex.cut 50 s x)) prog end) s prog ->
    reachable Ex.fits Ex.cut (fst (run Ex.fits Ex.cut 50 s prog))).
  { induction prog as [|x prog IH]; intros s R Ok; [exact R|]. destruct Ok as [Ok1 Ok]. cbn.
    destruct (step Ex.fits Ex.cut 50 s x) as [s1 out] eqn:E. cbn in Ok. specialize (IH s1).
    destruct (run Ex.fits Ex.cut 50 s1 prog) as [s2 outs]. apply IH; auto. econstructor; [exact R| |exact E].
    intros (o & r & -> & Eo). now rewrite Eo in Ok1. }
  apply G; [constructor|]. vm_compute. intuition.
Qed.
(** Extended by itself a list would be doubled. *)
Theorem C78_extend_self_refuted : exists fits coerce (s : store nat) o l, reachable fits coerce s /\ contents s o = Some l /\ l = [1; 2] /\
  forall n, exists s' l', step fits coerce n s (Extend o (Object o)) = (s', Endless) /\ contents s' o = Some l' /\ length l' = 2 + n.
Proof.
  exists Ex.fits, Ex.cut, (Store [(Declared, 0)] [[1; 2]]), 0, [1; 2].
  assert (R : reachable Ex.fits Ex.cut (Store [(Declared, 0)] [[1; 2]])).
  { eapply (r_step Ex.fits Ex.cut 5 (Store [] []) (Make Declared (Items [1; 2])) _ (Made 0)); [constructor| |reflexivity]. intros (o & r & Z & _). discriminate Z. }
  do 3 (split; [auto|]). intros n.
  destruct (C78_extend_self Ex.fits Ex.cut n _ 0 Declared 0 [1; 2] R) as (s' & l' & H1 & H2 & H3); auto; try discriminate.
  exists s', l'. auto.
Qed.
(** A copied collection of a declared class: the item appended to the copy is in the original. *)
Theorem C78_copy_refuted : exists fits coerce n (s : store nat) o s1 c s2 out, reachable fits coerce s /\ step fits coerce n s (Copied o) = (s1, Made c) /\
  o <> c /\ step fits coerce n s1 (Append c 5) = (s2, out) /\ contents s o = Some [1] /\ contents s2 o = Some [1; 5].
Proof.
  exists Ex.fits, Ex.cut, 5, (Store [(Declared, 0)] [[1]]), 0, (Store [(Declared, 0); (Declared, 0)] [[1]]), 1, (Store [(Declared, 0); (Declared, 0)] [[1; 5]]), Done.
  split.
  { eapply (r_step Ex.fits Ex.cut 5 (Store [] []) (Make Declared (Items [1])) _ (Made 0)); [constructor| |reflexivity]. intros (o & r & Z & _). discriminate Z. }
  repeat split. discriminate.
Qed.
(** A generic one is made anew. *)
Example C78_ex_generic : all_contents (fst (Ex.go [Make Generic (Items [1]); Copied 0; Append 1 5])) = [Some [1]; Some [1; 5]].
Proof. reflexivity. Qed.

Print Assumptions C78_others.
Print Assumptions C78_effect.
Print Assumptions C78_made.
Print Assumptions C78_kept.
Print Assumptions C78_failed.
Print Assumptions C78_extend_other.
Print Assumptions C78_extend_self.
Print Assumptions C78_copy_shares.
Print Assumptions C78_extend_self_refuted.
Print Assumptions C78_copy_refuted.
