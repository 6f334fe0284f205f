(** C85: every typed dict has entries of its own, and update does what it says whatever it is given. *)
From Coq Require Import List Arith Bool Lia.
From Verif Require Import Prelude OwnModel OwnSpec OwnProofs MapOwnModel MapOwnSpec MapOwnProofs.
Import ListNotations.

Section Props.
Context {K V : Type}.
Variable keqb : K -> K -> bool.
Variable fits : V -> bool.
Variable coerce : V -> option V.
Hypothesis keqb_spec : forall a b, keqb a b = true <-> a = b.
Notation mstep := (mstep keqb fits coerce).
Notation mrun := (mrun keqb fits coerce).
Notation mreachable := (mreachable keqb fits coerce).
Notation mleads := (mleads keqb fits coerce).

(** A method of one object, or a change of a Python dict, changes no other object. *)
Theorem C85_others : forall s x s' out o, mreachable s -> mstep s x = (s', out) -> mtarget x <> Some o -> o < length (mobjs s) -> mcontents s' o = mcontents s o.
Proof.
  intros s x s' out o R E. apply (mdid_contents s x s' out o).
  - now apply (mleads_valid keqb fits coerce keqb_spec), mreachable_leads.
  - now apply (mreachable_private keqb fits coerce keqb_spec).
  - now apply (mstep_did keqb fits coerce keqb_spec).
Qed.
(** What a method does to its own object: in all programs, even with copies which share a dict.  In particular update takes the
    entries its argument has when it begins, although the argument may be the object itself or share its dict. *)
Theorem C85_effect : forall s x o s', mleads s -> mtarget x = Some o -> mstep s x = (s', Done) ->
  exists d d', mcontents s o = Some d /\ mcontents s' o = Some d' /\ malters fits coerce s x d d'.
Proof. intros s x o s' R. apply (mstep_alters keqb fits coerce keqb_spec). now apply (mleads_valid keqb fits coerce keqb_spec). Qed.
(** No key comes twice, so entries are values of keys. *)
Theorem C85_keys : forall s o d, mleads s -> mcontents s o = Some d -> NoDup (map fst d).
Proof.
  intros s o d R E. apply (mleads_valid keqb fits coerce keqb_spec) in R as [_ N]. unfold mcontents in E. destruct (nth_error (mobjs s) o) as [[]|]; [eauto|discriminate].
Qed.
(** What makes an object gives it these entries... *)
Theorem C85_made : forall s x s' c, mleads s -> mstep s x = (s', Made c) -> mcontents s c = None /\ exists d, mcontents s' c = Some d /\ mmakes fits coerce s x d.
Proof.
  intros s x s' c R E. apply (mstep_makes keqb fits coerce keqb_spec) in E as (d & -> & E1 & E2); [|now apply (mleads_valid keqb fits coerce keqb_spec)].
  split; [|eauto]. unfold mcontents. now rewrite (proj2 (nth_error_None (mobjs s) _)) by auto.
Qed.
(** ... for good, but for methods of that object. *)
Theorem C85_kept : forall s prog c, mreachable s -> c < length (mobjs s) -> Forall (fun x => mtarget x <> Some c /\ forall o, x <> MCopied o) prog ->
  mcontents (fst (mrun s prog)) c = mcontents s c.
Proof.
  intros s prog c. revert s. induction prog as [|x prog IH]; intros s R Lt F; [reflexivity|]. apply Forall_cons_iff in F as [[T Nc] F].
  cbn. destruct (mstep s x) as [s1 out] eqn:E.
  assert (R1 : mreachable s1) by (econstructor; [exact R| |exact E]; intros (o & r & -> & _); now apply (Nc o)).
  assert (Lt1 : c < length (mobjs s1)) by (destruct (mdid_objs s x s1 out (mstep_did keqb fits coerce keqb_spec s x s1 out E)) as (e & ->); rewrite app_length; lia).
  specialize (IH s1 R1 Lt1 F). destruct (mrun s1 prog) as [s2 outs]. cbn in *. rewrite IH. eapply C85_others; eauto.
Qed.
(** Whatever raises, except update, changes nothing at all. *)
Theorem C85_failed : forall s x s', mstep s x = (s', Raises) -> (forall o src, x <> Update o src) -> s' = s.
Proof.
  intros s x s' H Nu.
  assert (Co : forall k l, mconstruct keqb fits coerce s k l = (s', Raises) -> s' = s).
  { intros k l. unfold mconstruct, mnew. destruct (coerce_pairs _ _ _); intros Z; injection Z; auto; discriminate. }
  assert (Wm : forall o f, with_map s o f = (s', Raises) -> exists k r d, f k r d = (s', Raises)).
  { intros o f Hf. apply with_map_cases in Hf as [[_ Z]|(k' & r & d & _ & _ & _ & Hf)]; [discriminate Z|eauto]. }
  destruct x as [l|o l|k src|o k v|o k|o|o|o src|o|o]; cbn in H; try (apply Wm in H as (k' & r & d & H)).
  - discriminate H.
  - destruct (nth_error (mobjs s) o) as [[[] r]|]; discriminate.
  - destruct k; [| |discriminate]; (destruct (tuples s src); [eauto|discriminate]).
  - destruct (coerce_value _ _ v); [discriminate|now injection H].
  - destruct (get keqb k d); [discriminate|now injection H].
  - discriminate.
  - destruct d; [now injection H|discriminate].
  - now destruct (Nu o src).
  - destruct (nth_error (mobjs s) o) as [[[] r]|]; destruct (mcontents s o); try discriminate; eauto.
  - destruct (nth_error (mobjs s) o) as [[[] r]|]; destruct (mcontents s o); try discriminate; eauto.
Qed.
(** An update that raises has done the update by the entries before the first which it cannot take, and nothing else. *)
Theorem C85_failed_update : forall s o src s', mleads s -> mstep s (Update o src) = (s', Raises) ->
  exists d d' l1 k v l2, mcontents s o = Some d /\ mcontents s' o = Some d' /\ mgives s src (l1 ++ (k, v) :: l2) /\ refused fits coerce v /\
    forall j w, In (j, w) d' <-> (exists v u, last_of l1 j v /\ coerced fits coerce v u /\ coerced fits coerce u w) \/ (~ In j (map fst l1) /\ In (j, w) d).
Proof. intros s o src s' R. apply (update_fails keqb fits coerce keqb_spec). now apply (mleads_valid keqb fits coerce keqb_spec). Qed.
(** update from the object itself, or from one which shares its dict, changes nothing if the values have the type already. *)
Theorem C85_update_self : forall s o p k kp r d, mleads s -> nth_error (mobjs s) o = Some (k, r) -> k <> Plain -> nth_error (mobjs s) p = Some (kp, r) ->
  mcontents s o = Some d -> Forall (fun e => fits (snd e) = true) d -> mstep s (Update o (MObject p)) = (s, Done).
Proof.
  intros s o p k kp r d R E Nk Ep Ec F. apply (mleads_valid keqb fits coerce keqb_spec) in R as [_ N]. unfold mcontents in Ec. rewrite E in Ec.
  cbn. unfold with_map. rewrite E, Ec, Ep. assert (En := nth_dict s r d Ec). rewrite En.
  rewrite (update_self keqb fits coerce r (map fst d) s).
  - destruct k; auto. congruence.
  - rewrite En. intros j I. destruct (get_key keqb fits coerce keqb_spec d j I) as (v & G). exists v. split; auto.
    apply (get_in keqb fits coerce keqb_spec d j v (N _ _ Ec)) in G. rewrite Forall_forall in F. now apply (F (j, v)).
Qed.
(** A copy of a declared typed dict is another object with the same dict: whatever the program does, they have the same entries. *)
Theorem C85_copy_shares : forall s o r s' c prog, nth_error (mobjs s) o = Some (Declared, r) -> mstep s (MCopied o) = (s', Made c) ->
  c <> o /\ mcontents (fst (mrun s' prog)) c = mcontents (fst (mrun s' prog)) o.
Proof.
  intros s o r s' c prog E H. cbn in H. rewrite E in H. destruct (mcontents s o); [|discriminate]. injection H as <- <-.
  assert (Lt : o < length (mobjs s)) by (apply nth_error_Some; congruence). split; [lia|].
  destruct (mrun_objs keqb fits coerce keqb_spec prog (MStore (mobjs s ++ [(Declared, r)]) (dicts s))) as (e & Eo). cbn in Eo.
  unfold mcontents. rewrite Eo. rewrite !(nth_error_app1 (mobjs s ++ _)) by (rewrite app_length; cbn; lia).
  rewrite nth_error_app2, Nat.sub_diag by auto. rewrite nth_error_app1 by auto. now rewrite E.
Qed.
End Props.

(** Numbers below 10 have the type; numbers below 20 can be coerced. *)
Module Ex.
Definition fits (v : nat) : bool := v <? 10.
Definition cut (v : nat) : option nat := if v <? 20 then Some (v - 10) else None.
Notation go := (mrun Nat.eqb fits cut (MStore [] [])).
Definition prog : list (mop nat nat) :=
  [Dct [(1, 5); (2, 16); (1, 7)]; MMake Declared (MObject 0); MMake Generic (Pairs [(3, 11); (4, 4)]); Update 1 (MObject 2); Put 2 3 12; Drop 1 2;
   MChange 0 []; Update 2 (MObject 2); MPickled 1; Popitem 1; MCopied 2; Clear 2; Put 4 8 25; Update 4 (Pairs [(4, 15); (9, 30); (5, 1)])].
Lemma keqb_spec : forall a b, Nat.eqb a b = true <-> a = b.
Proof. intros. apply Nat.eqb_eq. Qed.
End Ex.
Definition all_mcontents {K V} (s : mstore K V) := map (mcontents s) (seq 0 (length (mobjs s))).
Example C85_ex : all_mcontents (fst (Ex.go Ex.prog)) = [Some []; Some [(1, 7); (3, 1)]; Some []; Some [(1, 7); (3, 1); (4, 4)]; Some [(3, 2); (4, 5)]] /\
  snd (Ex.go Ex.prog) = [Made 0; Made 1; Made 2; Done; Done; Done; Done; Done; Made 3; Done; Made 4; Done; Raises; Raises] /\
  mreachable Nat.eqb Ex.fits Ex.cut (fst (Ex.go Ex.prog)).
Proof.
  split; [vm_compute; reflexivity|]. split; [vm_compute; reflexivity|].
  assert (G : forall prog s, mreachable Nat.eqb Ex.fits Ex.cut s ->
    (fix ok s prog := match prog with [] => True | x :: prog => (match x with MCopied o => match nth_error (mobjs s) o with Some (Declared, _) => False | _ => True end | _ => True end)
       /\ ok (fst (mstep Nat.eqb Ex.fits Ex.cut s x)) prog end) s prog ->
    mreachable Nat.eqb Ex.fits Ex.cut (fst (mrun Nat.eqb Ex.fits Ex.cut s prog))).
  { induction prog as [|x prog IH]; intros s R H; [exact R|]. destruct H as [H1 H2]. cbn [mrun]. destruct (mstep Nat.eqb Ex.fits Ex.cut s x) as [s1 out] eqn:E.
    cbn [fst] in H2. assert (R1 : mreachable Nat.eqb Ex.fits Ex.cut s1).
    { econstructor; [exact R| |exact E]. intros (o & r & -> & Eo). now rewrite Eo in H1. }
    specialize (IH s1 R1 H2). destruct (mrun Nat.eqb Ex.fits Ex.cut s1 prog). exact IH. }
  apply G; [constructor|]. vm_compute. repeat split.
Qed.
(** update of a shared dict, and of the object itself, with values which are coerced on the way *)
Example C85_ex_self : all_mcontents (fst (Ex.go [MMake Declared (Pairs [(1, 5); (2, 6)]); MCopied 0; Put 1 3 14; Update 0 (MObject 1); Update 1 (MObject 1)])) =
  [Some [(1, 5); (2, 6); (3, 4)]; Some [(1, 5); (2, 6); (3, 4)]].
Proof. reflexivity. Qed.
(** The hypotheses of C85_update_self hold of a typed dict with entries and its copy. *)
Example C85_ex_update_self : exists s d, mleads Nat.eqb Ex.fits Ex.cut s /\ nth_error (mobjs s) 0 = Some (Declared, 0) /\ nth_error (mobjs s) 1 = Some (Declared, 0) /\
  mcontents s 0 = Some d /\ length d = 2 /\ Forall (fun e => Ex.fits (snd e) = true) d.
Proof.
  exists (MStore [(Declared, 0); (Declared, 0)] [[(1, 5); (2, 6)]]), [(1, 5); (2, 6)]. split.
  { apply (ml_step Nat.eqb Ex.fits Ex.cut (MStore [(Declared, 0)] [[(1, 5); (2, 6)]]) (MCopied 0) _ (Made 1)); [|reflexivity].
    apply (ml_step Nat.eqb Ex.fits Ex.cut (MStore [] []) (MMake Declared (Pairs [(1, 5); (2, 6)])) _ (Made 0)); [constructor|reflexivity]. }
  repeat split. repeat constructor.
Qed.
(** A dict whose second value cannot be coerced *)
Example C85_ex_failed_update : all_mcontents (fst (Ex.go [Dct [(2, 15); (7, 30); (1, 1)]; MMake Declared (Pairs [(1, 5); (2, 6)]); Update 1 (MObject 0)])) =
  [Some [(2, 15); (7, 30); (1, 1)]; Some [(1, 5); (2, 5)]] /\
  nth_error (snd (Ex.go [Dct [(2, 15); (7, 30); (1, 1)]; MMake Declared (Pairs [(1, 5); (2, 6)]); Update 1 (MObject 0)])) 2 = Some Raises.
Proof. split; reflexivity. Qed.
(** A typed dict made of a typed dict would have its entries, one should think, as one made of a dict has: it is empty. *)
Theorem C85_make_refuted : exists fits coerce (s : mstore nat nat) o d s' c, mreachable Nat.eqb fits coerce s /\ mcontents s o = Some d /\ d = [(1, 5)] /\
  Forall (fun e => fits (snd e) = true) d /\ mstep Nat.eqb fits coerce s (MMake Declared (MObject o)) = (s', Made c) /\ mcontents s' c = Some [].
Proof.
  exists Ex.fits, Ex.cut, (MStore [(Declared, 0)] [[(1, 5)]]), 0, [(1, 5)], (MStore [(Declared, 0); (Declared, 1)] [[(1, 5)]; []]), 1.
  split.
  { eapply (mr_step Nat.eqb Ex.fits Ex.cut (MStore [] []) (MMake Declared (Pairs [(1, 5)])) _ (Made 0)); [constructor| |reflexivity]. intros (o & r & Z & _). discriminate Z. }
  repeat split. repeat constructor.
Qed.
(** One would not expect a change of a copy to show in the original. *)
Theorem C85_copy_refuted : exists fits coerce (s : mstore nat nat) o s1 c s2 out, mreachable Nat.eqb fits coerce s /\ mstep Nat.eqb fits coerce s (MCopied o) = (s1, Made c) /\
  o <> c /\ mstep Nat.eqb fits coerce s1 (Put c 1 6) = (s2, out) /\ mcontents s o = Some [(1, 5)] /\ mcontents s2 o = Some [(1, 6)].
Proof.
  exists Ex.fits, Ex.cut, (MStore [(Declared, 0)] [[(1, 5)]]), 0, (MStore [(Declared, 0); (Declared, 0)] [[(1, 5)]]), 1, (MStore [(Declared, 0); (Declared, 0)] [[(1, 6)]]), Done.
  split.
  { eapply (mr_step Nat.eqb Ex.fits Ex.cut (MStore [] []) (MMake Declared (Pairs [(1, 5)])) _ (Made 0)); [constructor| |reflexivity]. intros (o & r & Z & _). discriminate Z. }
  repeat split. discriminate.
Qed.

Print Assumptions C85_others.
Print Assumptions C85_effect.
Print Assumptions C85_keys.
Print Assumptions C85_made.
Print Assumptions C85_kept.
Print Assumptions C85_failed.
Print Assumptions C85_failed_update.
Print Assumptions C85_update_self.
Print Assumptions C85_copy_shares.
Print Assumptions C85_make_refuted.
Print Assumptions C85_copy_refuted.
