(** What comparing with [recurse] reports: C79.  [differs] is defined in RecurseSpec, [sane] in DiffExactProps. *)
From Coq Require Import String List Arith NArith ZArith Bool Lia Permutation.
From Verif Require Import Prelude SelPathModel FSModel PySeq MFSModel MFSProofs ValModel EqModel EqProofs SeqDiffModel SeqDiffProofs SeqDiffProps
  FuzzyModel FuzzyProps DiffModel DiffProofs DiffSwap DiffTotal DiffExact DiffEntries DiffOnce DiffExample DiffProps DiffExactProps RecurseSpec RecurseProofs.
Import ListNotations.

Section Props.
Context {A C : Type}.
Variable W : classes A C.
Variable ceqb : C -> C -> bool.
Notation val := (val A C).
Variable veqb : val -> val -> bool.
Variable hashable : val -> bool.
Variable repr : val -> str.
Variable a_hash a_falsy : A -> bool.
Variable a_items : A -> res (list (elem * val)).
Notation orders := (list elem -> list elem -> dorders (A := A) (C := C)).
Notation diff_iter opt record_id o := (diff_iter W ceqb veqb hashable repr a_hash a_falsy a_items opt record_id o).

(** Exactly the differences between what is found at the same place are reported. *)
Theorem C79_entries : forall opt record_id (ord : orders) n a b l,
  sane W ceqb veqb ord a b -> recursing opt -> diff_iter opt record_id ord n a b = Ok l ->
  same_type a b /\ forall t p q, In (t, p, q) l <-> differs W veqb repr a_hash opt a b t p q.
Proof.
  intros opt record_id ord n a b l (Ho&Hr&Hs&Ht&Hc&Hk&Wa&Wb&R) (D1&D2&D3&D4&D5) H.
  destruct opt as [tx un mv es ei du ex fl fz rc]. cbn in D1, D2, D3, D4, D5. subst rc.
  set (opt0 := mkOptions tx un mv es ei du ex fl fz false).
  assert (D : default_options opt0) by (repeat split; assumption).
  destruct (recurse_entries W ceqb veqb hashable repr a_hash a_falsy a_items opt0 record_id ord Ho Hr Hs Ht Hc Hk D n a b [] [] l R Wa Wb H) as [T X].
  split; auto. intros t p q. rewrite (X (t, p, q)).
  assert (Eq : forall a b t p q, differs W veqb repr a_hash opt0 a b t p q <-> differs W veqb repr a_hash (mkOptions tx un mv es ei du ex fl fz true) a b t p q).
  { clear. intros a b t p q. split; induction 1;
      [eapply at_slot_removed|eapply at_slot_added|eapply at_slot_modified|eapply at_slot_same|eapply in_slot|eapply loose_removed|eapply loose_added|eapply loose_modified
      |eapply loose_same|eapply record_gone|eapply record_new|eapply in_record
      |eapply at_slot_removed|eapply at_slot_added|eapply at_slot_modified|eapply at_slot_same|eapply in_slot|eapply loose_removed|eapply loose_added|eapply loose_modified
      |eapply loose_same|eapply record_gone|eapply record_new|eapply in_record]; eassumption. }
  rewrite <- Eq. split.
  - intros (t' & p' & q' & E & Y). cbn in E. injection E as -> -> ->. exact Y.
  - intros Y. exists t, p, q. auto.
Qed.

(** The two paths of an entry are the same up to the last element: nothing is compared with something found elsewhere.  Changed
    values are at the same path; what is removed or added is named in one of the two paths. *)
Theorem C79_places : forall opt record_id (ord : orders) n a b l t p q,
  sane W ceqb veqb ord a b -> recursing opt -> diff_iter opt record_id ord n a b = Ok l -> In (t, p, q) l ->
  match t with
  | Modified => p = q
  | Removed => p = q \/ exists i, p = q ++ [i]
  | Added => p = q \/ exists i, q = p ++ [i]
  | Moved => exists r i j, p = r ++ [i] /\ q = r ++ [j] /\ i <> j
  | NoChange => exists r i j, p = r ++ [i] /\ q = r ++ [j]
  end.
Proof.
  intros opt record_id ord n a b l t p q S R H I. apply (C79_entries opt record_id ord n a b l S R H) in I. clear -I.
  induction I as [a b p u Sl Ea Eb|a b p v Sl Ea Eb|a b p u v Sl Ea Eb Nu Ev|a b p u v Sl Ea Eb Nu Ev Eu|a b p u v t q r Sl Ea Eb Tu Ch IH
    |a b i T L S N|a b i T L S N|a b i T L S N|a b t i j T L S N|a b i T L S N|a b i T L S N|a b i x y t q r T L Ix Iy Ch IH]; auto.
  - exists [], (EStr (p_name p)), (EStr (p_name p)). auto.
  - destruct t.
    + destruct IH as (r' & i & j & -> & ->). exists (EStr (p_name p) :: r'), i, j. auto.
    + destruct IH as [->|[i ->]]; [auto|right; exists i; auto].
    + destruct IH as [->|[i ->]]; [auto|right; exists i; auto].
    + now subst.
    + destruct IH as (r' & i & j & -> & -> & Ne). exists (EStr (p_name p) :: r'), i, j. auto.
  - right. exists i. auto.
  - right. exists i. auto.
  - destruct N as [(-> & _ & Ne)|(-> & _)]; exists [], i, j; auto.
  - right. exists i. auto.
  - right. exists i. auto.
  - destruct t.
    + destruct IH as (r' & i' & j & -> & ->). exists (i :: r'), i', j. auto.
    + destruct IH as [->|[i' ->]]; [auto|right; exists i'; auto].
    + destruct IH as [->|[i' ->]]; [auto|right; exists i'; auto].
    + now subst.
    + destruct IH as (r' & i' & j & -> & -> & Ne). exists (i :: r'), i', j. auto.
Qed.

(** What the records are identified by, [fuzzy_match] and the orders of sets make no difference. *)
Theorem C79_identities : forall opt opt' record_id record_id' (ord ord' : orders) n n' a b l l',
  sane W ceqb veqb ord a b -> sane W ceqb veqb ord' a b -> recursing opt -> recursing opt' ->
  o_text opt = o_text opt' -> o_unchanged_ opt = o_unchanged_ opt' -> o_moved opt = o_moved opt' -> o_extraneous opt = o_extraneous opt' ->
  diff_iter opt record_id ord n a b = Ok l -> diff_iter opt' record_id' ord' n' a b = Ok l' -> forall e, In e l <-> In e l'.
Proof.
  intros opt opt' i i' ord ord' n n' a b l l' S S' R R' E1 E2 E3 E4 H H' [[t p] q].
  rewrite (proj2 (C79_entries opt i ord n a b l S R H)), (proj2 (C79_entries opt' i' ord' n' a b l' S' R' H')).
  destruct opt as [tx un mv es ei du ex fl fz rc], opt' as [tx' un' mv' es' ei' du' ex' fl' fz' rc']. cbn in *. subst tx' un' mv' ex'. clear.
  split; induction 1;
      [eapply at_slot_removed|eapply at_slot_added|eapply at_slot_modified|eapply at_slot_same|eapply in_slot|eapply loose_removed|eapply loose_added|eapply loose_modified
      |eapply loose_same|eapply record_gone|eapply record_new|eapply in_record
      |eapply at_slot_removed|eapply at_slot_added|eapply at_slot_modified|eapply at_slot_same|eapply in_slot|eapply loose_removed|eapply loose_added|eapply loose_modified
      |eapply loose_same|eapply record_gone|eapply record_new|eapply in_record]; eassumption.
Qed.
End Props.

(** The orders of C30: there one quantity changed and a line was added; place by place, two lines changed. *)
Definition recursive : options := mkOptions (fun s => s) false false false false false false None true true.
Example C79_ex : recursing recursive /\ sane W2 Nat.eqb vb in_order o1 o2 /\
  diff2 in_order recursive o1 o2 = Ok
    [(Modified, [EStr (s2l "lines"); EInt 0; EStr (s2l "qty")], [EStr (s2l "lines"); EInt 0; EStr (s2l "qty")]);
     (Modified, [EStr (s2l "lines"); EInt 0; EStr (s2l "sku")], [EStr (s2l "lines"); EInt 0; EStr (s2l "sku")]);
     (Modified, [EStr (s2l "lines"); EInt 1; EStr (s2l "qty")], [EStr (s2l "lines"); EInt 1; EStr (s2l "qty")]);
     (Modified, [EStr (s2l "lines"); EInt 1; EStr (s2l "sku")], [EStr (s2l "lines"); EInt 1; EStr (s2l "sku")]);
     (Added, [EStr (s2l "lines")], [EStr (s2l "lines"); EInt 2]);
     (Removed, [EStr (s2l "tags"); EInt 0], [EStr (s2l "tags")]);
     (Added, [EStr (s2l "tags")], [EStr (s2l "tags"); EInt 1]);
     (Added, [EStr (s2l "tags")], [EStr (s2l "tags"); EInt 2])].
Proof. split; [repeat split|]. split; [apply sane_o, in_order_ok|]. vm_compute. reflexivity. Qed.
(** [recurse] stops at collections without an item type: in the tags "b" was found elsewhere and is not reported, although the two
    items at 0 are different. *)
Theorem C79_recurse_refuted : exists l, diff2 in_order recursive o1 o2 = Ok l /\
  (exists x y, at_path W2 recursive o1 [EStr (s2l "tags"); EInt 0] x /\ at_path W2 recursive o2 [EStr (s2l "tags"); EInt 0] y /\ vb x y = false) /\
  ~ In (Modified, [EStr (s2l "tags"); EInt 0], [EStr (s2l "tags"); EInt 0]) l.
Proof.
  eexists. split; [vm_compute; reflexivity|]. split.
  - exists (t "a"), (t "b"). split; [|split; [|reflexivity]].
    + eapply (at_slot W2 recursive _ 2 (P "tags" None)); [reflexivity|cbn; auto|reflexivity|].
      eapply at_item; [|apply at_here]. vm_compute. auto.
    + eapply (at_slot W2 recursive _ 2 (P "tags" None)); [reflexivity|cbn; auto|reflexivity|].
      eapply at_item; [|apply at_here]. vm_compute. auto.
  - intros I. cbn in I. repeat (destruct I as [I|I]; [discriminate I|]). exact I.
Qed.

Print Assumptions C79_entries.
Print Assumptions C79_places.
Print Assumptions C79_identities.
Print Assumptions C79_recurse_refuted.
