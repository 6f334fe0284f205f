(** What a comparison with [duck_type] reports about the slots of a record: C80.  [hollow] and [of_slot] are defined in DuckSpec, [seen] and [compared]
    in DiffExact. *)
From Coq Require Import String List Arith NArith ZArith Bool Lia Permutation.
From Verif Require Import Prelude SelPathModel FSModel PySeq MFSModel MFSProofs ValModel EqModel EqProofs SeqDiffModel SeqDiffProofs SeqDiffProps
  FuzzyModel FuzzyProps DiffModel DiffProofs DiffSwap DiffTotal DiffExact DiffEntries DiffOnce DiffExample DiffProps DiffExactProps DuckSpec DuckProofs.
Import ListNotations.

Section Props.
Context {A C : Type}.
Variable W : classes A C.
Variable ceqb : C -> C -> bool.
Notation val := (val A C).
Variable veqb : val -> val -> bool.
Variable hashable : val -> bool.
Variable repr : val -> str.
Variable a_hash a_falsy : A -> bool.
Variable a_items : A -> res (list (elem * val)).
Notation orders := (list elem -> list elem -> dorders (A := A) (C := C)).
Notation diff opt record_id o := (diff W ceqb veqb hashable repr a_hash a_falsy a_items opt record_id o).
Notation diff_iter opt record_id o := (diff_iter W ceqb veqb hashable repr a_hash a_falsy a_items opt record_id o).

(** As [sane] of C30, but nothing is asked of the types *)
Definition sane_duck (ord : orders) (a b : val) : Prop :=
  (forall fa fb, orders_ok (ord fa fb)) /\
  (forall v, veqb v v = true) /\ (forall u v, veqb u v = true -> veqb v u = true) /\
  (forall u v w, veqb u v = true -> veqb v w = true -> veqb u w = true) /\
  keeps_wf W /\ wfv W a /\ wfv W b.

(** If one side is missing, nothing is reported but that the other has something, and that only if it is not hollow. *)
Theorem C80_one_sided : forall opt record_id (ord : orders) n u fa fb l,
  sane_duck ord u u -> ducking opt -> composite u -> diff opt record_id ord n u VNothing fa fb = Ok l ->
  (forall e, In e l -> dt_of e = Removed \/ dt_of e = NoChange) /\ (changes l = [] <-> hollow W opt u).
Proof.
  intros opt record_id ord n u fa fb l (Ho&Hr&Hs&Ht&Hk&Wu&_) (D1&D2&D3&D4&D5) Cu H.
  destruct opt as [tx un mv es ei du ex fl fz rc]. cbn in D1, D2, D3, D4, D5. subst du.
  set (opt0 := mkOptions tx un mv es ei false ex fl fz rc).
  assert (D : default_options opt0) by (repeat split; assumption).
  destruct (one_sided W ceqb veqb hashable repr a_hash a_falsy a_items opt0 record_id ord Ho Hr Hs Ht Hk D n true u fa fb l Cu Wu H) as [F1 F2].
  split; [exact F1|]. rewrite F2. clear. split; induction 1; [apply hollow_plain|eapply hollow_record|apply hollow_plain|eapply hollow_record]; eauto.
Qed.
Theorem C80_other_side : forall opt record_id (ord : orders) n u fa fb l,
  sane_duck ord u u -> ducking opt -> composite u -> diff opt record_id ord n VNothing u fa fb = Ok l ->
  (forall e, In e l -> dt_of e = Added \/ dt_of e = NoChange) /\ (changes l = [] <-> hollow W opt u).
Proof.
  intros opt record_id ord n u fa fb l (Ho&Hr&Hs&Ht&Hk&Wu&_) (D1&D2&D3&D4&D5) Cu H.
  destruct opt as [tx un mv es ei du ex fl fz rc]. cbn in D1, D2, D3, D4, D5. subst du.
  set (opt0 := mkOptions tx un mv es ei false ex fl fz rc).
  assert (D : default_options opt0) by (repeat split; assumption).
  destruct (one_sided W ceqb veqb hashable repr a_hash a_falsy a_items opt0 record_id ord Ho Hr Hs Ht Hk D n false u fa fb l Cu Wu H) as [F1 F2].
  split; [exact F1|]. rewrite F2. clear. split; induction 1; [apply hollow_plain|eapply hollow_record|apply hollow_plain|eapply hollow_record]; eauto.
Qed.

(** Only the properties of the base's class are looked at, whatever the class of the other record. *)
Theorem C80_base_properties : forall opt record_id (ord : orders) n c sl b l t p q,
  o_duck opt = true -> NoDup (map p_name (props W c)) ->
  diff_iter opt record_id ord n (VRec c sl) b = Ok l -> In (t, p, q) l ->
  exists pr p' q', In pr (props W c) /\ p = EStr (p_name pr) :: p' /\ q = EStr (p_name pr) :: q'.
Proof.
  intros opt record_id ord n c sl b l t p q D N H I.
  destruct opt as [tx un mv es ei du ex fl fz rc]. cbn in D. subst du. set (opt0 := mkOptions tx un mv es ei false ex fl fz rc) in *.
  destruct n as [|n]; [discriminate H|].
  exact (proj2 (record_slots W ceqb veqb opt0 c _ (VRec c sl) b l eq_refl N (diff_under W ceqb veqb hashable repr a_hash a_falsy a_items opt0 record_id ord n) H) t p q I).
Qed.

(** What is reported about one property. *)
Theorem C80_slot : forall opt record_id (ord : orders) n c sl b l p,
  let a := VRec c sl in let here := EStr (p_name p) in
  sane_duck ord a b -> ducking opt -> NoDup (map p_name (props W c)) -> In p (props W c) -> compared opt p ->
  diff_iter opt record_id ord (S n) a b = Ok l ->
  match seen opt p a, seen opt p b with
  | None, None => of_slot p l = []
  | Some u, None => (composite u /\ hollow W opt u /\ changes (of_slot p l) = []) \/
                    (~ (composite u /\ hollow W opt u) /\ of_slot p l = [(Removed, [here], [here])])
  | None, Some v => (composite v /\ hollow W opt v /\ changes (of_slot p l) = []) \/
                    (~ (composite v /\ hollow W opt v) /\ of_slot p l = [(Added, [here], [here])])
  | Some u, Some v =>
      (composite u -> diff opt record_id ord n u v [here] [here] = Ok (of_slot p l)) /\
      (~ composite u -> composite v -> of_slot p l = []) /\
      (~ composite u -> ~ composite v ->
         of_slot p l = if veqb u v then (if o_unchanged_ opt then [(NoChange, [here], [here])] else []) else [(Modified, [here], [here])])
  end.
Proof.
  cbv zeta. intros opt record_id ord n c sl b l p (Ho&Hr&Hs&Ht&Hk&Wa&Wb) (D1&D2&D3&D4&D5) N Ip Cp H.
  destruct opt as [tx un mv es ei du ex fl fz rc]. cbn in D1, D2, D3, D4, D5. subst du.
  set (opt0 := mkOptions tx un mv es ei false ex fl fz rc).
  assert (D : default_options opt0) by (repeat split; assumption).
  pose proof (proj1 (record_slots W ceqb veqb opt0 c _ (VRec c sl) b l eq_refl N (diff_under W ceqb veqb hashable repr a_hash a_falsy a_items opt0 record_id ord n) H) p Ip) as S.
  pose proof (slot_cases W ceqb veqb hashable repr a_hash a_falsy a_items opt0 record_id ord Ho Hr Hs Ht Hk D n c (VRec c sl) b p (of_slot p l) Ip Wa Wb Cp S) as X. cbv zeta in X.
  assert (Eq : forall u, hollow W opt0 u <-> hollow W (mkOptions tx un mv es ei true ex fl fz rc) u).
  { clear. split; induction 1; [apply hollow_plain|eapply hollow_record|apply hollow_plain|eapply hollow_record]; eauto. }
  change (seen (mkOptions tx un mv es ei true ex fl fz rc)) with (DiffExact.seen (A := A) (C := C) opt0).
  destruct (DiffExact.seen opt0 p (VRec c sl)) as [u|], (DiffExact.seen opt0 p b) as [v|]; [exact X|rewrite <- Eq; exact X|rewrite <- Eq; exact X|exact X].
Qed.

(** A whole comparison in which one of the two records has nothing but hollow slots, or nothing at all, of the base's class. *)
Theorem C80_silent : forall opt record_id (ord : orders) n c sl b l,
  let a := VRec c sl in
  sane_duck ord a b -> ducking opt -> NoDup (map p_name (props W c)) -> diff_iter opt record_id ord (S n) a b = Ok l ->
  (forall p, In p (props W c) -> compared opt p -> match seen opt p a, seen opt p b with
     | None, None => True
     | Some u, None => composite u /\ hollow W opt u
     | None, Some v => composite v /\ hollow W opt v
     | Some u, Some v => ~ composite u /\ (composite v \/ veqb u v = true)
     end) ->
  changes l = [].
Proof.
  cbv zeta. intros opt record_id ord n c sl b l Sn Du N H F.
  destruct (changes l) as [|d r] eqn:E; auto. exfalso.
  assert (I : In d (changes l)) by (rewrite E; now left). unfold changes in I. apply filter_In in I as [I Nd]. apply in_map_iff in I as ([[t p] q] & <- & I).
  destruct (C80_base_properties opt record_id ord (S n) c sl b l t p q (proj1 (proj2 (proj2 Du))) N H I) as (pr & p' & q' & Ip & Ep & Eq).
  assert (Is : In (t, p, q) (of_slot pr l)) by (apply filter_In; split; auto; subst p; cbn; now apply str_eqb_eq).
  assert (Ch : In t (changes (of_slot pr l))).
  { unfold changes. apply filter_In. split; [|exact Nd]. apply in_map_iff. exists (t, p, q). auto. }
  assert (Cp : compared opt pr).
  { unfold compared. destruct (o_extraneous opt) eqn:Ex; auto. destruct (p_extraneous pr) eqn:Px; auto. exfalso.
    destruct opt as [tx un mv es ei du ex fl fz rc]. destruct Du as (D1&D2&D3&D4&D5). cbn in D1, D2, D3, D4, D5, Ex. subst du ex fl.
    pose proof (proj1 (record_slots W ceqb veqb (mkOptions tx un mv es ei false false None fz rc) c _ (VRec c sl) b l eq_refl N
      (diff_under W ceqb veqb hashable repr a_hash a_falsy a_items (mkOptions tx un mv es ei false false None fz rc) record_id ord n) H) pr Ip) as S.
    unfold slot_diff, is_filtered in S. cbn in S. rewrite Px in S. cbn in S. injection S as S. rewrite <- S in Is. destruct Is. }
  pose proof (C80_slot opt record_id ord n c sl b l pr Sn Du N Ip Cp H) as X. cbv zeta in X. specialize (F pr Ip Cp).
  destruct (seen opt pr (VRec c sl)) as [u|], (seen opt pr b) as [v|].
  - destruct F as [Nu F], X as (_ & X2 & X3). destruct v; cbn [composite] in *;
      try (rewrite (X2 Nu Logic.I) in Is; destruct Is; fail);
      (destruct F as [[]|F]; rewrite (X3 Nu (fun z => z)), F in Ch; destruct (o_unchanged_ opt); destruct Ch).
  - destruct X as [(_ & _ & X)|(X & _)]; [rewrite X in Ch; destruct Ch|tauto].
  - destruct X as [(_ & _ & X)|(X & _)]; [rewrite X in Ch; destruct Ch|tauto].
  - rewrite X in Is. destruct Is.
Qed.
End Props.

Definition duck : options := mkOptions (fun s => s) false false false false true false None true false.
Lemma duck_ok : ducking duck. Proof. repeat split. Qed.
Lemma sane_W2 a b : wfv W2 a -> wfv W2 b -> sane_duck W2 vb in_order a b.
Proof.
  intros Wa Wb. split; [apply in_order_ok|]. split; [intros v; now apply vb_eq|]. split; [intros u v H; apply vb_eq in H; now apply vb_eq|].
  split; [intros u v w H1 H2; apply vb_eq in H1, H2; apply vb_eq; congruence|]. split; [apply keeps_W2|]. auto.
Qed.

(** A line of an order and one with a primary key are records of different classes; the quantity differs, and the collection in [x] has a line
    the other lacks. *)
Definition d1 : V := VRec 3 [(s2l "x", VLC 1 [] [line "pen" 2; line "ink" 1]); (s2l "y", line "pen" 2)].
Definition d2 : V := VRec 3 [(s2l "x", VLC 6 [] [kline "pen" 2]); (s2l "y", kline "pen" 3)].
Lemma wf_d1 : wfv W2 d1. Proof. unfold d1, line, t. wfv_tac. Qed.
Lemma wf_d2 : wfv W2 d2. Proof. unfold d2, kline, t. wfv_tac. Qed.
Example C80_ex : ducking duck /\ sane_duck W2 vb in_order d1 d2 /\ NoDup (map p_name (props W2 3)) /\
  diff2 in_order duck d1 d2 = Ok
    [(Removed, [EStr (s2l "x"); EInt 1], [EStr (s2l "x")]); (Modified, [EStr (s2l "y"); EStr (s2l "qty")], [EStr (s2l "y"); EStr (s2l "qty")])].
Proof. split; [apply duck_ok|]. split; [apply sane_W2; [apply wf_d1|apply wf_d2]|]. split; [apply names_W2|]. vm_compute. reflexivity. Qed.
(** The same slots against nothing at all: one entry each. *)
Example C80_ex_solid : diff2 in_order duck d1 (VRec 3 []) = Ok
    [(Removed, [EStr (s2l "x")], [EStr (s2l "x")]); (Removed, [EStr (s2l "y")], [EStr (s2l "y")])] /\ ~ hollow W2 duck (line "pen" 2).
Proof.
  split; [vm_compute; reflexivity|]. intros H. inversion H as [v Co Ec|v c Ec Hc]; subst; [discriminate Ec|]. injection Ec as <-.
  apply (Hc (P "sku" None) (t "pen")); [now left|now right|reflexivity].
Qed.

(** A list of an order's lines which say nothing. *)
Definition blank : V := VLC 1 [] [VRec 0 []].
Lemma hollow_blank : hollow W2 duck blank.
Proof.
  apply (hollow_record W2 duck blank 1); [reflexivity| | | |].
  - intros p u [].
  - intros p u [].
  - intros _ E. discriminate E.
  - intros _ d k x E [I|[]]. injection I as <- <-.
    apply (hollow_record W2 duck _ 0); [reflexivity| | |intros []|intros []].
    + intros p u Ip _ E'. cbn in Ip. repeat (destruct Ip as [<-|Ip]; [discriminate E'|]). destruct Ip.
    + intros p u Ip _ E'. cbn in Ip. repeat (destruct Ip as [<-|Ip]; [discriminate E'|]). destruct Ip.
Qed.
(** A text stands against a list, a collection against nothing: no difference is reported.  The other way round both are. *)
Definition d3 : V := VRec 3 [(s2l "x", t "abc"); (s2l "y", blank)].
Definition d4 : V := VRec 3 [(s2l "x", VSeq false [t "q"])].
Lemma wf_d3 : wfv W2 d3. Proof. unfold d3, blank, t. wfv_tac. Qed.
Lemma wf_d4 : wfv W2 d4. Proof. unfold d4, t. wfv_tac. Qed.
Theorem C80_blind_refuted : exists a b : V, ducking duck /\ sane_duck W2 vb in_order a b /\ a <> b /\ diff2 in_order duck a b = Ok [] /\
  diff2 in_order defaults a b = Ok [(Modified, [EStr (s2l "x")], [EStr (s2l "x")]); (Removed, [EStr (s2l "y")], [EStr (s2l "y")])] /\
  (exists e l, diff2 in_order duck b a = Ok (e :: l)).
Proof.
  exists d3, d4. split; [apply duck_ok|]. split; [apply sane_W2; [apply wf_d3|apply wf_d4]|]. split; [discriminate|]. split; [vm_compute; reflexivity|].
  split; [vm_compute; reflexivity|]. eexists; eexists; vm_compute; reflexivity.
Qed.

Print Assumptions C80_one_sided.
Print Assumptions C80_other_side.
Print Assumptions C80_base_properties.
Print Assumptions C80_slot.
Print Assumptions C80_silent.
Print Assumptions C80_blind_refuted.
