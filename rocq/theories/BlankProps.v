(** What a comparison with [ignore_empty_slots] reports: C81.  [seen_full], [vacant] and [comparables] are defined in BlankSpec, [composite] and
    [of_slot] in DuckSpec. *)
From Coq Require Import String List Arith NArith ZArith Bool Lia Permutation.
From Verif Require Import Prelude SelPathModel FSModel PySeq MFSModel MFSProofs ValModel EqModel EqProofs SeqDiffModel SeqDiffProofs SeqDiffProps
  FuzzyModel FuzzyProps DiffModel DiffProofs DiffSwap DiffTotal DiffExact DiffEntries DiffOnce DiffExample DiffProps DiffExactProps DuckSpec DuckProofs DuckProps
  BlankSpec BlankProofs.
Import ListNotations.

Section Props.
Context {A C : Type}.
Variable W : classes A C.
Variable ceqb : C -> C -> bool.
Notation val := (val A C).
Variable veqb : val -> val -> bool.
Variable hashable : val -> bool.
Variable repr : val -> str.
Variable a_hash a_falsy : A -> bool.
Variable a_items : A -> res (list (elem * val)).
Notation orders := (list elem -> list elem -> dorders (A := A) (C := C)).
Notation diff opt record_id o := (diff W ceqb veqb hashable repr a_hash a_falsy a_items opt record_id o).
Notation diff_iter opt record_id o := (diff_iter W ceqb veqb hashable repr a_hash a_falsy a_items opt record_id o).
Notation sane_for := (sane_duck W veqb).

(** If one side is missing, nothing is reported but that the other has something, and that only if it is not vacant. *)
Theorem C81_one_sided : forall opt record_id (ord : orders) n u fa fb l,
  sane_for ord u u -> emptying opt -> composite u -> diff opt record_id ord n u VNothing fa fb = Ok l ->
  (forall e, In e l -> dt_of e = Removed \/ dt_of e = NoChange) /\ (changes l = [] <-> vacant W opt u).
Proof.
  intros opt record_id ord n u fa fb l (Ho&Hr&Hs&Ht&Hk&Wu&_) D Cu H.
  exact (one_sided W ceqb veqb hashable repr a_hash a_falsy a_items opt record_id ord Ho Hr Hs Ht Hk D n true u fa fb l Cu Wu H).
Qed.
Theorem C81_other_side : forall opt record_id (ord : orders) n u fa fb l,
  sane_for ord u u -> emptying opt -> composite u -> diff opt record_id ord n VNothing u fa fb = Ok l ->
  (forall e, In e l -> dt_of e = Added \/ dt_of e = NoChange) /\ (changes l = [] <-> vacant W opt u).
Proof.
  intros opt record_id ord n u fa fb l (Ho&Hr&Hs&Ht&Hk&Wu&_) D Cu H.
  exact (one_sided W ceqb veqb hashable repr a_hash a_falsy a_items opt record_id ord Ho Hr Hs Ht Hk D n false u fa fb l Cu Wu H).
Qed.

(** What is reported about one property of two records of a class. *)
Theorem C81_slot : forall opt record_id (ord : orders) n c sa sb l p,
  let a := VRec c sa in let b := VRec c sb in let here := EStr (p_name p) in
  sane_for ord a b -> (forall c d, ceqb c d = true <-> c = d) -> emptying opt -> NoDup (map p_name (props W c)) -> In p (props W c) -> compared opt p ->
  diff_iter opt record_id ord (S n) a b = Ok l ->
  match seen_full opt p a, seen_full opt p b with
  | None, None => of_slot p l = []
  | Some u, None => (composite u /\ vacant W opt u /\ changes (of_slot p l) = []) \/
                    (~ (composite u /\ vacant W opt u) /\ of_slot p l = [(Removed, [here], [here])])
  | None, Some v => (composite v /\ vacant W opt v /\ changes (of_slot p l) = []) \/
                    (~ (composite v /\ vacant W opt v) /\ of_slot p l = [(Added, [here], [here])])
  | Some u, Some v =>
      (comparables u v -> diff opt record_id ord n u v [here] [here] = Ok (of_slot p l)) /\
      (~ comparables u v ->
         of_slot p l = if veqb u v then (if o_unchanged_ opt then [(NoChange, [here], [here])] else []) else [(Modified, [here], [here])])
  end.
Proof.
  cbv zeta. intros opt record_id ord n c sa sb l p (Ho&Hr&Hs&Ht&Hk&Wa&Wb) Hc D N Ip Cp H.
  assert (Tm : types_match ceqb (VRec c sa : val) (VRec c sb) = true) by (cbn; now apply Hc).
  pose proof (proj1 (record_slots W ceqb veqb opt c _ (VRec c sa) (VRec c sb) l eq_refl Tm N
    (diff_under W ceqb veqb hashable repr a_hash a_falsy a_items opt record_id ord n) H) p Ip) as S.
  exact (slot_cases W ceqb veqb hashable repr a_hash a_falsy a_items opt record_id ord Ho Hr Hs Ht Hk D Hc n c (VRec c sa) (VRec c sb) p (of_slot p l) Ip Wa Wb Cp S).
Qed.

(** Records which look the same compare the same, to the order of the entries. *)
Theorem C81_same : forall opt record_id (ord : orders) n c sa sa' sb sb',
  emptying opt ->
  (forall p, In p (props W c) -> seen_full opt p (VRec c sa) = seen_full opt p (VRec c sa')) ->
  (forall p, In p (props W c) -> seen_full opt p (VRec c sb) = seen_full opt p (VRec c sb')) ->
  diff_iter opt record_id ord n (VRec c sa) (VRec c sb) = diff_iter opt record_id ord n (VRec c sa') (VRec c sb').
Proof.
  intros opt record_id ord n c sa sa' sb sb' D Fa Fb. exact (same_records W ceqb veqb hashable repr a_hash a_falsy a_items opt record_id ord D n c sa sa' sb sb' [] [] Fa Fb).
Qed.

(** In particular slots which hold None, or text of which nothing is left, may as well be deleted. *)
Definition without_blanks (opt : options) (sl : list (str * val)) : list (str * val) :=
  filter (fun kv => match snd kv with
                    | VNone => false
                    | VText s => match o_text opt s with [] => false | _ => true end
                    | _ => true
                    end) sl.
Theorem C81_unset : forall opt record_id (ord : orders) n c sa sb,
  emptying opt -> NoDup (map fst sa) -> NoDup (map fst sb) -> (forall p, In p (props W c) -> p_compare_as p = None) ->
  diff_iter opt record_id ord n (VRec c sa) (VRec c sb) = diff_iter opt record_id ord n (VRec c (without_blanks opt sa)) (VRec c (without_blanks opt sb)).
Proof.
  intros opt record_id ord n c sa sb D Na Nb Nc.
  assert (G : forall sl, NoDup (map fst sl) -> forall p, In p (props W c) -> seen_full opt p (VRec c sl) = seen_full opt p (VRec c (without_blanks opt sl) : val)).
  { intros sl N p Ip. unfold seen_full. rewrite (Nc p Ip). cbn [slot]. clear Ip.
    induction sl as [|[k v] sl IH]; [reflexivity|]. cbn [map fst] in N. apply NoDup_cons_iff in N as [Nk N]. specialize (IH N).
    assert (Z : str_eqb k (p_name p) = true -> dict_get str_eqb (without_blanks opt sl) (p_name p) = None).
    { intros E. apply str_eqb_eq in E. subst k. clear - Nk. induction sl as [|[j w] sl IHs]; [reflexivity|].
      assert (Nj : str_eqb j (p_name p) = false) by (destruct (str_eqb j (p_name p)) eqn:X; auto; apply str_eqb_eq in X; subst; exfalso; apply Nk; now left).
      assert (IHs' := IHs (fun I => Nk (or_intror I))). unfold without_blanks. cbn [filter snd].
      match goal with |- context [if ?x then _ else _] => destruct x end; [|exact IHs']. cbn [dict_get]. rewrite Nj. exact IHs'. }
    unfold without_blanks in *. cbn [filter snd dict_get].
    destruct (str_eqb k (p_name p)) eqn:E.
    - destruct v as [| |s| | | | | |]; cbn [filter snd dict_get]; rewrite ?E; try reflexivity.
      + rewrite (Z eq_refl). reflexivity.
      + destruct (o_text opt s) eqn:Es; cbn [dict_get]; [rewrite (Z eq_refl); cbn; now rewrite Es|now rewrite E].
    - match goal with |- context [if ?x then (k, v) :: _ else _] => destruct x end; cbn [dict_get]; rewrite ?E; exact IH. }
  apply C81_same; auto.
Qed.
End Props.

Definition ignoring : options := mkOptions (fun s => s) false false true false false false None true false.
Lemma ignoring_ok : emptying ignoring. Proof. repeat split. Qed.
Lemma nat_eqb_ok : forall c d : nat, Nat.eqb c d = true <-> c = d. Proof. exact Nat.eqb_eq. Qed.

(** An empty text stands against None, and a quantity is missing on one side. *)
Definition e1 : V := VRec 3 [(s2l "x", t ""); (s2l "y", line "pen" 2)].
Definition e2 : V := VRec 3 [(s2l "x", VNone); (s2l "y", VRec 0 [(s2l "sku", t "pen"); (s2l "qty", VNone)])].
Lemma wf_e1 : wfv W2 e1. Proof. unfold e1, line, t. wfv_tac. Qed.
Lemma wf_e2 : wfv W2 e2. Proof. unfold e2, t. wfv_tac. Qed.
Example C81_ex : emptying ignoring /\ sane_duck W2 vb in_order e1 e2 /\ NoDup (map p_name (props W2 3)) /\
  (forall p, In p (props W2 3) -> p_compare_as p = None) /\
  diff2 in_order ignoring e1 e2 = Ok [(Removed, [EStr (s2l "y"); EStr (s2l "qty")], [EStr (s2l "y"); EStr (s2l "qty")])] /\
  without_blanks ignoring [(s2l "x", t ""); (s2l "y", line "pen" 2)] = [(s2l "y", line "pen" 2)] /\
  diff2 in_order defaults e1 e2 = Ok [(Modified, [EStr (s2l "x")], [EStr (s2l "x")]); (Modified, [EStr (s2l "y"); EStr (s2l "qty")], [EStr (s2l "y"); EStr (s2l "qty")])].
Proof.
  split; [apply ignoring_ok|]. split; [apply sane_W2; [apply wf_e1|apply wf_e2]|]. split; [apply names_W2|].
  split; [intros p [<-|[<-|[]]]; reflexivity|]. split; [vm_compute; reflexivity|]. split; vm_compute; reflexivity.
Qed.
(** A record whose only slot holds an empty text is vacant, a line of an order is not. *)
Example C81_ex_vacant : vacant W2 ignoring (VRec 0 [(s2l "sku", t "")]) /\ ~ vacant W2 ignoring (line "pen" 2) /\
  diff2 in_order ignoring (VRec 3 [(s2l "x", VRec 0 [(s2l "sku", t "")])]) (VRec 3 []) = Ok [].
Proof.
  split; [|split; [|vm_compute; reflexivity]].
  - apply (vacant_record W2 ignoring _ 0); [reflexivity| | |intros []|intros []].
    + intros p u Ip _ E. cbn in Ip. repeat (destruct Ip as [<-|Ip]; [discriminate E|]). destruct Ip.
    + intros p u Ip _ E. cbn in Ip. repeat (destruct Ip as [<-|Ip]; [discriminate E|]). destruct Ip.
  - intros H. inversion H as [v Co Ec|v c Ec Hc]; subst; [discriminate Ec|]. injection Ec as <-.
    apply (Hc (P "sku" None) (t "pen")); [now left|now right|reflexivity].
Qed.

(** An empty list is neither '' nor None, and an item of a list is no slot; yet neither is reported. *)
Definition e3 : V := VRec 3 [(s2l "x", VSeq false []); (s2l "y", VSeq false [t ""; t "q"])].
Definition e4 : V := VRec 3 [(s2l "y", VSeq false [t "q"])].
Lemma wf_e3 : wfv W2 e3. Proof. unfold e3, t. wfv_tac. Qed.
Lemma wf_e4 : wfv W2 e4. Proof. unfold e4, t. wfv_tac. Qed.
Theorem C81_more_refuted : exists a b : V, emptying ignoring /\ sane_duck W2 vb in_order a b /\ a <> b /\ diff2 in_order ignoring a b = Ok [] /\
  (forall p u, In p (props W2 3) -> slot a (p_name p) = Some u -> u <> VNone /\ u <> t "") /\
  diff2 in_order defaults a b = Ok [(Removed, [EStr (s2l "x")], [EStr (s2l "x")]); (Removed, [EStr (s2l "y"); EInt 0], [EStr (s2l "y")])].
Proof.
  exists e3, e4. split; [apply ignoring_ok|]. split; [apply sane_W2; [apply wf_e3|apply wf_e4]|]. split; [discriminate|]. split; [vm_compute; reflexivity|].
  split; [|vm_compute; reflexivity]. intros p u [<-|[<-|[]]]; cbn; intros [= <-]; split; discriminate.
Qed.

Print Assumptions C81_one_sided.
Print Assumptions C81_other_side.
Print Assumptions C81_slot.
Print Assumptions C81_same.
Print Assumptions C81_unset.
Print Assumptions C81_more_refuted.
