(** What comparisons with [duck_type] or [ignore_empty_slots] report about the properties of list collections, as C80_slot and C81_slot say of
    records.  In dict collections a key may read like the name of a property, so that the entries can not be told apart by their paths. *)
From Coq Require Import String List Arith NArith ZArith Bool Lia Permutation.
From Verif Require Import Prelude SelPathModel FSModel PySeq MFSModel MFSProofs ValModel EqModel EqProofs SeqDiffModel SeqDiffProofs SeqDiffProps
  FuzzyModel FuzzyProps DiffModel DiffProofs DiffSwap DiffTotal DiffExact DiffEntries DiffOnce DiffExample DiffProps DiffExactProps DuckSpec DuckProofs DuckProps
  BlankSpec BlankProofs BlankProps CollSlotProofs.
Import ListNotations.

Section Props.
Context {A C : Type}.
Variable W : classes A C.
Variable ceqb : C -> C -> bool.
Notation val := (val A C).
Variable veqb : val -> val -> bool.
Variable hashable : val -> bool.
Variable repr : val -> str.
Variable a_hash a_falsy : A -> bool.
Variable a_items : A -> res (list (elem * val)).
Notation orders := (list elem -> list elem -> dorders (A := A) (C := C)).
Notation diff opt record_id o := (diff W ceqb veqb hashable repr a_hash a_falsy a_items opt record_id o).
Notation diff_iter opt record_id o := (diff_iter W ceqb veqb hashable repr a_hash a_falsy a_items opt record_id o).

(** ** C80: [duck_type]; the other may be anything *)
Theorem C80_list_slot : forall opt record_id (ord : orders) n c sl la b l p,
  let a := VLC c sl la in let here := EStr (p_name p) in
  sane_duck W veqb ord a b -> ducking opt -> NoDup (map p_name (props W c)) -> In p (props W c) -> compared opt p ->
  diff_iter opt record_id ord (S n) a b = Ok l ->
  match seen opt p a, seen opt p b with
  | None, None => of_slot p l = []
  | Some u, None => (composite u /\ hollow W opt u /\ changes (of_slot p l) = []) \/
                    (~ (composite u /\ hollow W opt u) /\ of_slot p l = [(Removed, [here], [here])])
  | None, Some v => (composite v /\ hollow W opt v /\ changes (of_slot p l) = []) \/
                    (~ (composite v /\ hollow W opt v) /\ of_slot p l = [(Added, [here], [here])])
  | Some u, Some v =>
      (composite u -> diff opt record_id ord n u v [here] [here] = Ok (of_slot p l)) /\
      (~ composite u -> composite v -> of_slot p l = []) /\
      (~ composite u -> ~ composite v ->
         of_slot p l = if veqb u v then (if o_unchanged_ opt then [(NoChange, [here], [here])] else []) else [(Modified, [here], [here])])
  end.
Proof.
  cbv zeta. intros opt record_id ord n c sl la b l p (Ho&Hr&Hs&Ht&Hk&Wa&Wb) (D1&D2&D3&D4&D5) N Ip Cp H.
  destruct opt as [tx un mv es ei du ex fl fz rc]. cbn in D1, D2, D3, D4, D5. subst du.
  destruct (slot_part W ceqb veqb hashable repr a_hash a_falsy a_items (mkOptions tx un mv es ei true ex fl fz rc) record_id ord Ho D4 D5 n c sl la b l p H) as (l' & H' & E). rewrite E. clear E H.
  set (opt0 := mkOptions tx un mv es ei false ex fl fz rc).
  assert (D : default_options opt0) by (repeat split; assumption).
  pose proof (proj1 (DuckProofs.record_slots W ceqb veqb opt0 c _ (VLC c sl la) b l' eq_refl N (diff_under W ceqb veqb hashable repr a_hash a_falsy a_items _ record_id ord n) H') p Ip) as S.
  pose proof (DuckProofs.slot_cases W ceqb veqb hashable repr a_hash a_falsy a_items opt0 record_id ord Ho Hr Hs Ht Hk D n c (VLC c sl la) b p (of_slot p l') Ip Wa Wb Cp S) as X. cbv zeta in X.
  assert (Eq : forall u, hollow W opt0 u <-> hollow W (mkOptions tx un mv es ei true ex fl fz rc) u).
  { clear. split; induction 1; [apply hollow_plain|eapply hollow_record|apply hollow_plain|eapply hollow_record]; eauto. }
  change (seen (mkOptions tx un mv es ei true ex fl fz rc)) with (DiffExact.seen (A := A) (C := C) opt0).
  destruct (DiffExact.seen opt0 p (VLC c sl la)) as [u|], (DiffExact.seen opt0 p b) as [v|]; [exact X|rewrite <- Eq; exact X|rewrite <- Eq; exact X|exact X].
Qed.

(** ** C81: [ignore_empty_slots]; two of a class *)
Theorem C81_list_slot : forall opt record_id (ord : orders) n c sa sb la lb l p,
  let a := VLC c sa la in let b := VLC c sb lb in let here := EStr (p_name p) in
  sane_duck W veqb ord a b -> (forall c d, ceqb c d = true <-> c = d) -> emptying opt -> NoDup (map p_name (props W c)) -> In p (props W c) -> compared opt p ->
  diff_iter opt record_id ord (S n) a b = Ok l ->
  match seen_full opt p a, seen_full opt p b with
  | None, None => of_slot p l = []
  | Some u, None => (composite u /\ vacant W opt u /\ changes (of_slot p l) = []) \/
                    (~ (composite u /\ vacant W opt u) /\ of_slot p l = [(Removed, [here], [here])])
  | None, Some v => (composite v /\ vacant W opt v /\ changes (of_slot p l) = []) \/
                    (~ (composite v /\ vacant W opt v) /\ of_slot p l = [(Added, [here], [here])])
  | Some u, Some v =>
      (comparables u v -> diff opt record_id ord n u v [here] [here] = Ok (of_slot p l)) /\
      (~ comparables u v ->
         of_slot p l = if veqb u v then (if o_unchanged_ opt then [(NoChange, [here], [here])] else []) else [(Modified, [here], [here])])
  end.
Proof.
  cbv zeta. intros opt record_id ord n c sa sb la lb l p (Ho&Hr&Hs&Ht&Hk&Wa&Wb) Hc D N Ip Cp H.
  destruct (slot_part W ceqb veqb hashable repr a_hash a_falsy a_items opt record_id ord Ho (proj1 (proj2 (proj2 (proj2 D)))) (proj2 (proj2 (proj2 (proj2 D)))) n c sa la _ l p H) as (l' & H' & E). rewrite E. clear E H.
  assert (Tm : types_match ceqb (VLC c sa la : val) (VLC c sb lb) = true) by (cbn; now apply Hc).
  pose proof (proj1 (BlankProofs.record_slots W ceqb veqb opt c _ (VLC c sa la) (VLC c sb lb) l' eq_refl Tm N
    (diff_under W ceqb veqb hashable repr a_hash a_falsy a_items opt record_id ord n) H') p Ip) as S.
  exact (BlankProofs.slot_cases W ceqb veqb hashable repr a_hash a_falsy a_items opt record_id ord Ho Hr Hs Ht Hk D Hc n c (VLC c sa la) (VLC c sb lb) p (of_slot p l') Ip Wa Wb Cp S).
Qed.
End Props.

(** ** Examples: W2 with lists of lines (1) and dicts of them (4) that have properties [x] and [y] *)
Definition W3 : classes nat nat := mkClasses
  (fun c => match c with 1 | 6 => KList | 4 => KDict | _ => KRec end)
  (fun c => match c with 0 => [P "sku" None; P "qty" None; XP "seen"] | 1 | 4 => [P "x" None; P "y" None] | _ => [] end)
  (fun _ => [])
  (fun c => match c with 1 | 4 => IRec 0 | _ => IPlain end)
  (fun _ => None)
  (fun _ v => Ok v).
Lemma keeps_W3 : keeps_wf W3.
Proof.
  intros c p f o v I E. exfalso. destruct c as [|[|[|[|[|c]]]]]; cbn in I; repeat (destruct I as [<-|I]); try (destruct I); cbn in E; discriminate E.
Qed.
Lemma names_W3 c : NoDup (map (fun p => p_name p) (props W3 c)).
Proof.
  destruct c as [|[|[|[|[|c]]]]]; cbn; repeat constructor; cbn; intros H; repeat (destruct H as [H|H]; [discriminate H|]); exact H.
Qed.
Lemma sane_W3 a b : wfv W3 a -> wfv W3 b -> sane_duck W3 vb in_order a b.
Proof.
  intros Wa Wb. split; [apply in_order_ok|]. split; [intros v; now apply vb_eq|]. split; [intros u v H; apply vb_eq in H; now apply vb_eq|].
  split; [intros u v w H1 H2; apply vb_eq in H1, H2; apply vb_eq; congruence|]. split; [apply keeps_W3|]. auto.
Qed.
Definition id3 (opt : options) : rtype nat -> option mfs -> V -> res V :=
  rid (H := unit) W3 (fun l => l) (fun _ _ => Err TypeErr) (fun _ => true) (fun _ => Ok tt) tt tt (fun _ => tt) (fun _ => tt) 9 (nrm opt).
Definition diff3 (opt : options) (x y : V) : res (list dentry) :=
  diff_iter W3 Nat.eqb vb (fun _ => true) (fun _ => s2l "?") (fun _ => true) (Nat.eqb 0) (fun _ => Err TypeErr) opt (id3 opt) in_order 9 x y.

Definition g1 : V := VLC 1 [(s2l "x", t "a"); (s2l "y", VSeq false [])] [line "pen" 2; line "ink" 1].
Definition g2 : V := VLC 1 [(s2l "x", t "b")] [line "pen" 2].
Lemma wf_g1 : wfv W3 g1. Proof. unfold g1, line, t. wfv_tac. Qed.
Lemma wf_g2 : wfv W3 g2. Proof. unfold g2, line, t. wfv_tac. Qed.
Example C80_list_ex : ducking duck /\ sane_duck W3 vb in_order g1 g2 /\ NoDup (map p_name (props W3 1)) /\
  diff3 duck g1 g2 = Ok [(Removed, [EInt 1], []); (Modified, [EStr (s2l "x")], [EStr (s2l "x")])].
Proof. split; [apply duck_ok|]. split; [apply sane_W3; [apply wf_g1|apply wf_g2]|]. split; [apply names_W3|]. vm_compute. reflexivity. Qed.
Definition g3 : V := VLC 1 [(s2l "x", t ""); (s2l "y", t "c")] [line "pen" 2; line "ink" 1].
Lemma wf_g3 : wfv W3 g3. Proof. unfold g3, line, t. wfv_tac. Qed.
Example C81_list_ex : emptying ignoring /\ sane_duck W3 vb in_order g3 g2 /\ NoDup (map p_name (props W3 1)) /\
  diff3 ignoring g3 g2 = Ok [(Removed, [EInt 1], []); (Added, [EStr (s2l "x")], [EStr (s2l "x")]); (Removed, [EStr (s2l "y")], [EStr (s2l "y")])].
Proof. split; [apply ignoring_ok|]. split; [apply sane_W3; [apply wf_g3|apply wf_g2]|]. split; [apply names_W3|]. vm_compute. reflexivity. Qed.

Definition g4 : V := VDC 4 [] [(EStr (s2l "x"), line "pen" 2)].
Lemma wf_g4 : wfv W3 g4. Proof. unfold g4, line, t. wfv_tac. intros []. Qed.
Lemma wf_g5 : wfv W3 (VDC 4 [] []). Proof. wfv_tac. Qed.
(** Why not of dicts: an item under the key "x" is reported just like the property [x]. *)
Theorem C80_dict_slot_refuted : exists a b : V, ducking duck /\ sane_duck W3 vb in_order a b /\
  seen duck (P "x" None) a = seen duck (P "x" None) b /\
  diff3 duck a b = Ok [(Removed, [EStr (s2l "x")], [])] /\
  exists a' b' : V, diff3 duck a' b' = Ok [(Removed, [EStr (s2l "x")], [EStr (s2l "x")])] /\ contents a' = contents b'.
Proof.
  exists g4, (VDC 4 [] []). split; [apply duck_ok|]. split; [apply sane_W3; [apply wf_g4|apply wf_g5]|]. split; [reflexivity|]. split; [vm_compute; reflexivity|].
  exists (VDC 4 [(s2l "x", t "a")] []), (VDC 4 [] []). split; vm_compute; reflexivity.
Qed.

Print Assumptions C80_list_slot.
Print Assumptions C81_list_slot.
Print Assumptions C80_dict_slot_refuted.
