(** Comparing objects with all options: C27 and C29.
    [wfv], [swap] (exchange ADDED and REMOVED, base and other) and [rel] are defined in DiffSwap,
    [orders_ok] in DiffProofs, [parts] in DiffTotal. *)
From Coq Require Import String List Arith NArith ZArith Bool Lia Permutation.
From Verif Require Import Prelude SelPathModel FSModel PySeq MFSModel MFSProofs MFSProps ValModel EqModel EqProofs SeqDiffModel SeqDiffProofs
  FuzzyModel DiffModel DiffProofs DiffSwap DiffTotal DiffExample.
Import ListNotations.

Section Props.
Context {A C : Type}.
Variable W : classes A C.
Variable ceqb : C -> C -> bool.
Notation val := (val A C).
Variable veqb : val -> val -> bool.
Variable hashable : val -> bool.
Variable repr : val -> str.
Variable a_hash a_falsy : A -> bool.
Variable a_items : A -> res (list (elem * val)).
Variable opt : options.
Variable record_id : rtype C -> option mfs -> val -> res val.
Notation orders := (list elem -> list elem -> dorders (A := A) (C := C)).
Notation diff_iter o := (diff_iter W ceqb veqb hashable repr a_hash a_falsy a_items opt record_id o).

(** ** C27 *)

(** Whatever the options, the values, the iteration orders of sets and the nature of
    [record_id]: if == is reflexive, comparing a value with itself reports NO_CHANGE entries
    only, these only if asked for, and each with the same path on both sides. *)
Theorem C27_only_unchanged : forall (ord : orders) n v l,
  (forall fa fb, orders_ok (ord fa fb)) -> (forall u, veqb u u = true) ->
  diff_iter ord n v v = Ok l ->
  forall e, In e l -> o_unchanged_ opt = true /\ exists path, e = (NoChange, path, path).
Proof.
  intros ord n v l Ho Hr H e I.
  destruct (diff_self W ceqb veqb hashable repr a_hash a_falsy a_items opt record_id ord Ho Hr n v [] [] l H e I) as (U&r&->).
  split; auto. exists r. reflexivity.
Qed.

Theorem C27_empty : forall (ord : orders) n v l,
  (forall fa fb, orders_ok (ord fa fb)) -> (forall u, veqb u u = true) ->
  o_unchanged_ opt = false -> diff_iter ord n v v = Ok l -> l = [].
Proof.
  intros ord n v l Ho Hr U H. destruct l as [|e l]; auto.
  destruct (C27_only_unchanged ord n v (e :: l) Ho Hr H e) as [U' _]; [now left|congruence].
Qed.

(** It does not raise, if there is no filter and no compare_as, == and [type] comparison are
    reflexive, collections have a single item type, what is in the value has a hashable
    identity where one is needed, and the value is not nested deeper than the recursion limit. *)
Theorem C27_succeeds : forall (ord : orders) n v,
  (forall fa fb, orders_ok (ord fa fb)) -> (forall u, veqb u u = true) -> (forall c, ceqb c c = true) ->
  sel_true (o_filter opt) = false ->
  (forall c p, In p (props W c) -> p_compare_as p = None) ->
  (forall c, ValModel.item W c <> ITuple) ->
  (forall coll g k u, In coll (parts v) -> generator a_items coll = Ok g -> In (k, u) g ->
     exists i, item_key W hashable repr a_hash opt coll u = Ok i) ->
  (forall c d u, ValModel.item W c = IRec d -> In u (parts v) -> class_of u <> None ->
     exists l, record_id (if o_duck opt then RClass d else RAuto) None u = Ok (VSeq true l) /\ hashable (VSeq true l) = true) ->
  vheight v < n -> wfv W v ->
  exists l, diff_iter ord n v v = Ok l.
Proof.
  intros ord n v Ho Hr Hc Hf Hn Hu Hk Hi Hh Hw. unfold DiffModel.diff_iter.
  apply (diff_total W ceqb veqb hashable repr a_hash a_falsy a_items opt record_id ord Ho Hr Hc Hf Hn Hu (fun u => In u (parts v))); auto.
  all: intros; eauto using parts_closed, parts_self.
Qed.

(** ** C29 *)

(** Which operands can be exchanged: same type, or one of them absent, or both records. *)
Theorem C29_swap : forall (ord1 ord2 : orders) n a b l,
  (forall fa fb, orders_ok (ord1 fa fb)) -> (forall fa fb, orders_ok (ord2 fa fb)) ->
  (* == is an equivalence, types are compared by identity *)
  (forall v, veqb v v = true) -> (forall u v, veqb u v = true -> veqb v u = true) ->
  (forall u v w, veqb u v = true -> veqb v w = true -> veqb u w = true) ->
  (forall c d, ceqb c d = true <-> c = d) ->
  (* dicts have distinct keys, collections of records hold records, compare_as keeps that *)
  (forall x l, a_items x = Ok l -> NoDup (map fst l) /\ forall k v, In (k, v) l -> wfv W v) ->
  keeps_wf W -> wfv W a -> wfv W b ->
  o_duck opt = false ->
  (* with fuzzy matching: equal values have equal truth, and a set with the same history is
     iterated in the same order both times *)
  (o_fuzzy opt = true -> (forall u v, veqb u v = true -> v_falsy a_falsy u = v_falsy a_falsy v) /\
     forall fa fb xs, so_fuzzy_a (ord2 fb fa) xs = so_fuzzy_b (ord1 fa fb) xs /\
                      so_fuzzy_b (ord2 fb fa) xs = so_fuzzy_a (ord1 fa fb) xs) ->
  (forall m, o_filter opt = Some m -> constructible m) ->
  rel ceqb a b ->
  diff_iter ord1 n a b = Ok l ->
  exists l', diff_iter ord2 n b a = Ok l' /\ Permutation l' (map swap l).
Proof.
  intros ord1 ord2 n a b l O1 O2 Hr Hs Ht Hc Hi Hk Wa Wb Hd Hf Hm R H. unfold DiffModel.diff_iter in *.
  eapply (diff_swap W ceqb veqb hashable repr a_hash a_falsy a_items opt record_id ord1 ord2); eauto.
  - intros m E. apply constructible_wf. auto.
  - intros m _. reflexivity.
Qed.

(** What is reported does not depend on the order in which sets are iterated, unless fuzzy
    matching is on (see C29_set_order_refuted). *)
Theorem C29_order_of_sets : forall (ord1 ord2 : orders) n a b l,
  (forall fa fb, orders_ok (ord1 fa fb)) -> (forall fa fb, orders_ok (ord2 fa fb)) ->
  (forall v, veqb v v = true) -> (forall u v, veqb u v = true -> veqb v u = true) ->
  (forall u v w, veqb u v = true -> veqb v w = true -> veqb u w = true) ->
  (forall c d, ceqb c d = true <-> c = d) ->
  (forall x l, a_items x = Ok l -> NoDup (map fst l) /\ forall k v, In (k, v) l -> wfv W v) ->
  keeps_wf W -> wfv W a -> wfv W b ->
  o_duck opt = false -> o_fuzzy opt = false ->
  (forall m, o_filter opt = Some m -> constructible m) ->
  rel ceqb a b ->
  diff_iter ord1 n a b = Ok l -> exists l', diff_iter ord2 n a b = Ok l' /\ Permutation l' l.
Proof.
  intros ord1 ord2 n a b l O1 O2 Hr Hs Ht Hc Hi Hk Wa Wb Hd Hf Hm R H.
  destruct (C29_swap ord1 ord1 n a b l) as (l1&H1&P1); auto; [congruence|].
  destruct (C29_swap ord1 ord2 n b a l1) as (l2&H2&P2); auto; [congruence| |].
  { destruct R as [X|[X|[X|[X Y]]]]; unfold rel; auto.
    right. right. left. rewrite types_sym; auto. }
  exists l2. split; auto. rewrite P2, P1, map_map.
  rewrite (map_ext _ (fun e => e)); [now rewrite map_id|]. intros e. apply swap_swap.
Qed.
End Props.

(** ** Cases *)

Definition every : options := mkOptions (fun s => s) true true false false false false None true false.


Ltac members := repeat match goal with
  | H : In _ [] |- _ => destruct H
  | H : In _ (_ :: _) |- _ => destruct H as [H|H]; [try (inversion H; subst; clear H); try subst|]
  | H : False |- _ => destruct H
  end.
Ltac wfv_tac := repeat (constructor; intros; cbn [map app] in *; members); try discriminate.

Lemma wf_o1 : wfv W2 o1.
Proof. unfold o1, order, line, t. cbn [map]. wfv_tac. Qed.
Lemma wf_o2 : wfv W2 o2.
Proof. unfold o2, order, line, t. cbn [map]. wfv_tac. Qed.

Lemma keeps_W2 : keeps_wf W2.
Proof.
  intros c p f o v I E. exfalso.
  destruct c as [|[|[|[|[|[|[|c]]]]]]]; cbn in I; repeat (destruct I as [<-|I]); try (destruct I); cbn in E; discriminate E.
Qed.

(** An order, compared with itself with all entries asked for: nine of them. *)
Example C27_case :
  (forall fa fb, orders_ok (in_order fa fb)) /\ (forall u, vb u u = true) /\
  (exists l, diff2 in_order every o1 o1 = Ok l /\ length l = 9 /\ forallb (fun e => dt_eqb (fst (fst e)) NoChange) l = true) /\
  diff2 in_order defaults o1 o1 = Ok [] /\
  (forall coll g k u, In coll (parts o1) -> generator (fun _ => Err TypeErr) coll = Ok g -> In (k, u) g ->
     exists i, item_key W2 (fun _ => true) (fun _ => s2l "?") (fun _ => true) defaults coll u = Ok i) /\
  (forall c d u, ValModel.item W2 c = IRec d -> In u (parts o1) -> class_of u <> None ->
     exists l, id2 defaults RAuto None u = Ok (VSeq true l)) /\
  vheight o1 < 9 /\ wfv W2 o1.
Proof.
  repeat split; try (apply in_order_ok).
  - intros. now apply vb_eq.
  - eexists. split; [vm_compute; reflexivity|]. split; reflexivity.
  - intros coll g k u _ _ _. unfold item_key. destruct (is_nothing _ && _); eauto.
  - intros c d u _ I Hc. vm_compute in I.
    repeat (destruct I as [<-|I]; [try (exfalso; apply Hc; reflexivity); eexists; vm_compute; reflexivity|]). destruct I.
  - vm_compute. lia.
  - apply wf_o1.
Qed.

(** A value which is not equal to itself (NaN) in a slot is reported as MODIFIED. *)
Definition nan_eq (x y : V) : bool := match x with VAtom 0 => false | _ => vb x y end.
Definition diff_nan opt x y := diff_iter W2 Nat.eqb nan_eq (fun _ => true) (fun _ => s2l "?") (fun _ => true) (Nat.eqb 0)
  (fun _ => Err TypeErr) opt (id2 opt) in_order 9 x y.
Theorem C27_nan_refuted : exists v l, diff_nan defaults v v = Ok l /\ l <> [].
Proof.
  exists (VRec 3 [(s2l "x", VAtom 0)]). eexists. split; [vm_compute; reflexivity|discriminate].
Qed.

(** Two orders compared both ways, with the default options and with all entries. *)
Lemma falsy_vb (u v : V) : vb u v = true -> v_falsy (Nat.eqb 0) u = v_falsy (Nat.eqb 0) v.
Proof. intros H. apply vb_eq in H. now subst. Qed.

Lemma o1_o2 l : diff2 in_order defaults o1 o2 = Ok l ->
  exists l', diff2 in_order defaults o2 o1 = Ok l' /\ Permutation l' (map swap l).
Proof.
  apply C29_swap; try apply in_order_ok; try apply keeps_W2; try apply wf_o1; try apply wf_o2; try reflexivity.
  - intros v. now apply vb_eq.
  - intros u v H. apply vb_eq in H. now apply vb_eq.
  - intros u v w H1 H2. apply vb_eq in H1, H2. apply vb_eq. congruence.
  - intros c d. apply Nat.eqb_eq.
  - discriminate.
  - intros _. split; [apply falsy_vb|split; reflexivity].
  - discriminate.
  - right. right. now left.
Qed.

Example C29_case :
  (forall fa fb xs, so_fuzzy_a (in_order fb fa) xs = so_fuzzy_b (in_order fa fb) xs /\
                    so_fuzzy_b (in_order fb fa) xs = so_fuzzy_a (in_order fa fb) xs) /\
  keeps_wf W2 /\ wfv W2 o1 /\ wfv W2 o2 /\ rel Nat.eqb o1 o2 /\
  (exists l l', diff2 in_order defaults o1 o2 = Ok l /\ diff2 in_order defaults o2 o1 = Ok l' /\
     length l = 5 /\ l' <> map swap l /\ Permutation l' (map swap l)) /\
  (exists l, diff2 in_order every o1 o2 = Ok l /\ length l = 12).
Proof.
  split; [intros; split; reflexivity|]. split; [apply keeps_W2|]. split; [apply wf_o1|]. split; [apply wf_o2|].
  split; [right; right; now left|]. split.
  - eexists. eexists. split; [vm_compute; reflexivity|]. split; [vm_compute; reflexivity|]. split; [reflexivity|].
    split; [vm_compute; discriminate|].
    destruct (o1_o2 _ (eq_refl (diff2 in_order defaults o1 o2))) as (l'&E&P). vm_compute in E. inversion E; subst. exact P.
  - eexists. split; [vm_compute; reflexivity|reflexivity].
Qed.

(** With duck typing the properties are those of the base. *)
Theorem C29_duck_refuted : exists opt x y l l', o_duck opt = true /\
  diff2 in_order opt x y = Ok l /\ diff2 in_order opt y x = Ok l' /\ ~ Permutation l' (map swap l).
Proof.
  exists (mkOptions (fun s => s) false false false false true false None true false), (line "ink" 1), (VRec 3 [(s2l "x", VAtom 1)]).
  eexists. eexists. split; [reflexivity|]. split; [vm_compute; reflexivity|]. split; [vm_compute; reflexivity|].
  intros P. apply Permutation_length in P. discriminate.
Qed.

(** Ties in fuzzy matching are broken by the iteration order of sets: what is reported, for
    the same operands, depends on it.  (The order depends on hashes, so for text on the
    process.) *)
Definition tie1 : V := VLC 1 [] [line "pen" 1].
Definition tie2 : V := VLC 1 [] [line "pen" 2; line "pen" 3].
Theorem C29_set_order_refuted : exists ord1 ord2 x y l l',
  (forall fa fb, orders_ok (ord1 fa fb)) /\ (forall fa fb, orders_ok (ord2 fa fb)) /\
  diff2 ord1 defaults x y = Ok l /\ diff2 ord2 defaults x y = Ok l' /\ ~ Permutation l' l.
Proof.
  exists in_order, backwards, tie1, tie2. eexists. eexists. split; [apply in_order_ok|]. split; [apply backwards_ok|].
  split; [vm_compute; reflexivity|]. split; [vm_compute; reflexivity|].
  intros P.
  match type of P with Permutation (?x :: _) _ => assert (I := Permutation_in x P (or_introl eq_refl)) end.
  vm_compute in I. repeat (destruct I as [I|I]; [discriminate I|]). destruct I.
Qed.
Theorem C29_swap_set_order_refuted : exists ord1 ord2 x y l l',
  (forall fa fb, orders_ok (ord1 fa fb)) /\ (forall fa fb, orders_ok (ord2 fa fb)) /\
  diff2 ord1 defaults x y = Ok l /\ diff2 ord2 defaults y x = Ok l' /\ ~ Permutation l' (map swap l).
Proof.
  exists in_order, backwards, tie1, tie2. eexists. eexists. split; [apply in_order_ok|]. split; [apply backwards_ok|].
  split; [vm_compute; reflexivity|]. split; [vm_compute; reflexivity|].
  intros P.
  match type of P with Permutation (?x :: _) _ => assert (I := Permutation_in x P (or_introl eq_refl)) end.
  vm_compute in I. repeat (destruct I as [I|I]; [discriminate I|]). destruct I.
Qed.

(** Without fuzzy matching it does not. *)
Example C29_order_case :
  let opt := mkOptions (fun s => s) true true false false false false None false false in
  exists l l', diff2 in_order opt o1 o2 = Ok l /\ diff2 backwards opt o1 o2 = Ok l' /\ l <> l' /\ length l = 11 /\ length l' = 11.
Proof.
  eexists. eexists. split; [vm_compute; reflexivity|]. split; [vm_compute; reflexivity|]. split; [vm_compute; discriminate|split; reflexivity].
Qed.

(** The filter [lines[*].sku] : the change of a quantity is not reported, either way. *)
Definition sku_only : options := mkOptions (fun s => s) false false false false false false
  (Some (Node [(EStr (s2l "lines"), Some (Node [(ENone, Some (Node [(EStr (s2l "sku"), None)]))]))])) true false.
Example C29_filter_case : (forall m, o_filter sku_only = Some m -> constructible m) /\
  exists p q, diff2 in_order sku_only o1 o2 = Ok [(Added, p, q)] /\ diff2 in_order sku_only o2 o1 = Ok [(Removed, q, p)].
Proof.
  split.
  - intros m E. inversion E; subst. eapply (constructed (fun l => l) [AFS [EStr (s2l "lines"); ENone; EStr (s2l "sku")]]).
    + intros l. apply Permutation_refl.
    + intros m' [H|[]]. discriminate.
    + reflexivity.
  - eexists. eexists. split; vm_compute; reflexivity.
Qed.

Print Assumptions C27_only_unchanged.
Print Assumptions C27_empty.
Print Assumptions C27_succeeds.
Print Assumptions C29_swap.
Print Assumptions C29_order_of_sets.
Print Assumptions C27_nan_refuted.
Print Assumptions C29_duck_refuted.
Print Assumptions C29_set_order_refuted.
Print Assumptions C29_swap_set_order_refuted.
