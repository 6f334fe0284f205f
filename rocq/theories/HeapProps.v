(** C57: field selectors on shared and cyclic objects. *)
From Coq Require Import String List Arith NArith ZArith Bool Lia.
From Verif Require Import Prelude SelPathModel FSModel PySeq HeapModel HeapSpec HeapProofs.
Import ListNotations.
Local Open Scope list_scope.

Section Props.
Context {A C : Type}.
Notation val := (val A).
Notation cell := (cell A C).
Notation heap := (heap A C).
Variable a_none : A.
Variable a_key : elem -> A.
Variable a_str : A -> bool.
Variable a_indexable : A -> bool.
Variable a_item : A -> elem -> res A.
Variable a_attr : A -> str -> option A.
Variable a_iter : A -> res (list A).
Variable unset : C -> str -> option A.
Variable store : heap -> C -> str -> val -> res (list cell * val).
Variable istore : heap -> C -> val -> res (list cell * val).
Variable erase : C -> str -> bool -> option exn.
Variable fuel : nat.
Notation leads := (leads a_str a_indexable a_item a_attr unset).
Notation get := (get a_none a_key a_str a_indexable a_item a_attr a_iter unset).
Notation put := (put a_key a_str a_indexable a_item a_attr a_iter unset store istore fuel).
Notation delete := (delete a_key a_str a_indexable a_item a_attr a_iter unset erase fuel).
Implicit Types (h : heap) (v w o u : val) (s : elem) (p : list elem) (c : cell).

(** [get] gives the very object the path leads to, not a copy. *)
Theorem C57_get_object h o p w : ~ In ENone p ->
  ((exists h', get p o h = (Ok w, h')) <-> exists tr, leads h o p tr w).
Proof.
  intros N. split.
  - intros (h' & H). apply (get_leads _ _ _ _ _ _ _ _ p N _ _ _ _ H).
  - intros (tr & L). exists h. eapply leads_get; eauto.
Qed.

(** With wildcards too, [get] changes no object; it only makes new lists. *)
Theorem C57_get_changes_nothing h o p r h' : get p o h = (r, h') ->
  kept h h' /\ (~ In ENone p -> h' = h).
Proof.
  intros H. split.
  - pose proof (get_kept a_none a_key a_str a_indexable a_item a_attr a_iter unset p o h) as K. now rewrite H in K.
  - intros N. destruct r as [w|e].
    + apply (get_leads _ _ _ _ _ _ _ _ p N _ _ _ _ H).
    + revert o H. induction p as [|s p IH]; intros o H; [discriminate|].
      assert (G : get (s :: p) o h = match step a_str a_indexable a_item a_attr unset h o s with Ok x => get p x h | Err e => (Err e, h) end)
        by (destruct s; [reflexivity|reflexivity|exfalso; apply N; now left]).
      rewrite G in H. destruct (step _ _ _ _ _ h o s) as [x|e']; [|congruence].
      apply (IH (fun I => N (or_intror I)) x H).
Qed.

(** [put] changes one place of one object: where the path, its last selector left off, leads to.  All
    paths from anywhere that do not pass this place lead where they led; all paths that lead to this
    object without passing the place see the value stored there. *)
Theorem C57_put h o p s v h' : ~ In ENone (p ++ [s]) -> put (p ++ [s]) v o h = (None, h') ->
  exists tr n c k v' c', leads h o p tr (VR n) /\ nth_error h n = Some c /\ means c s k /\
    (match c with
     | HRec cl _ => exists m new, s = EStr m /\ store h cl m v = Ok (new, v')
     | HList (Some cl) _ | HDict (Some cl) _ => exists new, istore h cl v = Ok (new, v')
     | _ => v' = v
     end) /\
    put_at c k v' c' /\ changed h n c' h' /\
    (forall r q tq u, leads h r q tq u -> ~ In (n, k) tq -> leads h' r q tq u) /\
    (forall r q tq t, leads h r q tq (VR n) -> ~ In (n, k) tq -> means c t k ->
       leads h' r (q ++ [t]) (tq ++ [(n, k)]) v').
Proof.
  intros N H.
  destruct (put_ok a_none _ _ _ _ _ _ _ _ _ _ p s v N _ _ _ H) as (tr & n & c & k & v' & new & c' & L & En & M & St & P & ->).
  exists tr, n, c, k, v', c'. split; auto. split; auto. split; auto.
  pose proof (changed_upd h new n c' (nth_len _ _ _ En)) as Ch.
  assert (Fr : forall r q tq u, leads h r q tq u -> ~ In (n, k) tq -> leads (upd (h ++ new) n c') r q tq u).
  { intros r q tq u. eapply leads_changed; eauto. intros m d. apply nth_len. }
  split.
  { destruct c as [cl sl|[cl|] xs|[cl|] kvs]; cbn [coll_store] in St; eauto; try congruence.
    destruct St as (m & -> & St). eauto. }
  split; auto. split; auto. split; auto.
  intros r q tq t Lq NI Mt. apply leads_app. exists (VR n), tq, [(n, k)]. split; [now apply Fr|]. split; auto.
  destruct Ch as (_ & _ & En' & _). destruct P as (SS & AT & _).
  eapply leads_place; eauto. eapply means_same; eauto.
Qed.

(** If it raises, no object was changed. *)
Theorem C57_put_raised h o p s v e h' : ~ In ENone p -> put (p ++ [s]) v o h = (Some e, h') -> kept h h'.
Proof. intros N. apply put_err; auto. Qed.

(** What was put is what is got, as long as the object changed is not reached from itself. *)
Theorem C57_put_get h o p s v h' : ~ In ENone (p ++ [s]) -> put (p ++ [s]) v o h = (None, h') ->
  (forall tr n q tq, leads h o p tr (VR n) -> leads h (VR n) q tq (VR n) -> q = []) ->
  exists v', get (p ++ [s]) o h' = (Ok v', h') /\
    ((forall hh cl m, store hh cl m v = Ok ([], v)) -> (forall hh cl, istore hh cl v = Ok ([], v)) -> v' = v).
Proof.
  intros N H Ac. destruct (C57_put _ _ _ _ _ _ N H) as (tr & n & c & k & v' & c' & L & En & M & St & P & Ch & Fr & Seen).
  exists v'. split.
  - eapply leads_get. apply (Seen o p tr s L); auto.
    intros I. destruct (passed_circle _ _ _ _ _ _ _ _ _ _ _ _ L I) as (q & tq & Lq & Nq). apply Nq. eapply Ac; eauto.
  - intros H1 H2. destruct c as [cl sl|[cl|] xs|[cl|] kvs]; auto.
    + destruct St as (m & new & -> & St). rewrite H1 in St. congruence.
    + destruct St as (new & St). rewrite H2 in St. congruence.
    + destruct St as (new & St). rewrite H2 in St. congruence.
Qed.

(** [delete] removes one place of one object, or finds the attribute missing; if it raises, nothing is
    changed. *)
Theorem C57_delete h o p s h' : ~ In ENone (p ++ [s]) -> (forall n c, nth_error h n = Some c -> distinct c) ->
  delete (p ++ [s]) o h = (None, h') ->
  exists tr w, leads h o p tr w /\
  ((h' = h /\ forall tq u, ~ leads h w [s] tq u) \/
   exists n c k c', w = VR n /\ nth_error h n = Some c /\ means c s k /\ removed c k c' /\ changed h n c' h' /\
     forall r q tq u, leads h r q tq u ->
       (forall k1, In (n, k1) tq -> match c with HList _ _ => False | _ => k1 <> k end) -> leads h' r q tq u).
Proof.
  intros N D H. destruct (delete_ok _ _ _ _ _ _ _ _ _ p s N _ _ _ D H) as (tr & w & L & [R|R]); exists tr, w; split; auto.
  right. destruct R as (n & c & k & c' & -> & En & M & R & ->). exists n, c, k, c'.
  split; auto. split; auto. split; auto. split; auto. split; [apply changed_upd0; eapply nth_len; eauto|].
  intros r q tq u Lq NI. eapply leads_removed; eauto.
Qed.
Theorem C57_delete_raised h o p s e h' : ~ In ENone p -> delete (p ++ [s]) o h = (Some e, h') -> h' = h.
Proof. intros N. apply delete_err; auto. Qed.

(** [put] with a wildcard stores one and the same value in all items: they share it afterwards. *)
Theorem C57_put_all_share h n0 cl (xs : list val) (m : str) v :
  nth_error h n0 = Some (HList cl xs) -> (length xs < fuel)%nat ->
  (forall hh (c : C), store hh c m v = Ok ([], v)) ->
  (forall x, In x xs -> exists n (c : C) sl, x = VR n /\ nth_error h n = Some (HRec c sl)) ->
  exists h', put [ENone; EStr m] v (VR n0) h = (None, h') /\ length h' = length h /\
    (forall x, In x xs -> get [EStr m] x h' = (Ok v, h')) /\
    (forall n, ~ In (VR n) xs -> nth_error h' n = nth_error h n) /\
    (forall n (c : C) sl, In (VR n) xs -> nth_error h n = Some (HRec c sl) -> exists sl',
       nth_error h' n = Some (HRec c sl') /\ forall m' w, m' <> m -> (binds sl' m' w <-> binds sl m' w)).
Proof.
  intros En Lf St R.
  destruct (put_each_attr a_key a_str a_indexable a_item a_attr a_iter unset store istore fuel m v n0 cl xs St fuel 0 h En R) as (h' & E & Len & Done & Fr); [lia|].
  cbn [skipn] in Done, Fr. exists h'. split.
  { cbn [HeapModel.put]. unfold for_each. rewrite En. exact E. }
  split; auto. split; [|split; auto].
  - intros x Ix. destruct (R x Ix) as (n & c & sl & -> & Enx). destruct (Done n c sl Ix Enx) as (sl' & E' & B & _).
    eapply leads_get. eapply leads_place; eauto; constructor; auto.
  - intros n c sl I E1. destruct (Done n c sl I E1) as (sl' & E' & _ & Q). eauto.
Qed.
End Props.

(** ** Examples: one class; the attribute "size" of records is checked to be no reference *)
Module Ex.
Definition A := nat. Definition C := unit.
Definition store (h : heap A C) (c : C) (m : str) (v : val A) : res (list (cell A C) * val A) := Ok ([], v).
Definition istore (h : heap A C) (c : C) (v : val A) : res (list (cell A C) * val A) := Ok ([], v).
Definition get (p : list elem) (o : val A) (h : heap A C) :=
  HeapModel.get 0 (fun _ => 0) (fun _ => false) (fun _ => false) (fun _ _ => Err TypeErr) (fun _ _ => None)
    (fun _ => Err TypeErr) (fun _ _ => None) p o h.
Definition put (p : list elem) (v o : val A) (h : heap A C) :=
  HeapModel.put (fun _ => 0) (fun _ => false) (fun _ => false) (fun _ _ => Err TypeErr) (fun _ _ => None)
    (fun _ => Err TypeErr) (fun _ _ => None) store istore 10 p v o h.
Definition delete (p : list elem) (o : val A) (h : heap A C) :=
  HeapModel.delete (fun _ => 0) (fun _ => false) (fun _ => false) (fun _ _ => Err TypeErr) (fun _ _ => None)
    (fun _ => Err TypeErr) (fun _ _ => None) (fun _ _ _ => None) 10 p o h.
Definition a := s2l "a". Definition b := s2l "b". Definition l := s2l "l".
(** 0: a record with [a] and [b] both the record 1 and a list 2 of records 1 and 3 *)
Definition h : heap A C :=
  [HRec tt [(a, VR 1); (b, VR 1); (l, VR 2)]; HRec tt [(a, VA 5)]; HList None [VR 1; VR 3]; HRec tt []].
(** a record that is its own attribute *)
Definition circle : heap A C := [HRec tt [(a, VR 0)]; HRec tt [(a, VA 9)]].
End Ex.

(** changed through one path, seen through the others *)
Example C57_case : exists h', Ex.put [EStr Ex.a; EStr Ex.a] (VA 6) (VR 0) Ex.h = (None, h') /\
  fst (Ex.get [EStr Ex.b; EStr Ex.a] (VR 0) h') = Ok (VA 6) /\
  fst (Ex.get [EStr Ex.l; EInt (-2); EStr Ex.a] (VR 0) h') = Ok (VA 6) /\
  fst (Ex.get [EStr Ex.l; EInt 1] (VR 0) h') = Ok (VR 3) /\
  (forall n, n <> 1 -> nth_error h' n = nth_error Ex.h n).
Proof.
  eexists. split; [vm_compute; reflexivity|]. repeat split; try (vm_compute; reflexivity).
  intros [|[|[|[|n]]]] N; try reflexivity. congruence.
Qed.
Example C57_case_delete : exists h', Ex.delete [EStr Ex.l; EInt 0] (VR 0) Ex.h = (None, h') /\
  nth_error h' 2 = Some (HList None [VR 3]) /\ fst (Ex.get [EStr Ex.l; EInt 0] (VR 0) h') = Ok (VR 3) /\
  forall n c, nth_error Ex.h n = Some c -> distinct c.
Proof.
  eexists. split; [vm_compute; reflexivity|]. repeat split; try (vm_compute; reflexivity).
  intros [|[|[|[|[|n]]]]] c H; inversion H; subst; cbn; try exact I; repeat (constructor; [cbn; intuition discriminate|]); constructor.
Qed.
(** all items share what a wildcard put: changing it through one changes it for the other *)
Example C57_case_share : exists h1 h2,
  Ex.put [EStr Ex.l; ENone; EStr Ex.b] (VR 2) (VR 0) Ex.h = (None, h1) /\
  fst (Ex.get [EStr Ex.l; EInt 0; EStr Ex.b] (VR 0) h1) = Ok (VR 2) /\
  fst (Ex.get [EStr Ex.l; EInt 1; EStr Ex.b] (VR 0) h1) = Ok (VR 2) /\
  Ex.put [EStr Ex.b; EInt 0] (VA 4) (VR 3) h1 = (None, h2) /\
  fst (Ex.get [EStr Ex.b; EInt 0] (VR 1) h2) = Ok (VA 4).
Proof. do 2 eexists. repeat split; vm_compute; reflexivity. Qed.

(** On a circle what was put need not be what is got: the path leads somewhere else now. *)
Theorem C57_put_get_refuted : exists h h' o p v w,
  Ex.put p v o h = (None, h') /\ Ex.get p o h' = (Ok w, h') /\ w <> v.
Proof.
  exists Ex.circle. eexists. exists (VR 0), [EStr Ex.a; EStr Ex.a], (VR 1), (VA 9).
  split; [vm_compute; reflexivity|]. split; [vm_compute; reflexivity|discriminate].
Qed.

Print Assumptions C57_get_object.
Print Assumptions C57_get_changes_nothing.
Print Assumptions C57_put.
Print Assumptions C57_put_raised.
Print Assumptions C57_put_get.
Print Assumptions C57_delete.
Print Assumptions C57_delete_raised.
Print Assumptions C57_put_all_share.
Print Assumptions C57_put_get_refuted.
