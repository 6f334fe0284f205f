(** C65: looking at records does not change what they are. *)
From Coq Require Import String List Bool Arith Lia.
From Verif Require Import Prelude LookModel LookSpec LookProofs.
Import ListNotations.
Local Open Scope list_scope.

Section Props.
Variable class_of : nat -> nat.
Variable lazy : nat -> str -> option (nat -> prog value).
Variable convert : nat -> str -> value -> res value.
Notation look := (look class_of lazy convert).
Notation meaning := (meaning class_of lazy convert).
Notation looked_at := (looked_at class_of lazy convert).

(** Whatever looks at objects, however often and at whichever: only empty slots of lazy properties are
    filled, with what the property is when nothing is remembered. *)
Theorem C65_changes s s' : looked_at s s' -> only_filled class_of lazy convert s s'.
Proof. apply looked_filled. Qed.

(** Whatever has been looked at before, an answer is that of computing defaults anew each time. *)
Theorem C65_uncached A (p : prog A) s s' r : looked_at s s' ->
  ((exists f s2, look f p s' = Some (r, s2)) <-> (exists f, answer (meaning f s) p = Some r)).
Proof.
  intros H. apply looked_filled in H. split.
  - intros (f & s2 & R).
    apply (run_answer class_of lazy convert A _ s p (get_meaning class_of lazy convert f s) s' r s2 H R).
  - intros (f & M). exists f.
    destruct (answer_run class_of lazy convert A (get class_of lazy convert f) f s p
                (meaning_get class_of lazy convert f s) s' r H M) as (s2 & R & _).
    exists s2. exact R.
Qed.

(** So answers are the same before and after any looking: the same exception, if one is raised. *)
Theorem C65_same A (p : prog A) s s' r : looked_at s s' ->
  ((exists f s2, look f p s' = Some (r, s2)) <-> (exists f s2, look f p s = Some (r, s2))).
Proof.
  intros H. rewrite (C65_uncached A p s s' r H), (C65_uncached A p s s r (Not_yet _ _ _ s)). reflexivity.
Qed.
Theorem C65_one_answer A (p : prog A) s s1 s2 f1 f2 r1 r2 t1 t2 : looked_at s s1 -> looked_at s s2 ->
  look f1 p s1 = Some (r1, t1) -> look f2 p s2 = Some (r2, t2) -> r1 = r2.
Proof.
  intros H1 H2 R1 R2.
  destruct (proj1 (C65_uncached A p s s1 r1 H1) (ex_intro _ f1 (ex_intro _ t1 R1))) as (g1 & M1).
  destruct (proj1 (C65_uncached A p s s2 r2 H2) (ex_intro _ f2 (ex_intro _ t2 R2))) as (g2 & M2).
  assert (L1 : g1 <= max g1 g2) by lia. assert (L2 : g2 <= max g1 g2) by lia.
  apply (answer_mono A _ (meaning (max g1 g2) s)) in M1;
    [|intros o n r Q; apply (meaning_mono class_of lazy convert g1 _ s o n r L1 Q)].
  apply (answer_mono A _ (meaning (max g1 g2) s)) in M2;
    [|intros o n r Q; apply (meaning_mono class_of lazy convert g2 _ s o n r L2 Q)].
  congruence.
Qed.

(** In particular ==, hash (by the identity of a record) and the output of a visit. *)
Theorem C65_library props key depth a b s s' : looked_at s s' ->
  (forall r, (exists f s2, look f (record_eq class_of props depth a b) s' = Some (r, s2))
             <-> (exists f s2, look f (record_eq class_of props depth a b) s = Some (r, s2)))
  /\ (forall r, (exists f s2, look f (record_id class_of key depth a) s' = Some (r, s2))
             <-> (exists f s2, look f (record_id class_of key depth a) s = Some (r, s2)))
  /\ (forall r, (exists f s2, look f (output class_of props depth a) s' = Some (r, s2))
             <-> (exists f s2, look f (output class_of props depth a) s = Some (r, s2))).
Proof.
  intros H. repeat split; intros X; apply (C65_same _ _ s s' _ H); exact X.
Qed.
End Props.

(** ** Examples and findings *)
Section Examples.
Local Open Scope string_scope.
Let x := s2l "x".
Let y := s2l "y".
Let z := s2l "z".
(** x is plain; y is lazy, x plus one, and fails with AttributeError if x is not set; z is lazy, twice
    y, or nought if that fails. *)
Let class_of (o : nat) := 0.
Let lazy (c : nat) (n : str) : option (nat -> prog value) :=
  if str_eqb n y then
    Some (fun o => Read o x (fun r => match r with
                                      | Ok (Atom i) => Return (Atom (S i))
                                      | Ok v => Return v
                                      | Err e => Throw e end))
  else if str_eqb n z then
    Some (fun o => Read o y (fun r => match r with
                                      | Ok (Atom i) => Return (Atom (i + i))
                                      | Ok v => Return v
                                      | Err e => Return (Atom 0) end))
  else None.
Let convert (c : nat) (n : str) (v : value) : res value := Ok v.
Let props (c : nat) := [(x, false); (y, false); (z, false)].
Let key (c : nat) := [x; z].
(** two records with x = 3, one without *)
Let s0 : state := fun o n => if Nat.ltb o 2 && str_eqb n x then Some (Atom 3) else None.
Notation look := (look class_of lazy convert).

(** After ==, y and z of both are filled; the answer is the same again, and so is the identity. *)
Example C65_case :
  exists s1 s2 s3 s4,
    look 5 (record_eq class_of props 2 0 1) s0 = Some (Ok true, s1)
    /\ s1 0 z = Some (Atom 8) /\ s1 1 y = Some (Atom 4) /\ s1 2 y = None
    /\ look 5 (record_eq class_of props 2 0 1) s1 = Some (Ok true, s2)
    /\ look 5 (record_id class_of key 2 0) s0 = Some (Ok (IdTuple [IdAtom 3; IdAtom 8]), s3)
    /\ look 5 (record_id class_of key 2 0) s1 = Some (Ok (IdTuple [IdAtom 3; IdAtom 8]), s4).
Proof. do 4 eexists. repeat split; reflexivity. Qed.
(** The default of y fails for object 2 and is not remembered; z is. *)
Example C65_case_failing :
  exists s1,
    look 5 (output class_of props 2 2) s0 = Some (Ok (Tree [(z, Leaf 0)]), s1)
    /\ s1 2 y = None /\ s1 2 z = Some (Atom 0).
Proof. eexists. repeat split; reflexivity. Qed.
Example C65_case_used : forall s1 r s2,
  look 5 (record_eq class_of props 2 0 1) s0 = Some (r, s1) ->
  look 9 (record_eq class_of props 2 0 1) s1 = Some (Ok false, s2) -> False.
Proof.
  intros s1 r s2 H J.
  assert (L : looked_at class_of lazy convert s0 s1) by (exact (Looked _ _ _ _ _ 5 _ _ _ _ (Not_yet _ _ _ s0) H)).
  pose proof (C65_one_answer class_of lazy convert _ _ s0 s1 s0 9 5 (Ok false) (Ok true) s2 _
                L (Not_yet _ _ _ s0) J eq_refl). discriminate.
Qed.

(** Finding: repr is not among them: it shows what has been computed, so that it changes by looking
    (by comparing with ==, say), and equal records have different reprs. *)
Theorem C65_repr_refuted : exists class_of lazy convert props s s1 s2 s3 v a b f,
  LookModel.look class_of lazy convert f (record_eq class_of props 2 a b) s = Some (Ok true, s1)
  /\ shown class_of props s1 a <> shown class_of props s a
  /\ LookModel.look class_of lazy convert f (Read a y (fun _ => Return tt)) s = Some (v, s2)
  /\ LookModel.look class_of lazy convert f (record_eq class_of props 2 a b) s2 = Some (Ok true, s3)
  /\ shown class_of props s2 a <> shown class_of props s2 b.
Proof.
  exists class_of, lazy, convert, props, s0. do 4 eexists. exists 0, 1, 5.
  split; [reflexivity|]. split; [cbn; discriminate|]. split; [reflexivity|]. split; [reflexivity|].
  cbn. discriminate.
Qed.

(** Finding: what was computed stays when what it was computed from is assigned: whether a record has
    been looked at before an assignment (compared, or put into a set) decides what it is after it. *)
Theorem C65_stale_refuted : exists class_of lazy convert props s s' f a b v,
  LookModel.look class_of lazy convert f (record_eq class_of props 2 a b) s = Some (Ok true, s')
  /\ option_map fst (LookModel.look class_of lazy convert f (record_eq class_of props 2 a b)
                       (store (store s a x v) b x v)) = Some (Ok true)
  /\ option_map fst (LookModel.look class_of lazy convert f (record_id class_of key 2 a) (store s a x v))
     <> option_map fst (LookModel.look class_of lazy convert f (record_id class_of key 2 a) (store s' a x v)).
Proof.
  exists class_of, lazy, convert, props, s0. eexists. exists 5, 0, 1, (Atom 5).
  split; [reflexivity|]. split; [reflexivity|]. cbn. discriminate.
Qed.
End Examples.

Print Assumptions C65_changes.
Print Assumptions C65_uncached.
Print Assumptions C65_same.
Print Assumptions C65_one_answer.
Print Assumptions C65_library.
Print Assumptions C65_repr_refuted.
Print Assumptions C65_stale_refuted.
