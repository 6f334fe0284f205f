(** Proofs for C65. *)
From Coq Require Import List Bool Arith Lia.
From Verif Require Import Prelude LookModel LookSpec.
Import ListNotations.
Local Open Scope list_scope.

Section Proofs.
Variable class_of : nat -> nat.
Variable lazy : nat -> str -> option (nat -> prog value).
Variable convert : nat -> str -> value -> res value.
Notation get := (get class_of lazy convert).
Notation meaning := (meaning class_of lazy convert).
Notation only_filled := (only_filled class_of lazy convert).

(** More fuel, same answer. *)
Lemma answer_mono A (r1 r2 : nat -> str -> option (res value)) (p : prog A) x :
  (forall o n r, r1 o n = Some r -> r2 o n = Some r) ->
  answer r1 p = Some x -> answer r2 p = Some x.
Proof.
  intros H. induction p as [a|e|o n k IH]; cbn; auto.
  destruct (r1 o n) as [r|] eqn:E; [|discriminate]. rewrite (H _ _ _ E). apply IH.
Qed.
Lemma meaning_S f s : forall o n r, meaning f s o n = Some r -> meaning (S f) s o n = Some r.
Proof.
  induction f as [|f IH]; intros o n r; [discriminate|].
  intros H. change (meaning (S (S f)) s o n) with
    (match s o n, lazy (class_of o) n with
     | Some v, _ => Some (Ok v)
     | None, None => Some (Err AttrErr)
     | None, Some d => match answer (meaning (S f) s) (d o) with
                       | Some (Ok v) => Some (convert (class_of o) n v)
                       | Some (Err e) => Some (Err e)
                       | None => None end
     end). cbn in H.
  destruct (s o n); [exact H|]. destruct (lazy (class_of o) n) as [d|]; [|exact H].
  destruct (answer (meaning f s) (d o)) as [x|] eqn:E; [|discriminate].
  rewrite (answer_mono _ _ _ (d o) x IH E). exact H.
Qed.
Lemma meaning_mono f g s o n r : f <= g -> meaning f s o n = Some r -> meaning g s o n = Some r.
Proof. intros L H. induction L; auto. apply meaning_S. auto. Qed.

Lemma meaning_unique f g s o n r q : meaning f s o n = Some r -> meaning g s o n = Some q -> r = q.
Proof.
  intros H J. apply (meaning_mono f (max f g)) in H; [|lia]. apply (meaning_mono g (max f g)) in J; [|lia].
  congruence.
Qed.

Lemma filled_refl s : only_filled s s.
Proof. intros o n. auto. Qed.

Lemma filled_store s s' o n v f : only_filled s s' -> s o n = None -> lazy (class_of o) n <> None ->
  meaning f s o n = Some (Ok v) -> only_filled s (store s' o n v).
Proof.
  intros H N L M o' n'. unfold store. destruct (Nat.eqb o' o && str_eqb n' n) eqn:E.
  - apply andb_true_iff in E. destruct E as [E1 E2]. apply Nat.eqb_eq in E1. apply str_eqb_eq in E2. subst.
    right. eauto 6.
  - apply H.
Qed.

(** Remembering gives the answers of not remembering. *)
Lemma run_answer A g s (p : prog A) :
  (forall s1 o n r s2, only_filled s s1 -> g s1 o n = Some (r, s2) ->
     only_filled s s2 /\ exists f, meaning f s o n = Some r) ->
  forall s1 r s2, only_filled s s1 -> run g p s1 = Some (r, s2) ->
    only_filled s s2 /\ exists f, answer (meaning f s) p = Some r.
Proof.
  intros G. induction p as [a|e|o n k IH]; cbn; intros s1 r s2 F H.
  - injection H as <- <-. split; [auto|]. exists 0. reflexivity.
  - injection H as <- <-. split; [auto|]. exists 0. reflexivity.
  - destruct (g s1 o n) as [[x s3]|] eqn:E; [|discriminate].
    destruct (G _ _ _ _ _ F E) as (F3 & f & M).
    destruct (IH x s3 r s2 F3 H) as (F2 & f' & M').
    split; [auto|]. exists (max f f').
    rewrite (meaning_mono f (max f f') s o n x (Nat.le_max_l _ _) M).
    apply (answer_mono _ (meaning f' s)); [|exact M'].
    intros o' n' r' Q. apply (meaning_mono f'); [apply Nat.le_max_r|exact Q].
Qed.

Lemma get_meaning k s : forall s1 o n r s2, only_filled s s1 -> get k s1 o n = Some (r, s2) ->
  only_filled s s2 /\ exists f, meaning f s o n = Some r.
Proof.
  induction k as [|k IH]; intros s1 o n r s2 F H; [discriminate|]. cbn in H.
  destruct (s1 o n) as [v|] eqn:E.
  - injection H as <- <-. split; [auto|]. destruct (F o n) as [Q|(Q & L & w & f & Q2 & M)].
    + exists 1. cbn. rewrite <- Q, E. reflexivity.
    + exists f. rewrite Q2 in E. injection E as ->. exact M.
  - assert (N : s o n = None).
    { destruct (F o n) as [Q|(Q & _)]; [congruence|exact Q]. }
    destruct (lazy (class_of o) n) as [d|] eqn:L.
    + destruct (run (get k) (d o) s1) as [[x s3]|] eqn:R; [|discriminate].
      destruct (run_answer _ (get k) s (d o) IH s1 x s3 F R) as (F3 & f & M).
      assert (MM : forall y, match x with Ok v => Some (convert (class_of o) n v) | Err e => Some (Err e) end
                             = Some y -> meaning (S f) s o n = Some y).
      { intros y Y. cbn. rewrite N, L, M. exact Y. }
      destruct x as [v|e].
      * destruct (convert (class_of o) n v) as [v'|e] eqn:C.
        -- injection H as <- <-.
           assert (M2 : meaning (S f) s o n = Some (Ok v')) by (apply MM; rewrite ?C; reflexivity).
           split; [|exists (S f); exact M2].
           apply (filled_store s s3 o n v' (S f)); auto. rewrite L. discriminate.
        -- injection H as <- <-. split; [auto|]. exists (S f). apply MM. rewrite ?C. reflexivity.
      * injection H as <- <-. split; [auto|]. exists (S f). apply MM. reflexivity.
    + injection H as <- <-. split; [auto|]. exists 1. cbn. rewrite N, L. reflexivity.
Qed.

Lemma answer_run A g f s (p : prog A) :
  (forall s1 o n r, only_filled s s1 -> meaning f s o n = Some r ->
     exists s2, g s1 o n = Some (r, s2) /\ only_filled s s2) ->
  forall s1 r, only_filled s s1 -> answer (meaning f s) p = Some r ->
    exists s2, run g p s1 = Some (r, s2) /\ only_filled s s2.
Proof.
  intros G. induction p as [a|e|o n k IH]; cbn; intros s1 r F H.
  - injection H as <-. eauto.
  - injection H as <-. eauto.
  - destruct (meaning f s o n) as [x|] eqn:E; [|discriminate].
    destruct (G s1 o n x F E) as (s2 & Q & F2). rewrite Q. apply IH; auto.
Qed.

Lemma meaning_get f s : forall s1 o n r, only_filled s s1 -> meaning f s o n = Some r ->
  exists s2, get f s1 o n = Some (r, s2) /\ only_filled s s2.
Proof.
  induction f as [|f IH]; intros s1 o n r F H; [discriminate|].
  pose proof H as H0. cbn in H. cbn [LookModel.get].
  destruct (F o n) as [Q|(Q & L & v & f' & Q2 & M)].
  - rewrite Q. destruct (s o n) as [v|] eqn:E.
    + injection H as <-. eauto.
    + destruct (lazy (class_of o) n) as [d|] eqn:L.
      * destruct (answer (meaning f s) (d o)) as [x|] eqn:A; [|discriminate].
        destruct (answer_run _ (get f) f s (d o) IH s1 x F A) as (s2 & R & F2). rewrite R.
        destruct x as [v|e].
        -- injection H as H. destruct (convert (class_of o) n v) as [v'|e] eqn:C; subst r.
           ++ exists (store s2 o n v'). split; [reflexivity|].
              apply (filled_store s s2 o n v' (S f)); auto. rewrite L. discriminate.
           ++ eauto.
        -- injection H as <-. eauto.
      * injection H as <-. eauto.
  - rewrite Q2. exists s1. split; [|auto]. rewrite (meaning_unique _ _ _ _ _ _ _ H0 M). reflexivity.
Qed.

Lemma looked_filled s s' : looked_at class_of lazy convert s s' -> only_filled s s'.
Proof.
  induction 1 as [|A f p s1 r s2 H IH R]; [apply filled_refl|].
  destruct (run_answer A (get f) s p (get_meaning f s) s1 r s2 IH R). auto.
Qed.
End Proofs.
