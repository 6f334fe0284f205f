(** Lemmas about the typed collections of CollModel. *)
From Coq Require Import List Arith NArith ZArith Bool Lia Permutation.
From Verif Require Import Prelude FSModel PySeq CollModel.
Import ListNotations.

Section Lists.
Context {V K W : Type}.
Variable isitem : V -> bool.
Variable coerceitem : V -> W -> res V * W.

Notation coerce_value := (coerce_value isitem coerceitem).
Notation coerce_items := (coerce_items isitem coerceitem).

(** [x], offered in world [w], is stored as [y]. *)
Definition accepts (x : V) (w : W) (y : V) (w' : W) : Prop :=
  (isitem x = true /\ y = x /\ w' = w) \/ (isitem x = false /\ coerceitem x w = (Ok y, w')).

(** [x], offered in world [w], is turned down. *)
Definition refuses (x : V) (w : W) (w' : W) : Prop :=
  isitem x = false /\ exists e, coerceitem x w = (Err e, w').

Inductive accepts_all : list V -> W -> list V -> W -> Prop :=
| AA_nil w : accepts_all [] w [] w
| AA_cons x xs w y w1 ys w2 :
    accepts x w y w1 -> accepts_all xs w1 ys w2 -> accepts_all (x :: xs) w (y :: ys) w2.

Lemma coerce_value_ok x w y w' : coerce_value x w = (Ok y, w') <-> accepts x w y w'.
Proof.
  unfold coerce_value, accepts. destruct (isitem x) eqn:E.
  - split.
    + intros H; inversion H; subst; auto.
    + intros [(_&->&->)|[H _]]; [reflexivity|discriminate].
  - destruct (coerceitem x w) as [[v|e] w1] eqn:Ec; split.
    + intros H; inversion H; subst; auto.
    + intros [[H _]|[_ H]]; [discriminate|]. inversion H; subst; auto.
    + discriminate.
    + intros [[H _]|[_ H]]; discriminate.
Qed.

Lemma coerce_value_err x w e w' : coerce_value x w = (Err e, w') <-> e = CollItemCoerceErr /\ refuses x w w'.
Proof.
  unfold coerce_value, refuses. destruct (isitem x) eqn:E.
  - split; [discriminate|]. intros (_&H&_). discriminate.
  - destruct (coerceitem x w) as [[v|e1] w1] eqn:Ec; split.
    + discriminate.
    + intros (_&_&e0&H). discriminate.
    + intros H; inversion H; subst; eauto.
    + intros (->&_&e0&H). inversion H; subst; auto.
Qed.

Lemma coerce_items_spec xs : forall stop w ys r w',
  coerce_items xs stop w = (ys, r, w') ->
  (accepts_all xs w ys w' /\ r = stop) \/
  (exists pre x rest w1, xs = pre ++ x :: rest /\ accepts_all pre w ys w1 /\
     refuses x w1 w' /\ r = Some CollItemCoerceErr).
Proof.
  induction xs as [|x t IH]; simpl; intros stop w ys r w' H.
  - inversion H; subst. left. split; [constructor|auto].
  - destruct (coerce_value x w) as [[y|e] w1] eqn:Ec.
    + destruct (coerce_items t stop w1) as [[ys1 r1] w2] eqn:Et. inversion H; subst.
      apply coerce_value_ok in Ec.
      apply IH in Et as [[Ha ->]|(pre&z&rest&w3&->&Ha&Hr&->)].
      * left. split; auto. econstructor; eauto.
      * right. exists (x :: pre), z, rest, w3. repeat split; auto; try apply Hr.
        econstructor; eauto.
    + inversion H; subst. apply coerce_value_err in Ec as [-> Hr]. right.
      exists [], x, t, w. repeat split; auto; try apply Hr. constructor.
Qed.

Lemma accepts_all_items xs stop w ys w' :
  accepts_all xs w ys w' -> coerce_items xs stop w = (ys, stop, w').
Proof.
  induction 1 as [|x xs w y w1 ys w2 Hx Hxs IH]; simpl; auto.
  apply coerce_value_ok in Hx. rewrite Hx, IH. reflexivity.
Qed.

Lemma accepts_all_refused pre x rest stop w ys w1 w' :
  accepts_all pre w ys w1 -> refuses x w1 w' ->
  coerce_items (pre ++ x :: rest) stop w = (ys, Some CollItemCoerceErr, w').
Proof.
  induction 1 as [|z xs w y w1 ys w2 Hx Hxs IH]; simpl; intros Hr.
  - assert (E : coerce_value x w = (Err CollItemCoerceErr, w')) by (apply coerce_value_err; auto).
    rewrite E. reflexivity.
  - apply coerce_value_ok in Hx. rewrite Hx, IH; auto.
Qed.

Definition typed (l : list V) : Prop := forall x, In x l -> isitem x = true.
Definition good_coercion : Prop := forall v w v' w', coerceitem v w = (Ok v', w') -> isitem v' = true.

Lemma accepts_typed x w y w' : good_coercion -> accepts x w y w' -> isitem y = true.
Proof. intros G [(H&->&_)|[_ H]]; eauto. Qed.

Lemma accepts_all_typed xs w ys w' : good_coercion -> accepts_all xs w ys w' -> typed ys.
Proof.
  intros G. induction 1; intros z []; subst; eauto using accepts_typed.
Qed.

Lemma coerce_items_typed xs stop w ys r w' : good_coercion -> coerce_items xs stop w = (ys, r, w') -> typed ys.
Proof.
  intros G H. apply coerce_items_spec in H as [[H _]|(pre&x&rest&w1&_&H&_)]; eauto using accepts_all_typed.
Qed.

(** Already typed items are stored unchanged. *)
Lemma typed_accepts xs w : typed xs -> accepts_all xs w xs w.
Proof.
  induction xs as [|x t IH]; intros T; [constructor|].
  econstructor; [left; split; [apply T; now left|auto]|]. apply IH. intros z Hz. apply T. now right.
Qed.

(** ** Indices *)
Local Open Scope Z_scope.

Lemma norm_index_nat n k : norm_index n (Z.of_nat k) = if (k <? n)%nat then Some k else None.
Proof.
  unfold norm_index. replace (Z.of_nat k <? 0) with false by (symmetry; apply Z.ltb_ge; lia).
  destruct (Nat.ltb_spec k n) as [H|H].
  - replace ((0 <=? Z.of_nat k) && (Z.of_nat k <? Z.of_nat n)) with true.
    + now rewrite Nat2Z.id.
    + symmetry. apply andb_true_iff. split; [apply Z.leb_le|apply Z.ltb_lt]; lia.
  - replace ((0 <=? Z.of_nat k) && (Z.of_nat k <? Z.of_nat n)) with false; auto.
    symmetry. apply andb_false_iff. right. apply Z.ltb_ge. lia.
Qed.

Lemma seq_get_nat {A} (l : list A) k : seq_get l (Z.of_nat k) =
  match nth_error l k with Some x => Ok x | None => Err IndexErr end.
Proof.
  unfold seq_get. rewrite norm_index_nat. destruct (Nat.ltb_spec k (length l)) as [H|H]; auto.
  apply nth_error_None in H. now rewrite H.
Qed.

Lemma clamp_spec n i : clamp n i = 
  if i <? 0 then Z.to_nat (Z.max (i + Z.of_nat n) 0) else Nat.min (Z.to_nat i) n.
Proof.
  unfold clamp. destruct (i <? 0) eqn:E.
  - destruct (i + Z.of_nat n <? 0) eqn:E2.
    + apply Z.ltb_lt in E2. rewrite Z.max_r by lia. reflexivity.
    + apply Z.ltb_ge in E2. apply Z.ltb_lt in E. rewrite Z.max_l by lia. lia.
  - rewrite E. reflexivity.
Qed.

Lemma clamp_le n i : (clamp n i <= n)%nat.
Proof.
  rewrite clamp_spec. destruct (i <? 0) eqn:E; [|lia]. apply Z.ltb_lt in E. lia.
Qed.

Variable eqv : V -> V -> bool.
Variable fmt_fails : V -> bool.

Lemma find_from_nth l x j : forall k i, find_from eqv k l x j = Some i ->
  (k <= i < j)%nat /\ (i - k < length l)%nat.
Proof.
  induction l as [|y t IH]; simpl; intros k i H; [discriminate|].
  destruct (Nat.ltb_spec k j); [|discriminate]. destruct (eqv y x).
  - inversion H; subst. lia.
  - apply IH in H. lia.
Qed.

Lemma skipn_nth (l : list V) k : (k < length l)%nat -> exists y, nth_error l k = Some y /\ skipn k l = y :: skipn (S k) l.
Proof.
  revert k. induction l as [|z t IH]; intros [|k] H; simpl in *; try lia; eauto.
  apply IH. lia.
Qed.

Lemma index_loop_spec l x j : forall n k, (n = j - k)%nat ->
  index_loop eqv fmt_fails n l x (Z.of_nat k) (Z.of_nat j) =
  match find_from eqv k (skipn k l) x (Nat.min j (length l)) with
  | Some i => Ok i
  | None => if ((length l <? j) && (k <? j))%nat then Err IndexErr
            else Err (if fmt_fails x then TypeErr else ValueErr)
  end.
Proof.
  induction n as [|n IH]; intros k Hn.
  - simpl. assert (F : find_from eqv k (skipn k l) x (Nat.min j (length l)) = None).
    { destruct (find_from eqv k (skipn k l) x (Nat.min j (length l))) eqn:E; auto.
      apply find_from_nth in E. lia. }
    rewrite F. replace (k <? j)%nat with false; [now rewrite andb_false_r|].
    symmetry. apply Nat.ltb_ge. lia.
  - cbn [index_loop]. replace (Z.of_nat k <? Z.of_nat j) with true by (symmetry; apply Z.ltb_lt; lia).
    rewrite seq_get_nat.
    destruct (Nat.ltb_spec k (length l)) as [H|H].
    + destruct (skipn_nth l k H) as (y&Ey&Es). rewrite Ey, Es. cbn [find_from].
      replace (k <? Nat.min j (length l))%nat with true by (symmetry; apply Nat.ltb_lt; lia).
      destruct (eqv y x); [now rewrite Nat2Z.id|].
      replace (Z.of_nat k + 1) with (Z.of_nat (S k)) by lia. rewrite IH by lia.
      destruct (find_from eqv (S k) (skipn (S k) l) x (Nat.min j (length l))); auto.
      replace (k <? j)%nat with true by (symmetry; apply Nat.ltb_lt; lia).
      destruct (Nat.ltb_spec (length l) j).
      * replace (S k <? j)%nat with true by (symmetry; apply Nat.ltb_lt; lia). reflexivity.
      * reflexivity.
    + assert (E : nth_error l k = None) by (apply nth_error_None; lia). rewrite E.
      rewrite skipn_all2 by lia. simpl.
      replace (k <? j)%nat with true by (symmetry; apply Nat.ltb_lt; lia).
      replace (length l <? j)%nat with true by (symmetry; apply Nat.ltb_lt; lia). reflexivity.
Qed.

(** where the search starts and ends, without upper clamping *)
Definition from_end (n : nat) (i : Z) : nat :=
  if i <? 0 then Z.to_nat (i + Z.of_nat n) else Z.to_nat i.

Lemma from_end_clamp n i : clamp n i = Nat.min (from_end n i) n.
Proof.
  rewrite clamp_spec. unfold from_end. destruct (i <? 0) eqn:E; auto.
  apply Z.ltb_lt in E. lia.
Qed.

Lemma find_from_clamp l x k b :
  find_from eqv (Nat.min k (length l)) (skipn (Nat.min k (length l)) l) x b =
  find_from eqv k (skipn k l) x b.
Proof.
  destruct (Nat.le_gt_cases k (length l)) as [H|H].
  - now rewrite Nat.min_l by lia.
  - rewrite Nat.min_r by lia. rewrite !skipn_all2 by lia. reflexivity.
Qed.

Lemma coll_index_spec l x i j :
  coll_index eqv fmt_fails l x i j =
  match seq_index eqv l x i j with
  | Ok k => Ok k
  | Err _ =>
      if match j with Some z => (length l <? from_end (length l) z)%nat && (from_end (length l) i <? from_end (length l) z)%nat | None => false end
      then Err IndexErr else Err (if fmt_fails x then TypeErr else ValueErr)
  end.
Proof.
  unfold coll_index, seq_index.
  set (n := length l).
  assert (Fi : forall z, (if z <? 0 then if z + Z.of_nat n <? 0 then 0 else z + Z.of_nat n else z)
                 = Z.of_nat (from_end n z)).
  { intros z. unfold from_end. destruct (z <? 0) eqn:E.
    - destruct (z + Z.of_nat n <? 0) eqn:E2; [apply Z.ltb_lt in E2|apply Z.ltb_ge in E2]; lia.
    - apply Z.ltb_ge in E. lia. }
  rewrite (Fi i). rewrite from_end_clamp. unfold n. rewrite find_from_clamp. fold n.
  destruct j as [z|].
  - rewrite (Fi z). rewrite from_end_clamp. rewrite index_loop_spec by lia. fold n.
    destruct (find_from eqv (from_end n i) (skipn (from_end n i) l) x (Nat.min (from_end n z) n)); auto.
  - rewrite index_loop_spec by lia. fold n. rewrite Nat.min_id.
    destruct (find_from eqv (from_end n i) (skipn (from_end n i) l) x n); auto.
    rewrite Nat.ltb_irrefl. reflexivity.
Qed.

Lemma seq_index_lt l x i j k : seq_index eqv l x i j = Ok k -> (k < length l)%nat.
Proof.
  unfold seq_index. intros H.
  destruct (find_from eqv (clamp (length l) i) (skipn (clamp (length l) i) l) x _) eqn:E; inversion H; subst.
  apply find_from_nth in E as [E1 E2]. rewrite skipn_length in E2. lia.
Qed.

Lemma seq_index_err l x i j e : seq_index eqv l x i j = Err e -> e = ValueErr.
Proof. unfold seq_index. destruct (find_from _ _ _ _ _); congruence. Qed.

End Lists.

(** ** Slices keep items *)
Section Keep.
Context {A : Type}.
Lemma In_firstn (l : list A) k x : In x (firstn k l) -> In x l.
Proof. intros H. rewrite <- (firstn_skipn k l). apply in_or_app. auto. Qed.
Lemma In_skipn (l : list A) k x : In x (skipn k l) -> In x l.
Proof. intros H. rewrite <- (firstn_skipn k l). apply in_or_app. auto. Qed.

Lemma put_at_In ks : forall (l xs : list A) x, In x (put_at l ks xs) -> In x l \/ In x xs.
Proof.
  induction ks as [|k t IH]; simpl; intros l xs x H; auto.
  destruct xs as [|y u]; auto. apply IH in H as [H|H]; [|right; now right].
  apply in_app_or in H as [H|[<-|H]];
    [left; eapply In_firstn; exact H|right; now left|left; eapply (In_skipn l (S k)); exact H].
Qed.

Lemma drop_at_In l : forall i ks (x : A), In x (drop_at i l ks) -> In x l.
Proof.
  induction l as [|y t IH]; simpl; intros i ks x H; auto.
  destruct (existsb (Nat.eqb i) ks); [right; eauto|]. destruct H as [->|H]; eauto.
Qed.

Lemma seq_setslice_In l s (xs : list A) l' x : seq_setslice l s xs = Ok l' -> In x l' -> In x l \/ In x xs.
Proof.
  unfold seq_setslice. destruct (step_of s =? 0)%Z; [discriminate|].
  destruct (is_plain_slice s).
  - destruct (sl_cuts (length l) s) as [a b]. intros H; inversion H; subst. intros Hx.
    apply in_app_or in Hx as [Hx|Hx]; [eauto using In_firstn|].
    apply in_app_or in Hx as [Hx|Hx]; eauto using In_skipn.
  - destruct (Nat.eqb _ _); [|discriminate]. intros H; inversion H; subst. apply put_at_In.
Qed.

Lemma seq_delslice_In (l : list A) s l' x : seq_delslice l s = Ok l' -> In x l' -> In x l.
Proof.
  unfold seq_delslice. destruct (step_of s =? 0)%Z; [discriminate|].
  destruct (is_plain_slice s).
  - destruct (sl_cuts (length l) s) as [a b]. intros H; inversion H; subst. intros Hx.
    apply in_app_or in Hx as [Hx|Hx]; eauto using In_firstn, In_skipn.
  - intros H; inversion H; subst. apply drop_at_In.
Qed.

Lemma seq_set_In (l : list A) i y l' x : seq_set l i y = Ok l' -> In x l' -> x = y \/ In x l.
Proof.
  unfold seq_set. destruct (norm_index _ _) as [k|]; [|discriminate]. intros H; inversion H; subst. intros Hx.
  apply in_app_or in Hx as [Hx|[Hx|Hx]]; [eauto using In_firstn|auto|].
  right. eapply (In_skipn l (S k)). exact Hx.
Qed.

Lemma seq_del_In (l : list A) i l' x : seq_del l i = Ok l' -> In x l' -> In x l.
Proof.
  unfold seq_del. destruct (norm_index _ _) as [k|]; [|discriminate]. intros H; inversion H; subst. intros Hx.
  apply in_app_or in Hx as [Hx|Hx]; [eauto using In_firstn|]. eapply (In_skipn l (S k)). exact Hx.
Qed.
End Keep.

(** ** Dictionaries *)
Section Dicts.
Context {K A : Type}.
Variable keqb : K -> K -> bool.
Hypothesis keqb_eq : forall a b, keqb a b = true <-> a = b.

Lemma keqb_refl a : keqb a a = true.
Proof. now apply keqb_eq. Qed.

Lemma dict_get_set (d : list (K * A)) k v k' :
  dict_get keqb (dict_set keqb d k v) k' = if keqb k k' then Some v else dict_get keqb d k'.
Proof.
  induction d as [|[a b] t IH]; simpl.
  - reflexivity.
  - destruct (keqb a k) eqn:E; simpl.
    + apply keqb_eq in E as ->. destruct (keqb k k'); auto.
    + rewrite IH. destruct (keqb a k') eqn:E2; auto.
      destruct (keqb k k') eqn:E3; auto. apply keqb_eq in E2, E3. subst.
      rewrite keqb_refl in E. discriminate.
Qed.

Lemma dict_get_none (d : list (K * A)) k : dict_get keqb d k = None <-> ~ In k (map fst d).
Proof.
  induction d as [|[a b] t IH]; simpl; [tauto|].
  destruct (keqb a k) eqn:E.
  - apply keqb_eq in E as ->. split; [discriminate|tauto].
  - rewrite IH. split; [|tauto]. intros H [->|H2]; [|tauto]. now rewrite keqb_refl in E.
Qed.

Lemma dict_get_del (d : list (K * A)) k k' : NoDup (map fst d) ->
  dict_get keqb (dict_del keqb d k) k' = if keqb k k' then None else dict_get keqb d k'.
Proof.
  induction d as [|[a b] t IH]; simpl; intros ND.
  - now destruct (keqb k k').
  - inversion ND; subst. destruct (keqb a k) eqn:E; simpl.
    + apply keqb_eq in E as ->. destruct (keqb k k') eqn:E2; auto.
      apply keqb_eq in E2 as ->. now apply dict_get_none.
    + rewrite IH by auto. destruct (keqb a k') eqn:E2; auto.
      destruct (keqb k k') eqn:E3; auto. apply keqb_eq in E2, E3. subst.
      rewrite keqb_refl in E. discriminate.
Qed.

Lemma dict_set_keys (d : list (K * A)) k v :
  map fst (dict_set keqb d k v) = if existsb (keqb k) (map fst d) then map fst d else map fst d ++ [k].
Proof.
  induction d as [|[a b] t IH]; simpl; auto.
  assert (S_ : keqb k a = keqb a k).
  { destruct (keqb a k) eqn:E1, (keqb k a) eqn:E2; auto.
    - apply keqb_eq in E1. subst. now rewrite keqb_refl in E2.
    - apply keqb_eq in E2. subst. now rewrite keqb_refl in E1. }
  rewrite S_. destruct (keqb a k) eqn:E; simpl; auto. rewrite IH.
  now destruct (existsb (keqb k) (map fst t)).
Qed.

Lemma existsb_keys k l : existsb (keqb k) l = true <-> In k l.
Proof.
  rewrite existsb_exists. split.
  - intros (x&Hx&E). apply keqb_eq in E. now subst.
  - intros H. exists k. auto using keqb_refl.
Qed.

Lemma dict_set_NoDup (d : list (K * A)) k v : NoDup (map fst d) -> NoDup (map fst (dict_set keqb d k v)).
Proof.
  intros ND. rewrite dict_set_keys. destruct (existsb (keqb k) (map fst d)) eqn:E; auto.
  apply Permutation_NoDup with (k :: map fst d); [apply Permutation_cons_append|].
  constructor; auto. intros H. apply existsb_keys in H. congruence.
Qed.

Lemma dict_del_sub (d : list (K * A)) k x : In x (dict_del keqb d k) -> In x d.
Proof.
  induction d as [|[a b] t IH]; simpl; auto. destruct (keqb a k); [auto|]. intros [H|H]; auto.
Qed.

Lemma dict_del_NoDup (d : list (K * A)) k : NoDup (map fst d) -> NoDup (map fst (dict_del keqb d k)).
Proof.
  induction d as [|[a b] t IH]; simpl; intros ND; auto. inversion ND; subst.
  destruct (keqb a k); auto. simpl. constructor; auto. intros H. apply H1.
  apply in_map_iff in H as (y&<-&Hy). apply in_map. eauto using dict_del_sub.
Qed.

Lemma dict_set_In (d : list (K * A)) k v x : In x (map snd (dict_set keqb d k v)) -> x = v \/ In x (map snd d).
Proof.
  induction d as [|[a b] t IH]; simpl.
  - intros [->|[]]; auto.
  - destruct (keqb a k); simpl; intros [->|H]; auto. destruct (IH H); auto.
Qed.
End Dicts.
