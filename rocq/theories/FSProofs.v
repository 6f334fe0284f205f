From Coq Require Import List Arith NArith ZArith Bool Lia Sorting.
From Verif Require Import Prelude SelPathModel FSModel.
Import ListNotations.

Lemma elem_eqb_eq a b : elem_eqb a b = true <-> a = b.
Proof. unfold elem_eqb. destruct (elem_eq_dec a b); split; congruence. Qed.

Lemma elem_eqb_refl a : elem_eqb a a = true.
Proof. now apply elem_eqb_eq. Qed.

Lemma elem_eqb_neq a b : elem_eqb a b = false <-> a <> b.
Proof. unfold elem_eqb. destruct (elem_eq_dec a b); split; congruence. Qed.

Lemma elem_eqb_sym a b : elem_eqb a b = elem_eqb b a.
Proof.
  destruct (elem_eqb b a) eqn:E.
  - apply elem_eqb_eq in E. subst. apply elem_eqb_refl.
  - apply elem_eqb_neq in E. apply elem_eqb_neq. congruence.
Qed.

Lemma fs_eqb_eq a : forall b, fs_eqb a b = true <-> a = b.
Proof.
  induction a as [|x a IH]; intros [|y b]; cbn; try (split; congruence).
  rewrite andb_true_iff, elem_eqb_eq, IH. split; [intros [-> ->]; auto | intros H; inversion H; auto].
Qed.

(** * Specification of the order *)

Inductive same_kind : elem -> elem -> Prop :=
| SKStr s t : same_kind (EStr s) (EStr t)
| SKInt i j : same_kind (EInt i) (EInt j)
| SKNone : same_kind ENone ENone.

(** Lexicographic order on text: a proper prefix is smaller, else the first differing
    code point decides. *)
Definition text_lt (s t : str) : Prop :=
  (exists u, u <> [] /\ t = s ++ u) \/
  (exists p x y u v, s = p ++ x :: u /\ t = p ++ y :: v /\ (x < y)%N).

Definition elt (x y : elem) : Prop :=
  match x, y with
  | EStr s, EStr t => text_lt s t
  | EInt i, EInt j => (i < j)%Z
  | _, _ => False
  end.

(** Lexicographic order on selectors. *)
Definition fs_less (a b : list elem) : Prop :=
  (exists u, u <> [] /\ b = a ++ u) \/
  (exists p x y u v, a = p ++ x :: u /\ b = p ++ y :: v /\ elt x y).

(** First difference (if both go on) is between different kinds. *)
Definition kinds_clash (a b : list elem) : Prop :=
  exists p x y u v, a = p ++ x :: u /\ b = p ++ y :: v /\ x <> y /\ ~ same_kind x y.

Lemma str_ltb_spec s : forall t, str_ltb s t = true <-> text_lt s t.
Proof.
  induction s as [|x s IH]; intros t.
  - destruct t as [|y t]; cbn.
    + split; [discriminate|]. intros [[u [Hu H]]|[p [x [y [u [v [H _]]]]]]].
      * cbn in H. congruence.
      * destruct p; discriminate.
    + split; auto. intros _. left. exists (y :: t). split; [discriminate|reflexivity].
  - destruct t as [|y t]; cbn.
    + split; [discriminate|]. intros [[u [Hu H]]|[p [x' [y [u [v [H1 [H2 _]]]]]]]].
      * discriminate.
      * destruct p; discriminate.
    + destruct (N.eqb x y) eqn:E.
      * apply N.eqb_eq in E. subst y. rewrite IH. split.
        -- intros [[u [Hu ->]]|[p [a [b [u [v [-> [-> H]]]]]]]].
           ++ left. exists u. auto.
           ++ right. exists (x :: p), a, b, u, v. auto.
        -- intros [[u [Hu H]]|[p [a [b [u [v [H1 [H2 H3]]]]]]]].
           ++ left. exists u. split; auto. cbn in H. congruence.
           ++ destruct p as [|c p].
              ** cbn in H1, H2. inversion H1; inversion H2; subst. lia.
              ** cbn in H1, H2. inversion H1; inversion H2; subst. right.
                 exists p, a, b, u, v. auto.
      * apply N.eqb_neq in E. rewrite N.ltb_lt. split.
        -- intros H. right. exists [], x, y, s, t. auto.
        -- intros [[u [Hu H]]|[p [a [b [u [v [H1 [H2 H3]]]]]]]].
           ++ cbn in H. congruence.
           ++ destruct p as [|c p].
              ** cbn in H1, H2. inversion H1; inversion H2; subst. auto.
              ** cbn in H1, H2. inversion H1; inversion H2; subst. congruence.
Qed.

Lemma text_lt_irrefl s : ~ text_lt s s.
Proof.
  intros [[u [Hu H]]|[p [x [y [u [v [H1 [H2 H3]]]]]]]].
  - apply (f_equal (@length N)) in H. rewrite app_length in H. destruct u; [congruence|]. cbn in H. lia.
  - rewrite H1 in H2. apply app_inv_head in H2. inversion H2. subst. lia.
Qed.

Lemma str_ltb_trich s : forall t, s = t \/ str_ltb s t = true \/ str_ltb t s = true.
Proof.
  induction s as [|x s IH]; intros [|y t]; cbn; auto.
  rewrite (N.eqb_sym y x). destruct (N.eqb x y) eqn:E.
  - apply N.eqb_eq in E. subst. destruct (IH t) as [->|H]; auto.
  - apply N.eqb_neq in E. rewrite !N.ltb_lt. right. lia.
Qed.

Lemma str_ltb_trans s : forall t u, str_ltb s t = true -> str_ltb t u = true -> str_ltb s u = true.
Proof.
  induction s as [|x s IH]; intros [|y t] [|z u]; cbn; auto; try discriminate.
  destruct (N.eqb x y) eqn:E1; destruct (N.eqb y z) eqn:E2;
    try apply N.eqb_eq in E1; try apply N.eqb_eq in E2; subst.
  - rewrite N.eqb_refl. apply IH.
  - now rewrite E2.
  - intros. now rewrite E1.
  - rewrite !N.ltb_lt. intros. replace (N.eqb x z) with false by (symmetry; apply N.eqb_neq; lia).
    apply N.ltb_lt. lia.
Qed.

(** * Characterisation *)

Lemma elem_lt_spec x y : x <> y ->
  (elem_lt x y = Ok true <-> elt x y) /\ (elem_lt x y = Err TypeErr <-> ~ same_kind x y).
Proof.
  intros Hne. destruct x as [s|i|], y as [t|j|]; cbn.
  all: try (split; split; intros H; try congruence; try contradiction; try (intros K; inversion K); fail).
  - split.
    + split; intros H.
      * apply str_ltb_spec. congruence.
      * f_equal. now apply str_ltb_spec.
    + split; [discriminate|]. intros H. exfalso. apply H. constructor.
  - split.
    + split; intros H.
      * apply Z.ltb_lt. congruence.
      * f_equal. now apply Z.ltb_lt.
    + split; [discriminate|]. intros H. exfalso. apply H. constructor.
Qed.

Lemma elem_lt_irrefl x : elem_lt x x <> Ok true.
Proof.
  destruct x; cbn; try discriminate.
  - intros H. assert (H' : str_ltb s s = true) by congruence.
    apply str_ltb_spec in H'. now apply text_lt_irrefl in H'.
  - rewrite Z.ltb_irrefl. discriminate.
Qed.

Lemma elt_neq x y : elt x y -> x <> y.
Proof.
  intros H ->. destruct y; cbn in H; auto.
  - now apply text_lt_irrefl in H.
  - lia.
Qed.

Lemma fs_lt_true a : forall b, fs_lt a b = Ok true <-> fs_less a b.
Proof.
  induction a as [|x a IH]; intros b.
  - destruct b as [|y b]; cbn.
    + split; [discriminate|]. intros [[u [Hu H]]|[p [x [y [u [v [H _]]]]]]].
      * cbn in H. congruence.
      * destruct p; discriminate.
    + split; auto. intros _. left. exists (y :: b). split; [discriminate|reflexivity].
  - destruct b as [|y b]; cbn [fs_lt].
    + cbn. split; [discriminate|]. intros [[u [Hu H]]|[p [x' [y [u [v [H1 [H2 _]]]]]]]].
      * discriminate.
      * destruct p; discriminate.
    + destruct (elem_eqb x y) eqn:E.
      * apply elem_eqb_eq in E. subst y. rewrite IH. split.
        -- intros [[u [Hu ->]]|[p [c [d [u [v [-> [-> H]]]]]]]].
           ++ left. exists u. auto.
           ++ right. exists (x :: p), c, d, u, v. auto.
        -- intros [[u [Hu H]]|[p [c [d [u [v [H1 [H2 H3]]]]]]]].
           ++ left. exists u. split; auto. cbn in H. congruence.
           ++ destruct p as [|e p].
              ** cbn in H1, H2. inversion H1; inversion H2; subst.
                 exfalso. now apply (elt_neq d d).
              ** cbn in H1, H2. inversion H1; inversion H2; subst. right.
                 exists p, c, d, u, v. auto.
      * apply elem_eqb_neq in E. destruct (elem_lt_spec x y E) as [Hs _]. rewrite Hs. split.
        -- intros H. right. exists [], x, y, a, b. auto.
        -- intros [[u [Hu H]]|[p [c [d [u [v [H1 [H2 H3]]]]]]]].
           ++ cbn in H. congruence.
           ++ destruct p as [|e p].
              ** cbn in H1, H2. inversion H1; inversion H2; subst. auto.
              ** cbn in H1, H2. inversion H1; inversion H2; subst. congruence.
Qed.

Lemma elem_lt_err x y e : elem_lt x y = Err e -> e = TypeErr.
Proof. destruct x, y; cbn; congruence. Qed.

Lemma fs_lt_err a : forall b e, fs_lt a b = Err e <-> e = TypeErr /\ kinds_clash a b.
Proof.
  induction a as [|x a IH]; intros b e.
  - destruct b; cbn; (split; [discriminate|]); intros [_ [p [x [y [u [v [H1 [H2 _]]]]]]]];
      destruct p; discriminate.
  - destruct b as [|y b]; cbn [fs_lt].
    + cbn. split; [discriminate|]. intros [_ [p [x' [y [u [v [H1 [H2 _]]]]]]]]. destruct p; discriminate.
    + destruct (elem_eqb x y) eqn:E.
      * apply elem_eqb_eq in E. subst y. rewrite IH. split.
        -- intros [-> [p [c [d [u [v [-> [-> H]]]]]]]]. split; auto. exists (x :: p), c, d, u, v. auto.
        -- intros [-> [p [c [d [u [v [H1 [H2 [H3 H4]]]]]]]]]. split; auto.
           destruct p as [|f p]; cbn in H1, H2; inversion H1; inversion H2; subst.
           ++ congruence.
           ++ exists p, c, d, u, v. auto.
      * apply elem_eqb_neq in E. destruct (elem_lt_spec x y E) as [_ Hs]. split.
        -- intros H. pose proof (elem_lt_err _ _ _ H) as ->. split; auto. rewrite Hs in H.
           exists [], x, y, a, b. auto.
        -- intros [-> [p [c [d [u [v [H1 [H2 [H3 H4]]]]]]]]].
           destruct p as [|f p]; cbn in H1, H2; inversion H1; inversion H2; subst.
           ++ now apply Hs.
           ++ congruence.
Qed.

Lemma kinds_clash_sym a b : kinds_clash a b -> kinds_clash b a.
Proof.
  intros [p [x [y [u [v [H1 [H2 [H3 H4]]]]]]]]. exists p, y, x, v, u. repeat split; auto.
  intros H. apply H4. inversion H; constructor.
Qed.

Lemma fs_less_irrefl a : ~ fs_less a a.
Proof.
  intros [[u [Hu H]]|[p [x [y [u [v [H1 [H2 H3]]]]]]]].
  - apply (f_equal (@length elem)) in H. rewrite app_length in H. destruct u; [congruence|]. cbn in H. lia.
  - rewrite H1 in H2. apply app_inv_head in H2. inversion H2. subst. now apply (elt_neq y y).
Qed.

Lemma elem_lt_trans x y z : elem_lt x y = Ok true -> elem_lt y z = Ok true -> elem_lt x z = Ok true.
Proof.
  destruct x, y, z; cbn; try congruence; intros H1 H2; f_equal.
  - apply (str_ltb_trans s s0 s1); congruence.
  - assert ((z0 <? z1)%Z = true) as H1' by congruence. assert ((z1 <? z)%Z = true) as H2' by congruence.
    apply Z.ltb_lt in H1', H2'. apply Z.ltb_lt. lia.
Qed.

Lemma fs_lt_trans a : forall b c, fs_lt a b = Ok true -> fs_lt b c = Ok true -> fs_lt a c = Ok true.
Proof.
  induction a as [|x a IH]; intros [|y b] [|z c]; try (cbn; congruence).
  cbn [fs_lt]. destruct (elem_eqb x y) eqn:E1; destruct (elem_eqb y z) eqn:E2;
    try apply elem_eqb_eq in E1; try apply elem_eqb_eq in E2; subst.
  - rewrite elem_eqb_refl. apply IH.
  - now rewrite E2.
  - intros. now rewrite E1.
  - intros H1 H2. pose proof (elem_lt_trans _ _ _ H1 H2) as H3.
    destruct (elem_eqb x z) eqn:E3; auto.
    apply elem_eqb_eq in E3. subst. now apply elem_lt_irrefl in H3.
Qed.

Lemma fs_lt_total a : forall b, ~ kinds_clash a b ->
  a = b \/ fs_lt a b = Ok true \/ fs_lt b a = Ok true.
Proof.
  induction a as [|x a IH]; intros [|y b] Hk; try (cbn; auto; fail).
  cbn [fs_lt]. rewrite (elem_eqb_sym y x). destruct (elem_eqb x y) eqn:E.
  - apply elem_eqb_eq in E. subst y.
    assert (Hk' : ~ kinds_clash a b).
    { intros [p [c [d [u [v [-> [-> H]]]]]]]. apply Hk. exists (x :: p), c, d, u, v. auto. }
    destruct (IH b Hk') as [->|H]; auto.
  - right. assert (Hs : same_kind x y).
    { assert (Hd : same_kind x y \/ ~ same_kind x y)
        by (destruct x, y; try (left; constructor); right; intros K; inversion K).
      destruct Hd as [Hd|Hd]; auto. exfalso. apply Hk.
      exists [], x, y, a, b. apply elem_eqb_neq in E. auto. }
    apply elem_eqb_neq in E. inversion Hs; subst; cbn.
    + destruct (str_ltb_trich s t) as [->|[H|H]]; [congruence|rewrite H; auto|rewrite H; auto].
    +
      assert (i < j \/ j < i)%Z as [H|H] by (assert (i <> j) by congruence; lia);
        apply Z.ltb_lt in H; rewrite H; auto.
    + congruence.
Qed.

Lemma fs_lt_ok_false a b : fs_lt a b = Ok false <-> ~ kinds_clash a b /\ ~ fs_less a b.
Proof.
  split.
  - intros H. split; intros K.
    + assert (fs_lt a b = Err TypeErr) by (apply fs_lt_err; auto). congruence.
    + apply fs_lt_true in K. congruence.
  - intros [H1 H2]. destruct (fs_lt a b) as [[]|e] eqn:E; auto.
    + apply fs_lt_true in E. contradiction.
    + apply fs_lt_err in E. tauto.
Qed.

(** * Sorted lists *)

(** Indices found directly below prefix [p]. *)
Definition index_below (p a : list elem) : option Z :=
  if fs_eqb (firstn (length p) a) p then
    match nth_error a (length p) with Some (EInt i) => Some i | _ => None end
  else None.

Definition indices_below (p : list elem) (l : list (list elem)) : list Z :=
  flat_map (fun a => match index_below p a with Some i => [i] | None => [] end) l.

Lemma index_below_spec p a i : index_below p a = Some i -> exists u, a = p ++ EInt i :: u.
Proof.
  unfold index_below. destruct (fs_eqb (firstn (length p) a) p) eqn:E; [|discriminate].
  apply fs_eqb_eq in E. destruct (nth_error a (length p)) as [[| j |]|] eqn:N; try discriminate.
  intros H. inversion H; subst j. apply nth_error_split in N as [l1 [l2 [-> Hl]]].
  exists l2. rewrite <- Hl in E. rewrite firstn_app, Nat.sub_diag, firstn_all, app_nil_r in E. now subst.
Qed.

Lemma fs_lt_app p : forall a b, fs_lt (p ++ a) (p ++ b) = fs_lt a b.
Proof. induction p; intros; cbn [app fs_lt]; auto. now rewrite elem_eqb_refl. Qed.

Lemma sorted_indices l :
  StronglySorted (fun a b => fs_lt b a = Ok false) l ->
  forall p, StronglySorted Z.le (indices_below p l).
Proof.
  intros H p. induction H as [|a l Hs IH Ha]; [constructor|].
  unfold indices_below. cbn [flat_map]. destruct (index_below p a) as [i|] eqn:E; [|exact IH].
  cbn [app]. constructor; [exact IH|].
  apply Forall_forall. intros j Hj. apply in_flat_map in Hj as [b [Hb Hj]].
  destruct (index_below p b) as [j'|] eqn:E'; [|destruct Hj]. destruct Hj as [<-|[]].
  apply index_below_spec in E as [u ->]. apply index_below_spec in E' as [v ->].
  rewrite Forall_forall in Ha. specialize (Ha _ Hb). rewrite fs_lt_app in Ha. cbn in Ha.
  destruct (elem_eqb (EInt j') (EInt i)) eqn:Eq.
  - apply elem_eqb_eq in Eq. inversion Eq. lia.
  - inversion Ha. apply Z.ltb_ge in H0. lia.
Qed.

(** * Algebra *)

Lemma contents_alloc_new h l : contents (fst (alloc h l)) (snd (alloc h l)) = l.
Proof. unfold contents, alloc. cbn. rewrite app_nth2, Nat.sub_diag by lia. reflexivity. Qed.

Lemma contents_alloc_old h l r : (r < length h)%nat -> contents (fst (alloc h l)) r = contents h r.
Proof. intros. unfold contents, alloc. cbn. now rewrite app_nth1. Qed.

Lemma write_same h r l : (r < length h)%nat -> contents (write h r l) r = l.
Proof.
  intros H. unfold contents, write. rewrite app_nth2; rewrite firstn_length_le by lia; [|lia].
  now rewrite Nat.sub_diag.
Qed.

Lemma write_other h r r' l : (r < length h)%nat -> r <> r' -> contents (write h r l) r' = contents h r'.
Proof.
  intros H Hne. unfold contents, write.
  destruct (Nat.lt_ge_cases r' r) as [Hl|Hl].
  - rewrite app_nth1 by (rewrite firstn_length_le; lia).
    rewrite <- (firstn_skipn r h) at 2. rewrite app_nth1; auto. rewrite firstn_length_le; lia.
  - rewrite app_nth2; rewrite firstn_length_le by lia; [|lia].
    destruct (r' - r)%nat as [|k] eqn:E; [lia|]. cbn [nth].
    rewrite <- (firstn_skipn (S r) h) at 2. rewrite app_nth2; rewrite firstn_length_le by lia; [|lia].
    f_equal. lia.
Qed.

(** [+]: the result is a fresh object, nothing else changes. *)
Lemma fs_add_fs h a b : (a < length h)%nat -> (b < length h)%nat ->
  exists h' r, fs_add h a (AddFS b) = Ok (h', r) /\
    (length h <= r)%nat /\
    contents h' r = contents h a ++ contents h b /\
    forall x, (x < length h)%nat -> contents h' x = contents h x.
Proof.
  intros Ha Hb. cbn [fs_add]. unfold fs_copy, alloc, fs_extend.
  eexists _, _. split; [reflexivity|]. split; [lia|].
  assert (Hl : (length h < length (h ++ [contents h a]))%nat) by (rewrite app_length; cbn; lia).
  split.
  - rewrite write_same by exact Hl. f_equal.
    + apply (contents_alloc_new h (contents h a)).
    + now apply (contents_alloc_old h (contents h a)).
  - intros x Hx. rewrite write_other; [|exact Hl|lia]. now apply (contents_alloc_old h (contents h a)).
Qed.

Lemma fs_add_list h a l : (a < length h)%nat ->
  exists h' r, fs_add h a (AddList l) = Ok (h', r) /\
    (length h <= r)%nat /\ contents h' r = contents h a ++ l /\
    forall x, (x < length h)%nat -> contents h' x = contents h x.
Proof.
  intros Ha. cbn [fs_add]. unfold alloc. eexists _, _. split; [reflexivity|]. split; [lia|]. split.
  - apply (contents_alloc_new h (contents h a ++ l)).
  - intros. now apply (contents_alloc_old h).
Qed.

Lemma clamp_pos n k : (k <= n)%nat -> clamp n (Z.of_nat k) = k.
Proof.
  intros H. unfold clamp. replace (Z.ltb (Z.of_nat k) 0) with false by (symmetry; apply Z.ltb_ge; lia).
  replace (Z.ltb (Z.of_nat k) 0) with false by (symmetry; apply Z.ltb_ge; lia).
  rewrite Nat2Z.id. lia.
Qed.

Lemma slice_prefix {A} (a b : list A) : py_slice (a ++ b) None (Some (Z.of_nat (length a))) = a.
Proof.
  unfold py_slice. rewrite clamp_pos by (rewrite app_length; lia). rewrite Nat.sub_0_r. cbn [skipn].
  rewrite firstn_app, Nat.sub_diag, firstn_all. cbn. apply app_nil_r.
Qed.

Lemma slice_suffix {A} (a b : list A) : py_slice (a ++ b) (Some (Z.of_nat (length a))) None = b.
Proof.
  unfold py_slice. rewrite clamp_pos by (rewrite app_length; lia).
  rewrite skipn_app, skipn_all, Nat.sub_diag. cbn [app skipn].
  rewrite app_length. replace (length a + length b - length a)%nat with (length b) by lia.
  apply firstn_all.
Qed.

Lemma startswith_spec key : forall a,
  (fs_startswith key a = Ok true <-> exists u, a = key ++ u) /\
  (fs_startswith key a = Err IndexErr <-> exists x u, key = a ++ x :: u) /\
  (forall e, fs_startswith key a = Err e -> e = IndexErr).
Proof.
  induction key as [|k key IH]; intros a; cbn [fs_startswith].
  - split; [|split].
    + split; auto. intros _. exists a. reflexivity.
    + split; [discriminate|]. intros [x [u H]]. destruct a; discriminate.
    + discriminate.
  - destruct a as [|x a].
    + split; [|split].
      * split; [discriminate|]. intros [u H]. discriminate.
      * split; auto. intros _. exists k, key. reflexivity.
      * congruence.
    + destruct (elem_eqb k x) eqn:E.
      * apply elem_eqb_eq in E. subst x. destruct (IH a) as [H1 [H2 H3]]. split; [|split]; auto.
        -- rewrite H1. split; intros [u H]; exists u; cbn in *; congruence.
        -- rewrite H2. split; intros [y [u H]]; exists y, u; cbn in *; congruence.
      * apply elem_eqb_neq in E. split; [|split]; try discriminate.
        -- split; [discriminate|]. intros [u H]. cbn in H. congruence.
        -- split; [discriminate|]. intros [y [u H]]. cbn in H. congruence.
Qed.
