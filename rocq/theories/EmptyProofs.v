(** Lemmas about empty placeholders. *)
From Coq Require Import String List NArith Bool Arith Lia.
From Verif Require Import Prelude EmptyModel.
Import ListNotations.

Lemma nodup_snoc {X} (l : list X) x : NoDup l -> ~ In x l -> NoDup (l ++ [x]).
Proof.
  induction l as [|y l IH]; simpl; intros h n; [repeat constructor; auto|]. inversion_clear h as [|? ? h1 h2].
  constructor; auto. rewrite in_app_iff. simpl. intuition.
Qed.

Lemma tup_eqb_eq a : forall b, tup_eqb a b = true <-> a = b.
Proof.
  induction a as [|x a IH]; intros [|y b]; simpl; try (split; congruence).
  rewrite andb_true_iff, Nat.eqb_eq, IH. split; [intros [-> ->]; auto|intros E; injection E; auto].
Qed.
Lemma key_eqb_eq a b : key_eqb a b = true <-> a = b.
Proof.
  destruct a, b; simpl; try (split; congruence). rewrite tup_eqb_eq. split; congruence.
Qed.
Lemma ty_eqb_eq a b : ty_eqb a b = true <-> a = b.
Proof. destruct a, b; simpl; try (split; congruence). rewrite Nat.eqb_eq. split; congruence. Qed.

Lemma kget_in k l i : kget k l = Some i -> In (k, i) l.
Proof.
  induction l as [|[k' j] l IH]; simpl; [discriminate|]. destruct (key_eqb k k') eqn:e; auto.
  apply key_eqb_eq in e as ->. intros E; injection E as ->. auto.
Qed.
Lemma kget_none k l : kget k l = None <-> ~ In k (map fst l).
Proof.
  induction l as [|[k' j] l IH]; simpl; [intuition|]. destruct (key_eqb k k') eqn:e.
  - apply key_eqb_eq in e as ->. split; [discriminate|intuition].
  - rewrite IH. split; [intros h [->|i]; auto|intuition]. assert (key_eqb k k = true) by now apply key_eqb_eq. congruence.
Qed.
Lemma in_kget k l i : NoDup (map fst l) -> In (k, i) l -> kget k l = Some i.
Proof.
  induction l as [|[k' j] l IH]; simpl; [intros _ []|]. intros h [E|i'].
  - injection E as -> ->. assert (key_eqb k k = true) as -> by now apply key_eqb_eq. auto.
  - inversion_clear h as [|? ? h1 h2]. destruct (key_eqb k k') eqn:e; auto. apply key_eqb_eq in e as ->.
    exfalso. apply h1. apply (in_map fst) in i'. exact i'.
Qed.

(** ** Spec of the enumeration of types *)
Fixpoint flat (l : list hint) : list ty :=
  match l with [] => [] | One t :: l => t :: flat l | Many ts :: l => ts ++ flat l end.

(** [r] is [l] with every later repetition left out. *)
Inductive first_seen : list ty -> list ty -> Prop :=
| fs_nil : first_seen [] []
| fs_old l r x : first_seen l r -> In x l -> first_seen (l ++ [x]) r
| fs_new l r x : first_seen l r -> ~ In x l -> first_seen (l ++ [x]) (r ++ [x]).

(** one at a time *)
Fixpoint dd (l seen : list ty) : list ty :=
  match l with [] => [] | t :: l => if existsb (ty_eqb t) seen then dd l seen else t :: dd l (t :: seen) end.

Lemma existsb_ty t l : existsb (ty_eqb t) l = true <-> In t l.
Proof.
  rewrite existsb_exists. split.
  - intros [x [i e]]. apply ty_eqb_eq in e as ->. auto.
  - intros i. exists t. split; auto. now apply ty_eqb_eq.
Qed.
Lemma existsb_ty_false t l : existsb (ty_eqb t) l = false <-> ~ In t l.
Proof. rewrite <- existsb_ty. destruct (existsb _ _); intuition congruence. Qed.

Lemma dd_ext l : forall s1 s2, (forall x, In x s1 <-> In x s2) -> dd l s1 = dd l s2.
Proof.
  induction l as [|t l IH]; simpl; intros s1 s2 h; auto.
  assert (E : existsb (ty_eqb t) s1 = existsb (ty_eqb t) s2).
  { destruct (existsb (ty_eqb t) s2) eqn:e; [apply existsb_ty, h, existsb_ty, e|].
    apply existsb_ty_false. rewrite h. now apply existsb_ty_false. }
  rewrite E. destruct (existsb (ty_eqb t) s2); auto. f_equal. apply IH. intros x; simpl. now rewrite h.
Qed.
Lemma dd_app a : forall b s, dd (a ++ b) s = dd a s ++ dd b (rev a ++ s).
Proof.
  induction a as [|t a IH]; simpl; intros b s; auto.
  assert (G : forall x, In x (rev a ++ t :: s) <-> In x ((rev a ++ [t]) ++ s)).
  { intros x. now rewrite <- app_assoc. }
  destruct (existsb (ty_eqb t) s) eqn:e.
  - rewrite IH. f_equal. apply dd_ext. intros x. rewrite <- app_assoc, !in_app_iff. simpl. apply existsb_ty in e. intuition subst; auto.
  - rewrite IH. simpl. do 2 f_equal. apply dd_ext. exact G.
Qed.
Lemma it_tuple_dd l : forall s, fst (it_tuple l s) = dd l s /\ (forall x, In x (snd (it_tuple l s)) <-> In x l \/ In x s).
Proof.
  induction l as [|t l IH]; simpl; intros s; [intuition|]. destruct (existsb (ty_eqb t) s) eqn:e.
  - destruct (IH s) as [a b]. split; auto. intros x. rewrite b. apply existsb_ty in e. intuition subst; auto.
  - destruct (IH (t :: s)) as [a b]. destruct (it_tuple l (t :: s)) as [r s']. simpl in *. split; [now rewrite a|].
    intros x. rewrite b. intuition.
Qed.
Lemma it_types_dd l : forall s, it_types l s = dd (flat l) s.
Proof.
  induction l as [|[t|ts] l IH]; simpl; intros s; auto.
  - rewrite !IH. reflexivity.
  - destruct (it_tuple_dd ts s) as [a b]. destruct (it_tuple ts s) as [r s']. simpl in *. rewrite dd_app, IH, a. f_equal.
    apply dd_ext. intros x. rewrite b, in_app_iff, <- in_rev. reflexivity.
Qed.
Lemma dd_first_seen l : first_seen l (dd l []).
Proof.
  induction l as [|x l IH] using rev_ind; [constructor|]. rewrite dd_app, app_nil_r. simpl.
  destruct (existsb (ty_eqb x) (rev l)) eqn:e.
  - rewrite app_nil_r. apply fs_old; auto. apply existsb_ty, in_rev in e. auto.
  - apply fs_new; auto. apply existsb_ty_false in e. now rewrite in_rev.
Qed.
Lemma first_seen_det l r1 : first_seen l r1 -> forall r2, first_seen l r2 -> r1 = r2.
Proof.
  induction 1 as [|l r x h IH i|l r x h IH i]; intros r2 h2; inversion h2 as [E0 E|l' r' x' h' i' E|l' r' x' h' i' E];
    try (match goal with H : _ = [] |- _ => apply app_eq_nil in H as [_ H]; discriminate | H : [] = _ ++ _ |- _ => symmetry in H; apply app_eq_nil in H as [_ H]; discriminate end); auto;
    apply app_inj_tail in E as [-> ->]; try contradiction; auto. f_equal. auto.
Qed.
Lemma first_seen_in l r : first_seen l r -> forall x, In x r <-> In x l.
Proof.
  induction 1 as [|l r x h IH i|l r x h IH i]; intros y; [reflexivity| |].
  - rewrite IH, in_app_iff. simpl. intuition subst; auto.
  - rewrite !in_app_iff, IH. reflexivity.
Qed.

(** ** What a hint denotes *)
Definition denotes (l : list ty) (k : key) : Prop :=
  (In Any l /\ k = KAny) \/ (exists cs, l = map Cls cs /\ k = KTup cs).
Lemma classes_spec l : match classes l with Some cs => l = map Cls cs | None => In Any l end.
Proof.
  induction l as [|[|c] l IH]; simpl; auto. destruct (classes l); simpl; auto. now rewrite IH.
Qed.
Definition hint_list (h : hint) : list ty := match h with One t => [t] | Many l => l end.
Lemma key_of_denotes h : denotes (hint_list h) (key_of h).
Proof.
  unfold key_of. change (match h with Many l => l | One t => [t] end) with (hint_list h). pose proof (classes_spec (hint_list h)) as C.
  destruct (classes (hint_list h)); [right|left]; eauto.
Qed.
Lemma denotes_det l k1 k2 : denotes l k1 -> denotes l k2 -> k1 = k2.
Proof.
  assert (N : forall cs, ~ In Any (map Cls cs)) by (intros cs i; apply in_map_iff in i as [c [e _]]; discriminate).
  intros [[i ->]|[cs [-> ->]]] [[j ->]|[ds [e ->]]]; auto.
  - subst. destruct (N _ i).
  - destruct (N _ j).
  - f_equal. revert ds e. induction cs as [|c cs IH]; intros [|d ds] e; try discriminate; auto. injection e as -> e. f_equal; auto.
Qed.

(** ** The store *)
Lemma upd_nth_length i x l : length (upd_nth i x l) = length l.
Proof. revert i. induction l as [|y l IH]; intros [|i]; simpl; auto. Qed.
Lemma nth_upd i x l j : nth_error (upd_nth i x l) j = if Nat.eqb i j then match nth_error l j with Some _ => Some x | None => None end else nth_error l j.
Proof.
  revert i j. induction l as [|y l IH]; intros [|i] [|j]; simpl; auto.
  destruct (Nat.eqb i j); auto.
Qed.

Section Inv.
Variable class : nat -> cinfo.

Definition stands (s : estate) (i : nat) (k : key) : Prop := exists o, nth_error (objs s) i = Some o /\ e_key o = k.

Definition attr_ok (s : estate) (o : eval) (n : str) (j : nat) : Prop :=
  exists l, e_key o = KTup l /\ attrs_found class l n <> [] /\ stands s j (key_of (Many (itertypes (attrs_found class l n)))).
Definition member_ok (s : estate) (o : eval) (j : nat) : Prop :=
  exists l found, e_key o = KTup l /\ coll_types class l = inr found /\ found <> [] /\ stands s j (key_of (Many (itertypes found))).
Definition cache_ok (s : estate) (o : eval) : Prop :=
  (forall n j, In (n, j) (e_attrs o) -> attr_ok s o n j) /\ (forall j, e_member o = Some j -> member_ok s o j).
Record inv (s : estate) : Prop := {
  inv_nodup : NoDup (map fst (vals s));
  inv_vals : forall k i, In (k, i) (vals s) <-> stands s i k;
  inv_cache : forall i o, nth_error (objs s) i = Some o -> cache_ok s o
}.

Definition ext (s s' : estate) : Prop := forall i k, stands s i k -> stands s' i k.
Lemma ext_refl s : ext s s.
Proof. intros i k h; auto. Qed.
Lemma cache_ext s s' o : ext s s' -> cache_ok s o -> cache_ok s' o.
Proof.
  intros e [a b]. split.
  - intros n j i. destruct (a n j i) as (l & h1 & h2 & h3). exists l. auto.
  - intros j i. destruct (b j i) as (l & f & h1 & h2 & h3 & h4). exists l, f. auto.
Qed.
Lemma stands_fun s i k1 k2 : stands s i k1 -> stands s i k2 -> k1 = k2.
Proof. intros [o [h1 h2]] [o' [h3 h4]]. congruence. Qed.
Lemma stands_inj s i j k : inv s -> stands s i k -> stands s j k -> i = j.
Proof.
  intros h a b. apply (inv_vals s h) in a. apply (inv_vals s h) in b.
  apply (in_kget _ _ _ (inv_nodup s h)) in a. apply (in_kget _ _ _ (inv_nodup s h)) in b. congruence.
Qed.

Lemma inv0 : inv empty0.
Proof.
  split; simpl; [constructor| |].
  - intros k i. split; [intros []|]. intros [o [h _]]. destruct i; discriminate.
  - intros i o h. destruct i; discriminate.
Qed.

Lemma placeholder_spec h s i s' : inv s -> placeholder h s = (i, s') ->
  inv s' /\ ext s s' /\ stands s' i (key_of h) /\ (forall i k, nth_error (objs s) i = Some k -> nth_error (objs s') i = Some k) /\
  (forall i', i' < length (objs s) -> nth_error (objs s') i' = nth_error (objs s) i').
Proof.
  intros hi. unfold placeholder. destruct (kget (key_of h) (vals s)) as [j|] eqn:e.
  - intros E; injection E as <- <-. apply kget_in, (inv_vals s hi) in e. split; auto. split; [apply ext_refl|]. auto.
  - intros E; injection E as <- <-. apply kget_none in e.
    set (o := {| e_key := key_of h; e_attrs := []; e_member := None |}).
    set (s' := {| objs := objs s ++ [o]; vals := vals s ++ [(key_of h, length (objs s))] |}).
    assert (old : forall i o', nth_error (objs s) i = Some o' -> nth_error (objs s') i = Some o').
    { intros i o' q. unfold s'; simpl. rewrite nth_error_app1; auto. apply nth_error_Some. congruence. }
    assert (new : nth_error (objs s') (length (objs s)) = Some o).
    { unfold s'; simpl. rewrite nth_error_app2, Nat.sub_diag; auto. }
    assert (ex : ext s s') by (intros i k [o' [q1 q2]]; exists o'; auto).
    assert (st : stands s' (length (objs s)) (key_of h)) by (exists o; auto).
    assert (inv_old : forall i o', nth_error (objs s') i = Some o' -> nth_error (objs s) i = Some o' \/ (i = length (objs s) /\ o' = o)).
    { intros i o' q. destruct (Nat.lt_ge_cases i (length (objs s))) as [hl|hl].
      - left. unfold s' in q; simpl in q. now rewrite nth_error_app1 in q.
      - right. unfold s' in q; simpl in q. rewrite nth_error_app2 in q by auto. destruct (i - length (objs s)) as [|d] eqn:ed.
        + simpl in q. split; [lia|congruence].
        + simpl in q. destruct d; discriminate. }
    split; [|split; [exact ex|split; [exact st|split; [exact old|]]]].
    + split.
      * unfold s'; simpl. rewrite map_app. simpl. apply nodup_snoc; auto. apply (inv_nodup s hi).
      * intros k i. unfold s' at 1; simpl. rewrite in_app_iff. split.
        -- intros [j|[j|[]]]; [apply ex; now apply (inv_vals s hi)|]. injection j as <- <-. exact st.
        -- intros [o' [q1 q2]]. apply inv_old in q1 as [q1|[-> ->]].
           ++ left. apply (inv_vals s hi). exists o'. auto.
           ++ right. subst k. simpl. auto.
      * intros i o' q. apply inv_old in q as [q|[-> ->]].
        -- apply (cache_ext s); auto. apply (inv_cache s hi i o' q).
        -- split; [intros n j []|discriminate].
    + intros i hl. unfold s'; simpl. now rewrite nth_error_app1.
Qed.

(** Filling a cache. *)
Lemma inv_upd s i o o' : inv s -> nth_error (objs s) i = Some o -> e_key o' = e_key o ->
  (forall s', (forall j k, stands s j k <-> stands s' j k) -> cache_ok s' o') ->
  let s' := {| objs := upd_nth i o' (objs s); vals := vals s |} in
  inv s' /\ (forall j k, stands s j k <-> stands s' j k).
Proof.
  intros hi q hk hc s'.
  assert (eqv : forall j k, stands s j k <-> stands s' j k).
  { intros j k. unfold stands, s'; simpl. rewrite nth_upd. destruct (Nat.eqb_spec i j) as [<-|ne]; [|reflexivity].
    rewrite q. split; intros [x [h1 h2]]; injection h1 as <-; [exists o'|exists o]; split; auto; congruence. }
  split; auto. split.
  - exact (inv_nodup s hi).
  - intros k j. rewrite <- eqv. apply (inv_vals s hi).
  - intros j x h. unfold s' in h; simpl in h. rewrite nth_upd in h. destruct (Nat.eqb_spec i j) as [<-|ne].
    + rewrite q in h. injection h as <-. apply hc. exact eqv.
    + apply (cache_ext s); [intros a b; apply eqv|]. apply (inv_cache s hi j x h).
Qed.

(** One step: the invariant is kept, every object keeps what it stands for. *)
Lemma attrs_step i n s r s' : inv s -> get_attr class i n s = (r, s') ->
  inv s' /\ ext s s' /\
  (forall k, stands s i k ->
     (k = KAny -> r = EOk i /\ s' = s) /\
     (forall l, k = KTup l ->
        (attrs_found class l n = [] -> r = EErr ENoSuchAttribute /\ s' = s) /\
        (attrs_found class l n <> [] -> exists j, r = EOk j /\ stands s' j (key_of (Many (itertypes (attrs_found class l n))))))).
Proof.
  intros hi. unfold get_attr. destruct (nth_error (objs s) i) as [o|] eqn:q.
  - assert (K : forall k, stands s i k -> k = e_key o) by (intros k [o' [h1 h2]]; congruence).
    destruct (e_key o) as [|l] eqn:ek.
    + intros E; injection E as <- <-. split; auto. split; [apply ext_refl|]. intros k h. apply K in h as ->. split; auto. discriminate.
    + destruct (aget n (e_attrs o)) as [j|] eqn:ea.
      * intros E; injection E as <- <-. split; auto. split; [apply ext_refl|]. intros k h. apply K in h as ->. split; [discriminate|].
        intros l' E; injection E as <-. destruct (inv_cache s hi i o q) as [c _].
        assert (ia : In (n, j) (e_attrs o)).
        { clear - ea. induction (e_attrs o) as [|[m x] d IH]; simpl in *; [discriminate|]. destruct (str_eqb n m) eqn:e; auto.
          apply str_eqb_eq in e as ->. injection ea as ->. auto. }
        destruct (c n j ia) as (l' & e1 & e2 & e3). assert (l' = l) by congruence. subst l'. split; [contradiction|]. eauto.
      * remember (attrs_found class l n) as found eqn:ef. destruct found as [|f0 fs].
        -- intros E; injection E as <- <-. split; auto. split; [apply ext_refl|]. intros k h. apply K in h as ->. split; [discriminate|].
           intros l' E; injection E as <-. rewrite <- ef. split; auto. congruence.
        -- destruct (placeholder (Many (itertypes (f0 :: fs))) s) as [j s1] eqn:ep.
           destruct (placeholder_spec _ _ _ _ hi ep) as (hi1 & ex & st & old & _).
           intros E; injection E as <- <-.
           set (o' := {| e_key := KTup l; e_attrs := e_attrs o ++ [(n, j)]; e_member := e_member o |}).
           destruct (inv_upd s1 i o o' hi1 (old i o q)) as [hi2 eqv].
           { simpl. congruence. }
           { intros s2 eqv. destruct (inv_cache s1 hi1 i o (old i o q)) as [c1 c2]. split.
             - intros m x ix. simpl in ix. apply in_app_or in ix as [ix|[ix|[]]].
               + destruct (c1 m x ix) as (l' & e1 & e2 & e3). exists l'. split; [simpl; congruence|]. split; auto. now apply eqv.
               + injection ix as <- <-. exists l. split; auto. rewrite <- ef. split; [discriminate|]. now apply eqv.
             - intros x ix. simpl in ix. destruct (c2 x ix) as (l' & f & e1 & e2 & e3 & e4). exists l', f. split; [simpl; congruence|].
               split; auto. split; auto. now apply eqv. }
           split; [exact hi2|]. split; [intros a b h; apply eqv, ex, h|].
           intros k h. apply K in h as ->. split; [discriminate|]. intros l' E; injection E as <-. rewrite <- ef.
           split; [discriminate|]. intros _. exists j. split; auto. now apply eqv.
  - intros E; injection E as <- <-. split; auto. split; [apply ext_refl|]. intros k [o [h _]]. congruence.
Qed.

Lemma item_step i ix s r s' : inv s -> get_item class i ix s = (r, s') ->
  inv s' /\ ext s s' /\
  (forall k, stands s i k ->
     (k = KAny -> r = EOk i /\ s' = s) /\
     (ix = Slice -> r = EOk i /\ s' = s) /\
     (forall l, k = KTup l -> ix <> Slice ->
        (forall e, coll_types class l = inl e -> r = EErr e /\ s' = s) /\
        (coll_types class l = inr [] -> r = EErr ENotSubscriptable /\ s' = s) /\
        (forall f, coll_types class l = inr f -> f <> [] -> exists j, r = EOk j /\ stands s' j (key_of (Many (itertypes f)))))).
Proof.
  intros hi. unfold get_item. destruct (nth_error (objs s) i) as [o|] eqn:q.
  - assert (K : forall k, stands s i k -> k = e_key o) by (intros k [o' [h1 h2]]; congruence).
    destruct (e_key o) as [|l] eqn:ek.
    + intros E; injection E as <- <-. split; auto. split; [apply ext_refl|]. intros k h. apply K in h as ->. split; auto. split; auto. discriminate.
    + destruct ix as [|x].
      { intros E; injection E as <- <-. split; auto. split; [apply ext_refl|]. intros k h. apply K in h as ->. split; auto. split; auto. congruence. }
      destruct (e_member o) as [j|] eqn:em.
      * intros E; injection E as <- <-. split; auto. split; [apply ext_refl|]. intros k h. apply K in h as ->. split; [discriminate|].
        split; [discriminate|]. intros l' E _; injection E as <-. destruct (inv_cache s hi i o q) as [_ c].
        destruct (c j em) as (l' & f & e1 & e2 & e3 & e4). assert (l' = l) by congruence. subst l'. rewrite e2.
        split; [discriminate|]. split; [congruence|]. intros f' E _; injection E as <-. eauto.
      * remember (coll_types class l) as found eqn:ef. destruct found as [e|[|f0 fs]].
        -- intros E; injection E as <- <-. split; auto. split; [apply ext_refl|]. intros k h. apply K in h as ->. split; [discriminate|].
           split; [discriminate|]. intros l' E _; injection E as <-. rewrite <- ef. split; [intros e' E; injection E as <-; auto|].
           split; discriminate.
        -- intros E; injection E as <- <-. split; auto. split; [apply ext_refl|]. intros k h. apply K in h as ->. split; [discriminate|].
           split; [discriminate|]. intros l' E _; injection E as <-. rewrite <- ef. split; [discriminate|]. split; auto. congruence.
        -- destruct (placeholder (Many (itertypes (f0 :: fs))) s) as [j s1] eqn:ep.
           destruct (placeholder_spec _ _ _ _ hi ep) as (hi1 & ex & st & old & _).
           intros E; injection E as <- <-.
           set (o' := {| e_key := KTup l; e_attrs := e_attrs o; e_member := Some j |}).
           destruct (inv_upd s1 i o o' hi1 (old i o q)) as [hi2 eqv].
           { simpl. congruence. }
           { intros s2 eqv. destruct (inv_cache s1 hi1 i o (old i o q)) as [c1 c2]. split.
             - intros m y iy. simpl in iy. destruct (c1 m y iy) as (l' & e1 & e2 & e3). exists l'. split; [simpl; congruence|].
               split; auto. now apply eqv.
             - intros y iy. simpl in iy. injection iy as <-. exists l, (f0 :: fs). split; auto. split; [auto|]. split; [discriminate|].
               now apply eqv. }
           split; [exact hi2|]. split; [intros a b h; apply eqv, ex, h|].
           intros k h. apply K in h as ->. split; [discriminate|]. split; [discriminate|]. intros l' E _; injection E as <-. rewrite <- ef.
           split; [discriminate|]. split; [discriminate|]. intros f E _; injection E as <-. exists j. split; auto. now apply eqv.
  - intros E; injection E as <- <-. split; auto. split; [apply ext_refl|]. intros k [o [h _]]. congruence.
Qed.

Lemma call_step i s r s' : inv s -> call class i s = (r, s') ->
  inv s' /\ ext s s' /\
  (forall k, stands s i k ->
     (k = KAny -> r = EOk i /\ s' = s) /\
     (forall l, k = KTup l ->
        ((exists c, In c l /\ c_own (class c) (s2l "__call__") = true) -> exists j, r = EOk j /\ stands s' j KAny) /\
        ((forall c, In c l -> c_own (class c) (s2l "__call__") = false) -> r = EErr ENotCallable /\ s' = s))).
Proof.
  intros hi. unfold call. destruct (nth_error (objs s) i) as [o|] eqn:q.
  - assert (K : forall k, stands s i k -> k = e_key o) by (intros k [o' [h1 h2]]; congruence).
    destruct (e_key o) as [|l] eqn:ek.
    + intros E; injection E as <- <-. split; auto. split; [apply ext_refl|]. intros k h. apply K in h as ->. split; auto. discriminate.
    + destruct (existsb (fun c => c_own (class c) (s2l "__call__")) l) eqn:ex.
      * destruct (placeholder (One Any) s) as [j s1] eqn:ep. destruct (placeholder_spec _ _ _ _ hi ep) as (hi1 & e & st & _).
        intros E; injection E as <- <-. split; auto. split; auto. intros k h. apply K in h as ->. split; [discriminate|].
        intros l' E; injection E as <-. split; [eauto|]. intros no. apply existsb_exists in ex as [c [ic hc]]. rewrite (no c ic) in hc. discriminate.
      * intros E; injection E as <- <-. split; auto. split; [apply ext_refl|]. intros k h. apply K in h as ->. split; [discriminate|].
        intros l' E; injection E as <-. split; auto. intros [c [ic hc]]. rewrite <- not_true_iff_false in ex. exfalso. apply ex, existsb_exists. eauto.
  - intros E; injection E as <- <-. split; auto. split; [apply ext_refl|]. intros k [o [h _]]. congruence.
Qed.

Lemma step_inv o s : inv s -> inv (snd (estep class o s)) /\ ext s (snd (estep class o s)).
Proof.
  intros hi. destruct o as [h|i n|i ix|i|i n|i ix]; cbn [estep].
  - destruct (placeholder h s) as [i s1] eqn:e. destruct (placeholder_spec _ _ _ _ hi e) as (a & b & _). auto.
  - destruct (get_attr class i n s) as [r s1] eqn:e. destruct (attrs_step _ _ _ _ _ hi e) as (a & b & _). auto.
  - destruct (get_item class i ix s) as [r s1] eqn:e. destruct (item_step _ _ _ _ _ hi e) as (a & b & _). auto.
  - destruct (call class i s) as [r s1] eqn:e. destruct (call_step _ _ _ _ hi e) as (a & b & _). auto.
  - unfold set_. destruct (nth_error (objs s) i); split; auto; apply ext_refl.
  - unfold set_. destruct (nth_error (objs s) i); split; auto; apply ext_refl.
Qed.
Lemma hist_inv os : forall s, inv s -> inv (ehist class os s) /\ ext s (ehist class os s).
Proof.
  induction os as [|o os IH]; simpl; intros s hi; [split; auto; apply ext_refl|]. destruct (step_inv o s hi) as [a b].
  destruct (IH _ a) as [c d]. split; auto. intros i k h. apply d, b, h.
Qed.
End Inv.
