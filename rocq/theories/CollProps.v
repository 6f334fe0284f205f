(** C21 - C23: typed lists and typed dicts. *)
From Coq Require Import String List Arith NArith ZArith Bool Lia Permutation Sorted.
From Verif Require Import Prelude FSModel PySeq CollModel CollProofs.
Import ListNotations.

Section Lists.
Context {V K W : Type}.
Variable isitem : V -> bool.
Variable coerceitem : V -> W -> res V * W.
Variable sort_keys : list K -> list K.
Variable keqb : K -> K -> bool.
Variable eqv : V -> V -> bool.
Variable iter_of : V -> @iterable V.
Variable fmt_fails : V -> bool.
Variable sorter : list V -> list V * option exn.

Notation lop := (@lop V).
Notation list_exec := (list_exec isitem coerceitem eqv iter_of fmt_fails sorter).
Notation list_run := (list_run isitem coerceitem eqv iter_of fmt_fails sorter).
Notation list_new := (list_new isitem coerceitem sort_keys keqb).
Notation accepts := (accepts isitem coerceitem).
Notation accepts_all := (accepts_all isitem coerceitem).
Notation refuses := (refuses isitem coerceitem).

(** ** C21, lists *)

(** list.sort reorders the list, also when its key function raises *)
Definition sorter_permutes : Prop := forall l, Permutation (fst (sorter l)) l.

Lemma set_slice_typed s it l w r l' w' :
  good_coercion isitem coerceitem -> typed isitem l ->
  set_slice isitem coerceitem s it (l, w) = (r, (l', w')) -> typed isitem l'.
Proof.
  intros G T H. unfold set_slice in H. destruct it as [|xs stop].
  - inversion H; subst; auto.
  - destruct (coerce_items isitem coerceitem xs stop w) as [[ys [e|]] w1] eqn:E.
    + inversion H; subst; auto.
    + apply coerce_items_typed in E; auto.
      destruct (seq_setslice l s ys) eqn:Es; inversion H; subst; auto.
      intros x Hx. eapply seq_setslice_In in Es as [K1|K1]; eauto.
Qed.

Lemma list_exec_typed o l w r l' w' :
  good_coercion isitem coerceitem -> sorter_permutes -> typed isitem l ->
  list_exec o (l, w) = (r, (l', w')) -> typed isitem l'.
Proof.
  intros G SP T H. destruct o; cbn [CollModel.list_exec] in H;
    try (now (eapply set_slice_typed; eauto));
    try (inversion H; subst; exact T).
  - destruct (coerce_value isitem coerceitem x w) as [[y|e] w1] eqn:E; inversion H; subst; auto.
    apply coerce_value_ok in E. apply accepts_typed in E; auto.
    intros z Hz. apply in_app_or in Hz as [Hz|[<-|[]]]; auto.
  - destruct it as [|xs stop]; [inversion H; subst; auto|].
    destruct (coerce_items isitem coerceitem xs stop w) as [[ys r1] w1] eqn:E.
    apply coerce_items_typed in E; auto.
    assert (typed isitem (l ++ ys)).
    { intros z Hz. apply in_app_or in Hz as [Hz|Hz]; auto. }
    destruct r1; inversion H; subst; auto.
  - match goal with H : match seq_get l ?i with _ => _ end = _ |- _ =>
      destruct (seq_get l i) eqn:E1; [destruct (seq_del l i) eqn:E2|] end; inversion H; subst; auto.
    intros z Hz. eapply seq_del_In in E2; eauto.
  - destruct (coll_index eqv fmt_fails l x 0 None) as [k|]; [|inversion H; subst; auto].
    destruct (seq_del l (Z.of_nat k)) eqn:E2; inversion H; subst; auto.
    intros z Hz. eapply seq_del_In in E2; eauto.
  - inversion H; subst. intros z Hz. apply T. now apply in_rev.
  - destruct (sorter l) as [l1 e] eqn:E. inversion H; subst. intros z Hz. apply T.
    eapply Permutation_in; [|exact Hz]. specialize (SP l). now rewrite E in SP.
  - destruct (coerce_value isitem coerceitem x w) as [[y|e] w1] eqn:E; [|inversion H; subst; auto].
    apply coerce_value_ok in E. apply accepts_typed in E; auto.
    destruct (seq_set l i y) eqn:E2; inversion H; subst; auto.
    intros z Hz. eapply seq_set_In in E2 as [->|E2]; eauto.
  - destruct (seq_del l i) eqn:E2; inversion H; subst; auto.
    intros z Hz. eapply seq_del_In in E2; eauto.
  - destruct (seq_delslice l s) eqn:E2; inversion H; subst; auto.
    intros z Hz. eapply seq_delslice_In in E2; eauto.
  - destruct (seq_get l i); inversion H; subst; auto.
  - destruct (seq_getslice l s); inversion H; subst; auto.
  - destruct (coll_index eqv fmt_fails l x i j); inversion H; subst; auto.
  - destruct (coerce_value isitem coerceitem x w) as [[y|e] w1]; inversion H; subst; auto.
Qed.

(** A typed list holds only items of its type: right after construction from anything, and
    after any history of operations whatever their outcome. *)
Theorem C21_list_items_typed : forall src w l w1 os outs l' w',
  good_coercion isitem coerceitem -> sorter_permutes ->
  list_new src w = (Ok l, w1) ->
  list_run os (l, w1) = (outs, (l', w')) ->
  forall x, In x l' -> isitem x = true.
Proof.
  intros src w l w1 os outs l' w' G SP Hn Hr.
  assert (T : typed isitem l).
  { unfold list_new in Hn. destruct (list_source sort_keys keqb src) as [[xs stop]|]; [|discriminate].
    destruct (coerce_items isitem coerceitem xs stop w) as [[ys [e|]] w2] eqn:E; inversion Hn; subst.
    eapply coerce_items_typed; eauto. }
  clear Hn. revert l w1 outs T Hr. induction os as [|o t IH]; cbn [CollModel.list_run]; intros l w1 outs T Hr.
  - inversion Hr; subst; auto.
  - destruct (list_exec o (l, w1)) as [r [l1 w2]] eqn:E1.
    destruct (list_run t (l1, w2)) as [rs st2] eqn:E2. inversion Hr; subst.
    eapply IH; [|exact E2]. eapply list_exec_typed; eauto.
Qed.

(** ** C22 *)

(** What the builtin list does. *)
Definition builtin (o : lop) (l : list V) : res (@result V) * list V :=
  let keep (r : res (@result V)) := (r, l) in
  let change (r : res (list V)) :=
    match r with Ok l' => (Ok RUnit, l') | Err e => (Err e, l) end in
  match o with
  | LAppend x => (Ok RUnit, l ++ [x])
  | LExtend NotIter => keep (Err TypeErr)
  | LExtend (Items xs stop) => (match stop with None => Ok RUnit | Some e => Err e end, l ++ xs)
  | LInsert i x => (Ok RUnit, seq_insert l i x)
  | LPop i => match seq_pop l i with Ok (x, l') => (Ok (RVal x), l') | Err e => keep (Err e) end
  | LRemove x => change (seq_remove eqv l x)
  | LReverse => (Ok RUnit, rev l)
  | LSort => (match snd (sorter l) with None => Ok RUnit | Some e => Err e end, fst (sorter l))
  | LSetItem i x => change (seq_set l i x)
  | LSetSlice s NotIter => keep (Err TypeErr)
  | LSetSlice s (Items xs (Some e)) => keep (Err e)
  | LSetSlice s (Items xs None) => change (seq_setslice l s xs)
  | LDelItem i => change (seq_del l i)
  | LDelSlice s => change (seq_delslice l s)
  | LGetItem i => keep (match seq_get l i with Ok x => Ok (RVal x) | Err e => Err e end)
  | LGetSlice s => keep (match seq_getslice l s with Ok x => Ok (RList x) | Err e => Err e end)
  | LIndex x i j => keep (match seq_index eqv l x i j with Ok k => Ok (RNat k) | Err e => Err e end)
  | LCount x => keep (Ok (RNat (seq_count eqv l x)))
  | LContains x => keep (Ok (RBool (seq_contains eqv l x)))
  | LLen => keep (Ok (RNat (length l)))
  end.

(** [o'] is [o] with the items it brings in (or looks for, for [in]) coerced. *)
Definition coerced (o : lop) (w : W) (o' : lop) (w' : W) : Prop :=
  match o with
  | LAppend x => exists y, accepts x w y w' /\ o' = LAppend y
  | LSetItem i x => exists y, accepts x w y w' /\ o' = LSetItem i y
  | LContains x => exists y, accepts x w y w' /\ o' = LContains y
  | LExtend (Items xs stop) => exists ys, accepts_all xs w ys w' /\ o' = LExtend (Items ys stop)
  | LSetSlice s (Items xs stop) => exists ys, accepts_all xs w ys w' /\ o' = LSetSlice s (Items ys stop)
  | _ => o' = o /\ w' = w
  end.

(** The documented divergences from the builtin list. *)
Definition divergent (o : lop) (l : list V) : Prop :=
  match o with
  | LInsert _ _ => True
  | LPop i => (i < - Z.of_nat (length l))%Z
  | LIndex x i (Some j) => (Z.of_nat (length l) < j)%Z \/ fmt_fails x = true
  | LIndex x _ None | LRemove x => fmt_fails x = true
  | _ => False
  end.

Lemma norm_nonneg n i : (i < 0)%Z -> (- Z.of_nat n <= i)%Z ->
  norm_index n (i + Z.of_nat n)%Z = norm_index n i.
Proof.
  intros H1 H2. unfold norm_index.
  replace (i <? 0)%Z with true by (symmetry; apply Z.ltb_lt; lia).
  replace (i + Z.of_nat n <? 0)%Z with false by (symmetry; apply Z.ltb_ge; lia). reflexivity.
Qed.

(** Outside the divergences a typed list does what the builtin list does with the coerced
    items: same result or exception, same contents. *)
Theorem C22_same_as_builtin : forall o l w o' w',
  coerced o w o' w' -> ~ divergent o l ->
  list_exec o (l, w) = let (r, l') := builtin o' l in (r, (l', w')).
Proof.
  intros o l w o' w' C D. destruct o; simpl in C;
    try (destruct C as [-> ->]); cbn [CollModel.list_exec builtin].
  - destruct C as (y&Ha&->). apply coerce_value_ok in Ha. rewrite Ha. reflexivity.
  - destruct it as [|xs stop]; simpl in C.
    + destruct C as [-> ->]. reflexivity.
    + destruct C as (ys&Ha&->). rewrite (accepts_all_items _ _ _ stop _ _ _ Ha).
      destruct stop; reflexivity.
  - now destruct D.
  - simpl in D. unfold seq_pop, seq_get, seq_del.
    assert (E : norm_index (length l) (if (i <? 0)%Z then if (i + Z.of_nat (length l) <? 0)%Z then 0%Z else (i + Z.of_nat (length l))%Z else i)
               = norm_index (length l) i).
    { destruct (i <? 0)%Z eqn:Ei; auto. apply Z.ltb_lt in Ei.
      replace (i + Z.of_nat (length l) <? 0)%Z with false by (symmetry; apply Z.ltb_ge; lia).
      apply norm_nonneg; lia. }
    rewrite E. destruct (norm_index (length l) i); [|reflexivity].
    destruct (nth_error l n); reflexivity.
  - simpl in D. rewrite coll_index_spec. unfold seq_remove.
    destruct (seq_index eqv l x 0 None) as [k|e] eqn:E; simpl.
    + unfold seq_del. rewrite norm_index_nat. apply seq_index_lt in E.
      replace (k <? length l)%nat with true by (symmetry; apply Nat.ltb_lt; lia). reflexivity.
    + apply seq_index_err in E as ->. destruct (fmt_fails x); [now destruct D|reflexivity].
  - reflexivity.
  - destruct (sorter l) as [l1 []]; reflexivity.
  - destruct C as (y&Ha&->). apply coerce_value_ok in Ha. rewrite Ha.
    destruct (seq_set l i y) eqn:E; simpl; rewrite E; reflexivity.
  - destruct it as [|xs stop]; simpl in C.
    + destruct C as [-> ->]. reflexivity.
    + destruct C as (ys&Ha&->). simpl. rewrite (accepts_all_items _ _ _ stop _ _ _ Ha).
      destruct stop; [reflexivity|]. destruct (seq_setslice l s ys); reflexivity.
  - destruct (seq_del l i); reflexivity.
  - destruct (seq_delslice l s); reflexivity.
  - destruct (seq_get l i); reflexivity.
  - destruct (seq_getslice l s); reflexivity.
  - rewrite coll_index_spec. destruct (seq_index eqv l x i j) as [k|e] eqn:E; [reflexivity|].
    apply seq_index_err in E as ->.
    assert (J : match j with Some z => (length l <? from_end (length l) z)%nat && (from_end (length l) i <? from_end (length l) z)%nat | None => false end = false).
    { destruct j as [z|]; auto. simpl in D. apply andb_false_iff. left. apply Nat.ltb_ge.
      unfold from_end. destruct (z <? 0)%Z eqn:Ez; [apply Z.ltb_lt in Ez|apply Z.ltb_ge in Ez]; lia. }
    rewrite J. replace (fmt_fails x) with false; [reflexivity|].
    destruct (fmt_fails x) eqn:Ef; auto. exfalso. apply D. simpl. destruct j; auto.
  - reflexivity.
  - destruct C as (y&Ha&->). apply coerce_value_ok in Ha. rewrite Ha. reflexivity.
  - reflexivity.
Qed.

(** The divergences. *)

(** insert(i, x) inserts the coerced items of x at the position where the builtin would put
    x itself; a non-iterable x is a TypeError. *)
Theorem C22_insert_spreads : forall i x l w,
  match iter_of x with
  | NotIter => list_exec (LInsert i x) (l, w) = (Err TypeErr, (l, w))
  | Items xs stop =>
      forall ys w', accepts_all xs w ys w' ->
        list_exec (LInsert i x) (l, w) =
        match stop with
        | Some e => (Err e, (l, w'))
        | None => (Ok RUnit, (firstn (clamp (length l) i) l ++ ys ++ skipn (clamp (length l) i) l, w'))
        end
  end.
Proof.
  intros i x l w. destruct (iter_of x) as [|xs stop] eqn:Ex; cbn [CollModel.list_exec]; rewrite Ex.
  - reflexivity.
  - intros ys w' Ha. unfold set_slice. rewrite (accepts_all_items _ _ _ stop _ _ _ Ha).
    destruct stop; [reflexivity|].
    set (j := if (_ <? 0)%Z then 0%Z else _).
    assert (Ej : clamp (length l) j = clamp (length l) i).
    { unfold j. rewrite !clamp_spec. destruct (i <? 0)%Z eqn:Ei.
      - destruct (i + Z.of_nat (length l) <? 0)%Z eqn:E2.
        + apply Z.ltb_lt in E2. change (0 <? 0)%Z with false. cbv iota. lia.
        + rewrite E2. apply Z.ltb_ge in E2. apply Z.ltb_lt in Ei. lia.
      - rewrite Ei. cbv iota. rewrite Ei. reflexivity. }
    unfold seq_setslice, step_of, is_plain_slice, sl_cuts. cbn [sl_step sl_lo sl_hi].
    change (1 =? 0)%Z with false. cbv iota. rewrite Nat.max_id, Ej. reflexivity.
Qed.

(** pop(i) far below zero pops the first item instead of raising IndexError. *)
Theorem C22_pop_far_below : forall i x l w,
  (i < - Z.of_nat (length (x :: l)))%Z ->
  list_exec (LPop i) (x :: l, w) = (Ok (RVal x), (l, w)) /\
  builtin (LPop i) (x :: l) = (Err IndexErr, x :: l).
Proof.
  intros i x l w H. set (n := length (x :: l)) in *. split.
  - cbn [CollModel.list_exec]. fold n.
    replace (i <? 0)%Z with true by (symmetry; apply Z.ltb_lt; lia).
    replace (i + Z.of_nat n <? 0)%Z with true by (symmetry; apply Z.ltb_lt; lia). reflexivity.
  - cbn [builtin]. unfold seq_pop, seq_get, norm_index. fold n.
    replace (i <? 0)%Z with true by (symmetry; apply Z.ltb_lt; lia).
    replace (0 <=? i + Z.of_nat n)%Z with false by (symmetry; apply Z.leb_gt; lia). reflexivity.
Qed.

(** index(x, i, j) with j beyond the end: same answer if x is found; otherwise IndexError
    instead of ValueError if the range is not empty.  And if x is a tuple (not of length
    one), TypeError instead of ValueError. *)
Theorem C22_index_divergence : forall x i j l w,
  match seq_index eqv l x i j with
  | Ok k => list_exec (LIndex x i j) (l, w) = (Ok (RNat k), (l, w))
  | Err e => e = ValueErr /\ exists e', list_exec (LIndex x i j) (l, w) = (Err e', (l, w)) /\
      (e' = IndexErr <-> exists z, j = Some z /\ (Z.of_nat (length l) < z)%Z /\ (i < z)%Z) /\
      (e' = TypeErr -> fmt_fails x = true) /\ (e' = IndexErr \/ e' = TypeErr \/ e' = ValueErr)
  end.
Proof.
  intros x i j l w. cbn [CollModel.list_exec]. rewrite coll_index_spec.
  destruct (seq_index eqv l x i j) as [k|e] eqn:E; [reflexivity|].
  apply seq_index_err in E as ->. split; [reflexivity|].
  assert (H : match j with Some z => (length l <? from_end (length l) z)%nat && (from_end (length l) i <? from_end (length l) z)%nat | None => false end = true
    <-> exists z, j = Some z /\ (Z.of_nat (length l) < z)%Z /\ (i < z)%Z).
  { destruct j as [z|]; [|split; [discriminate|intros (z&H&_); discriminate]].
    rewrite andb_true_iff, !Nat.ltb_lt. unfold from_end. split.
    - intros [H1 H2]. exists z. split; auto.
      destruct (z <? 0)%Z eqn:Ez; [apply Z.ltb_lt in Ez|apply Z.ltb_ge in Ez].
      + lia.
      + split; [lia|]. destruct (i <? 0)%Z eqn:Ei; [apply Z.ltb_lt in Ei|apply Z.ltb_ge in Ei]; lia.
    - intros (z'&Hz&H1&H2). inversion Hz; subst z'.
      replace (z <? 0)%Z with false by (symmetry; apply Z.ltb_ge; lia).
      destruct (i <? 0)%Z eqn:Ei; [apply Z.ltb_lt in Ei|apply Z.ltb_ge in Ei]; lia. }
  destruct (match j with Some z => _ | None => false end); eexists; (split; [reflexivity|]).
  - split; [|split]; auto; [|discriminate]. split; auto. intros _. now apply H.
  - split; [|split].
    + split.
      * destruct (fmt_fails x); discriminate.
      * intros K1. apply H in K1. discriminate.
    + destruct (fmt_fails x); auto; discriminate.
    + destruct (fmt_fails x); auto.
Qed.

(** ** Failures *)

(** An operation that raises leaves the list exactly as it was, except that extend keeps the
    items it had already taken, and a failing sort may leave the list reordered. *)
Theorem C22_failure_atomic : forall o l w e l' w',
  list_exec o (l, w) = (Err e, (l', w')) ->
  match o with
  | LExtend (Items xs stop) =>
      exists pre rest ys w1, xs = pre ++ rest /\ accepts_all pre w ys w1 /\ l' = l ++ ys /\
        ((rest = [] /\ stop = Some e) \/
         exists x t, rest = x :: t /\ refuses x w1 w' /\ e = CollItemCoerceErr)
  | LSort => l' = fst (sorter l)
  | _ => l' = l
  end.
Proof.
  intros o l w e l' w' H.
  assert (SS : forall s it, set_slice isitem coerceitem s it (l, w) = (Err e, (l', w')) -> l' = l).
  { intros s it. unfold set_slice. destruct it as [|xs stop]; [intros K1; now inversion K1|].
    destruct (coerce_items isitem coerceitem xs stop w) as [[ys [e1|]] w1].
    - intros K1; now inversion K1.
    - destruct (seq_setslice l s ys); intros K1; now inversion K1. }
  destruct o; cbn [CollModel.list_exec] in H; try (now inversion H); eauto.
  - destruct (coerce_value isitem coerceitem x w) as [[y|e1] w1]; now inversion H.
  - destruct it as [|xs stop]; [now inversion H|].
    destruct (coerce_items isitem coerceitem xs stop w) as [[ys r] w1] eqn:E.
    destruct r as [e1|]; inversion H; subst.
    apply coerce_items_spec in E as [[Ha Hs]|(pre&x&rest&w2&->&Ha&Hr&Hs)].
    + exists xs, [], ys, w'. rewrite app_nil_r. repeat split; auto.
    + exists pre, (x :: rest), ys, w2. repeat split; auto. right. inversion Hs; subst. eauto.
  - match goal with H : match seq_get l ?i with _ => _ end = _ |- _ =>
      destruct (seq_get l i); [destruct (seq_del l i)|] end; now inversion H.
  - destruct (coll_index eqv fmt_fails l x 0 None) as [k|]; [|now inversion H].
    destruct (seq_del l (Z.of_nat k)); now inversion H.
  - destruct (sorter l) as [l1 [e1|]]; now inversion H.
  - destruct (coerce_value isitem coerceitem x w) as [[y|e1] w1]; [|now inversion H].
    destruct (seq_set l i y); now inversion H.
  - destruct (seq_del l i); now inversion H.
  - destruct (seq_delslice l s); now inversion H.
  - destruct (seq_get l i); now inversion H.
  - destruct (seq_getslice l s); now inversion H.
  - destruct (coll_index eqv fmt_fails l x i j); now inversion H.
  - destruct (coerce_value isitem coerceitem x w) as [[y|e1] w1]; now inversion H.
Qed.

(** An item that is turned down makes every operation bringing it in raise. *)
Theorem C22_refused_item_raises : forall o l w x w',
  refuses x w w' ->
  o = LAppend x \/ (exists i, o = LSetItem i x) \/ o = LContains x \/
  (exists rest stop, o = LExtend (Items (x :: rest) stop)) \/
  (exists s rest stop, o = LSetSlice s (Items (x :: rest) stop)) ->
  list_exec o (l, w) = (Err CollItemCoerceErr, (l, w')).
Proof.
  intros o l w x w' Hr Ho.
  assert (E : coerce_value isitem coerceitem x w = (Err CollItemCoerceErr, w')) by (apply coerce_value_err; auto).
  destruct Ho as [->|[[i ->]|[->|[(rest&stop&->)|(s&rest&stop&->)]]]]; cbn [CollModel.list_exec].
  - now rewrite E.
  - now rewrite E.
  - now rewrite E.
  - cbn [coerce_items]. rewrite E. now rewrite app_nil_r.
  - unfold set_slice. cbn [coerce_items]. now rewrite E.
Qed.

(** Construction: the items of a sequence in order, those of a mapping in the order of its
    keys, each coerced. *)
Lemma list_new_ok src w l w' : list_new src w = (Ok l, w') ->
  exists xs, list_source sort_keys keqb src = Ok (xs, None) /\ accepts_all xs w l w'.
Proof.
  unfold CollModel.list_new. destruct (list_source sort_keys keqb src) as [[xs stop]|]; [|discriminate].
  destruct (coerce_items isitem coerceitem xs stop w) as [[ys [e|]] w2] eqn:E; intros H; inversion H; subst.
  exists xs. apply coerce_items_spec in E as [[A <-]|(?&?&?&?&_&_&_&?)]; [auto|discriminate].
Qed.

Theorem C22_from_sequence : forall xs w l w', list_new (SSequence xs) w = (Ok l, w') <-> accepts_all xs w l w'.
Proof.
  intros xs w l w'. split.
  - intros H. destruct (list_new_ok _ _ _ _ H) as (ys&E&A). inversion E; subst. auto.
  - intros A. unfold CollModel.list_new. cbn [list_source]. now rewrite (accepts_all_items _ _ _ _ _ _ _ A).
Qed.

Theorem C22_from_mapping : forall (le : K -> K -> Prop) items w l w',
  (forall a b, keqb a b = true <-> a = b) ->
  (forall ks, Permutation (sort_keys ks) ks /\ Sorted le (sort_keys ks)) ->
  NoDup (map fst items) ->
  list_new (SMapping items) w = (Ok l, w') ->
  exists ordered, Permutation ordered items /\ Sorted le (map fst ordered) /\
    accepts_all (map snd ordered) w l w'.
Proof.
  intros le items w l w' KE SK ND H. destruct (list_new_ok _ _ _ _ H) as (ys&E&A). inversion E; subst ys. clear E H.
  set (look := fun k => match dict_get keqb items k with Some v => [(k, v)] | None => [] end).
  destruct (SK (map fst items)) as [Pe So].
  assert (Own : forall k v, In (k, v) items -> look k = [(k, v)]).
  { intros k v I. unfold look. clear - KE ND I. induction items as [|[k1 v1] t IH]; [destruct I|].
    cbn [dict_get]. inversion ND; subst. destruct (keqb k1 k) eqn:E.
    - apply KE in E as ->. destruct I as [I|I]; [now inversion I|].
      exfalso. apply H1. apply (in_map fst) in I. exact I.
    - destruct I as [I|I]; [inversion I; subst|].
      + rewrite (proj2 (KE k k) eq_refl) in E. discriminate.
      + apply IH; auto. }
  assert (All : forall ks, incl ks (map fst items) ->
    map fst (flat_map look ks) = ks /\
    map snd (flat_map look ks) = flat_map (fun k => match dict_get keqb items k with Some v => [v] | None => [] end) ks).
  { induction ks as [|k ks IH]; intros I; [auto|]. destruct IH as [I1 I2]; [intros x Hx; apply I; now right|].
    assert (Ik : In k (map fst items)) by (apply I; now left).
    apply in_map_iff in Ik as ([k2 v]&E&Ik). cbn [fst] in E. subst k2. pose proof (Own _ _ Ik) as O.
    cbn [flat_map]. rewrite O. unfold look in O. destruct (dict_get keqb items k) as [v2|]; [|discriminate].
    inversion O; subst. cbn [app map fst snd]. now rewrite I1, I2. }
  exists (flat_map look (sort_keys (map fst items))). split; [|split].
  - rewrite (Permutation_flat_map look Pe). clear - Own.
    assert (G : forall l, incl l items -> flat_map look (map fst l) = l).
    { induction l as [|[k v] l IH]; intros I; [reflexivity|]. cbn [map fst flat_map].
      rewrite (Own k v) by (apply I; now left). cbn [app]. f_equal. apply IH. intros x Hx. apply I. now right. }
    rewrite G; [auto|apply incl_refl].
  - rewrite (proj1 (All _ (fun x Hx => Permutation_in x Pe Hx))). exact So.
  - rewrite (proj2 (All _ (fun x Hx => Permutation_in x Pe Hx))). exact A.
Qed.

(** [+] concatenates two typed lists, or a typed list and a plain one (coerced), and does
    not coerce the items it already has. *)
Theorem C22_add : forall l1 l2 w, typed isitem l1 ->
  (typed isitem l2 ->
     list_add isitem coerceitem sort_keys keqb l1 (AColl l2) w = (Ok (l1 ++ l2), w)) /\
  (good_coercion isitem coerceitem -> forall ys w', accepts_all l2 w ys w' ->
     list_add isitem coerceitem sort_keys keqb l1 (APlain l2) w = (Ok (l1 ++ ys), w')).
Proof.
  intros l1 l2 w T1.
  assert (App : forall l2 w, typed isitem l2 -> list_new (SSequence (l1 ++ l2)) w = (Ok (l1 ++ l2), w)).
  { intros l w0 T2. unfold CollModel.list_new. cbn [list_source].
    assert (T : typed isitem (l1 ++ l)) by (intros x Hx; apply in_app_or in Hx as []; auto).
    rewrite (accepts_all_items _ _ _ None _ _ _ (typed_accepts isitem coerceitem _ w0 T)). reflexivity. }
  split.
  - intros T2. apply App. auto.
  - intros G ys w' Ha. unfold list_add, CollModel.list_new. cbn [list_source].
    rewrite (accepts_all_items _ _ _ None _ _ _ Ha). apply App. eapply accepts_all_typed; eauto.
Qed.

End Lists.

(** ** C21/C23, dicts *)

Section Dicts.
Context {V K W : Type}.
Variable isitem : V -> bool.
Variable coerceitem : V -> W -> res V * W.
Variable keqb : K -> K -> bool.
Hypothesis keqb_eq : forall a b, keqb a b = true <-> a = b.
Variable key_of_nat : nat -> K.
Variable as_pair : V -> option (K * V).

Notation dop := (@dop V K).
Notation dict_exec := (dict_exec isitem coerceitem keqb).
Notation dict_run := (dict_run isitem coerceitem keqb).
Notation dict_new := (dict_new isitem coerceitem keqb key_of_nat as_pair).
Notation accepts := (accepts isitem coerceitem).
Notation refuses := (refuses isitem coerceitem).
Notation get := (dict_get keqb).

Definition fmap := K -> option V.
Definition fset (m : fmap) (k : K) (x : option V) : fmap := fun j => if keqb k j then x else m j.
Definition same (m m' : fmap) : Prop := forall k, m k = m' k.

(** [self[k] = coerce_value(x)]: what is stored is the coercion of the coercion. *)
Definition accepts2 x w z w' := exists y w1, accepts x w y w1 /\ accepts y w1 z w'.
Definition refuses2 x w w' := refuses x w w' \/ exists y w1, accepts x w y w1 /\ refuses y w1 w'.

(** Writing a run of items into a finite map, up to the first failure. *)
Inductive writes : list (res (K * V)) -> option exn -> fmap -> W -> res unit -> fmap -> W -> Prop :=
| Wr_end m w : writes [] None m w (Ok tt) m w
| Wr_stop e m w : writes [] (Some e) m w (Err e) m w
| Wr_bad e t s m w : writes (Err e :: t) s m w (Err e) m w
| Wr_refused k x t s m w w' : refuses2 x w w' ->
    writes (Ok (k, x) :: t) s m w (Err CollItemCoerceErr) m w'
| Wr_step k x t s m w z w1 r m' w' : accepts2 x w z w1 ->
    writes t s (fset m k (Some z)) w1 r m' w' -> writes (Ok (k, x) :: t) s m w r m' w'.

(** The finite-map specification of the typed dict. *)
Inductive dspec : dop -> fmap -> W -> res (@dresult V K) -> fmap -> W -> Prop :=
| S_set k x m w y w' : accepts x w y w' -> dspec (DSet k x) m w (Ok DRUnit) (fset m k (Some y)) w'
| S_set_refused k x m w w' : refuses x w w' -> dspec (DSet k x) m w (Err CollItemCoerceErr) m w'
| S_del k m w v : m k = Some v -> dspec (DDel k) m w (Ok DRUnit) (fset m k None) w
| S_del_missing k m w : m k = None -> dspec (DDel k) m w (Err KeyErr) m w
| S_get k m w v : m k = Some v -> dspec (DGet k) m w (Ok (DRVal v)) m w
| S_get_missing k m w : m k = None -> dspec (DGet k) m w (Err KeyErr) m w
| S_pop k m w v : m k = Some v -> dspec (DPop k) m w (Ok (DRVal v)) (fset m k None) w
| S_pop_missing k m w : m k = None -> dspec (DPop k) m w (Err KeyErr) m w
| S_popitem k m w v : m k = Some v -> dspec DPopitem m w (Ok (DRItem k v)) (fset m k None) w
| S_popitem_empty m w : (forall k, m k = None) -> dspec DPopitem m w (Err KeyErr) m w
| S_clear m w : dspec DClear m w (Ok DRUnit) (fun _ => None) w
| S_update_fails1 xs s kw m w e m' w' : writes xs s m w (Err e) m' w' ->
    dspec (DUpdate (UPairs xs s) kw) m w (Err e) m' w'
| S_update_pairs xs s kw m w m1 w1 r m' w' : writes xs s m w (Ok tt) m1 w1 ->
    writes (map Ok kw) None m1 w1 r m' w' ->
    dspec (DUpdate (UPairs xs s) kw) m w (match r with Ok _ => Ok DRUnit | Err e => Err e end) m' w'
| S_update_map items kw m w r m' w' :
    dspec (DUpdate (UPairs (map Ok items) None) kw) m w r m' w' ->
    dspec (DUpdate (UMapping items) kw) m w r m' w'
| S_update_none kw m w r m' w' :
    dspec (DUpdate (UPairs [] None) kw) m w r m' w' -> dspec (DUpdate UNone kw) m w r m' w'
| S_update_notiter kw m w : dspec (DUpdate UNotIter kw) m w (Err TypeErr) m w
| S_contains k m w : dspec (DContains k) m w (Ok (DRBool (match m k with Some _ => true | None => false end))) m w
| S_len m w n ks : NoDup ks -> (forall k, In k ks <-> m k <> None) -> length ks = n ->
    dspec DLen m w (Ok (DRNat n)) m w
| S_keys m w ks : NoDup ks -> (forall k, In k ks <-> m k <> None) -> dspec DKeys m w (Ok (DRKeys ks)) m w
| S_values m w ks : NoDup ks -> (forall k, In k ks <-> m k <> None) ->
    dspec DValues m w (Ok (DRVals (flat_map (fun k => match m k with Some v => [v] | None => [] end) ks))) m w
| S_ext o m w r m' w' m'' : dspec o m w r m' w' -> same m' m'' -> dspec o m w r m'' w'.

Lemma setitem_spec k x d w r d' w' :
  dict_setitem isitem coerceitem keqb k x (d, w) = (r, (d', w')) ->
  (exists y, accepts x w y w' /\ r = Ok tt /\ d' = dict_set keqb d k y) \/
  (refuses x w w' /\ r = Err CollItemCoerceErr /\ d' = d).
Proof.
  unfold dict_setitem. destruct (coerce_value isitem coerceitem x w) as [[y|e] w1] eqn:E;
    intros H; inversion H; subst.
  - left. apply coerce_value_ok in E. eauto.
  - right. apply coerce_value_err in E as [-> Hr]. auto.
Qed.

Lemma coerce_setitem_spec k x d w r d' w' :
  dict_coerce_setitem isitem coerceitem keqb k x (d, w) = (r, (d', w')) ->
  (exists z, accepts2 x w z w' /\ r = Ok tt /\ d' = dict_set keqb d k z) \/
  (refuses2 x w w' /\ r = Err CollItemCoerceErr /\ d' = d).
Proof.
  unfold dict_coerce_setitem. destruct (coerce_value isitem coerceitem x w) as [[y|e] w1] eqn:E; intros H.
  - apply coerce_value_ok in E. apply setitem_spec in H as [(z&Hz&->&->)|(Hr&->&->)].
    + left. exists z. repeat split; auto. exists y, w1. auto.
    + right. repeat split; auto. right. eauto.
  - inversion H; subst. apply coerce_value_err in E as [-> Hr]. right. repeat split; auto. now left.
Qed.

Lemma get_fset (d : list (K * V)) k v : same (get (dict_set keqb d k v)) (fset (get d) k (Some v)).
Proof. intros j. unfold fset. now apply dict_get_set. Qed.

Lemma fset_same m m' k x : same m m' -> same (fset m k x) (fset m' k x).
Proof. intros H j. unfold fset. destruct (keqb k j); auto. Qed.

Lemma writes_ext xs s m w r m' w' : writes xs s m w r m' w' -> forall n, same m n ->
  exists n', writes xs s n w r n' w' /\ same m' n'.
Proof.
  induction 1; intros n Hn.
  - exists n; split; [constructor|auto].
  - exists n; split; [constructor|auto].
  - exists n; split; [constructor|auto].
  - exists n; split; [now constructor|auto].
  - destruct (IHwrites (fset n k (Some z))) as (n'&H1&H2); [now apply fset_same|].
    exists n'. split; auto. econstructor; eauto.
Qed.

Lemma setall_spec xs : forall s d w r d' w', NoDup (map fst d) ->
  dict_setall isitem coerceitem keqb xs s (d, w) = (r, (d', w')) ->
  NoDup (map fst d') /\ exists m', writes xs s (get d) w r m' w' /\ same m' (get d').
Proof.
  induction xs as [|[[k x]|e] t IH]; intros s d w r d' w' ND H; cbn [dict_setall] in H.
  - destruct s; inversion H; subst; (split; [auto|]); eexists; (split; [constructor|now intros k]).
  - destruct (dict_coerce_setitem isitem coerceitem keqb k x (d, w)) as [r1 [d1 w1]] eqn:E.
    apply coerce_setitem_spec in E as [(z&Hz&->&->)|(Hr&->&->)].
    + apply IH in H as (ND'&m'&Hw&Hs); [|now apply dict_set_NoDup].
      split; auto. eapply writes_ext in Hw as (n'&Hw&Hn); [|apply get_fset].
      exists n'. split; [econstructor; eauto|]. intros j. rewrite <- Hn. apply Hs.
    + inversion H; subst. split; auto. eexists. split; [econstructor; eauto|now intros j].
  - inversion H; subst. split; auto. eexists. split; [constructor|now intros j].
Qed.

Lemma get_in d k : get d k <> None <-> In k (map fst (d : list (K * V))).
Proof.
  rewrite dict_get_none by auto. split; [|tauto].
  intros H. destruct (in_dec (fun a b => match keqb a b as e return keqb a b = e -> _ with
     | true => fun E => left (proj1 (keqb_eq a b) E)
     | false => fun E => right (fun E' => eq_ind false (fun b => if b then False else True) I true (eq_trans (eq_sym E) (proj2 (keqb_eq a b) E')))
     end eq_refl) k (map fst d)); tauto.
Qed.

Lemma values_flat (d : list (K * V)) : NoDup (map fst d) ->
  map snd d = flat_map (fun k => match get d k with Some v => [v] | None => [] end) (map fst d).
Proof.
  assert (G : forall pre, NoDup (map fst (pre ++ d)) ->
    map snd d = flat_map (fun k => match get (pre ++ d) k with Some v => [v] | None => [] end) (map fst d)).
  { induction d as [|[k v] t IH]; intros pre ND; simpl; auto.
    assert (E : get (pre ++ (k, v) :: t) k = Some v).
    { clear IH. induction pre as [|[a b] p IHp]; simpl.
      - now rewrite keqb_refl.
      - inversion ND as [|? ? Hn ND']; subst. destruct (keqb a k) eqn:Ea; [|apply IHp; exact ND'].
        apply keqb_eq in Ea as ->. exfalso. apply Hn. rewrite map_app. apply in_or_app. right. now left. }
    rewrite E. simpl. f_equal. specialize (IH (pre ++ [(k, v)])).
    rewrite <- app_assoc in IH. simpl in IH. apply IH. exact ND. }
  intros ND. apply (G []). exact ND.
Qed.

(** Every operation of the typed dict meets the finite-map specification; no key ever occurs
    twice. *)
Theorem C23_refines_finite_map : forall o d w r d' w',
  NoDup (map fst d) -> dict_exec o (d, w) = (r, (d', w')) ->
  NoDup (map fst d') /\ dspec o (get d) w r (get d') w'.
Proof.
  intros o d w r d' w' ND H. destruct o; cbn [CollModel.dict_exec] in H.
  - destruct (dict_setitem isitem coerceitem keqb k x (d, w)) as [r1 [d1 w1]] eqn:E.
    apply setitem_spec in E as [(y&Ha&->&->)|(Hr&->&->)]; inversion H; subst.
    + split; [now apply dict_set_NoDup|]. eapply S_ext; [constructor; eauto|].
      intros j. symmetry. apply get_fset.
    + split; auto. now constructor.
  - destruct (get d k) eqn:E; inversion H; subst.
    + split; [now apply dict_del_NoDup|]. eapply S_ext; [econstructor; eauto|].
      intros j. unfold fset. now rewrite dict_get_del.
    + split; auto. now constructor.
  - destruct (get d k) eqn:E; inversion H; subst; (split; [auto|now constructor]).
  - destruct (get d k) eqn:E; inversion H; subst.
    + split; [now apply dict_del_NoDup|]. eapply S_ext; [econstructor; eauto|].
      intros j. unfold fset. now rewrite dict_get_del.
    + split; auto. now constructor.
  - destruct (rev d) as [|[k v] t] eqn:E.
    + inversion H; subst. split; auto. constructor. intros k.
      assert (d' = []) as -> by (rewrite <- (rev_involutive d'), E; reflexivity). reflexivity.
    + inversion H; subst. assert (Ed : d = rev t ++ [(k, v)]) by (rewrite <- (rev_involutive d), E; reflexivity).
      rewrite Ed in ND. rewrite map_app in ND. simpl in ND.
      assert (ND2 : NoDup (map fst (rev t)) /\ ~ In k (map fst (rev t))).
      { split.
        - apply NoDup_remove_1 in ND. now rewrite app_nil_r in ND.
        - apply NoDup_remove_2 in ND. now rewrite app_nil_r in ND. }
      destruct ND2 as [ND2 Hk]. split; auto.
      assert (G : forall j, get d j = if keqb k j then Some v else get (rev t) j).
      { intros j. rewrite Ed. clear - Hk keqb_eq. induction (rev t) as [|[a b] u IH]; simpl.
        - reflexivity.
        - simpl in Hk. destruct (keqb a j) eqn:Ea.
          + destruct (keqb k j) eqn:Ek; auto. apply keqb_eq in Ea, Ek. subst. tauto.
          + apply IH. tauto. }
      eapply S_ext; [apply S_popitem with (k := k) (v := v); rewrite G, keqb_refl; auto|].
      intros j. unfold fset. rewrite G. destruct (keqb k j) eqn:Ek; auto.
      apply keqb_eq in Ek. subst. symmetry. apply dict_get_none; auto.
  - inversion H; subst. split; [constructor|]. constructor.
  - destruct (dict_update isitem coerceitem keqb u kw (d, w)) as [r1 [d1 w1]] eqn:E.
    assert (Hr : r = match r1 with Ok _ => Ok DRUnit | Err e => Err e end /\ d' = d1 /\ w' = w1)
      by (destruct r1; inversion H; auto).
    destruct Hr as (->&->&->). clear H.
    assert (P : forall xs s, 
      (match dict_setall isitem coerceitem keqb xs s (d, w) with
       | (Ok _, st') => dict_setall isitem coerceitem keqb (map Ok kw) None st'
       | (Err e, st') => (Err e, st') end) = (r1, (d1, w1)) ->
      NoDup (map fst d1) /\ dspec (DUpdate (UPairs xs s) kw) (get d) w (match r1 with Ok _ => Ok DRUnit | Err e => Err e end) (get d1) w1).
    { intros xs s P. destruct (dict_setall isitem coerceitem keqb xs s (d, w)) as [[[]|e] [d2 w2]] eqn:E1.
      - apply setall_spec in E1 as (ND2&m2&Hw&Hs); auto.
        apply setall_spec in P as (ND3&m3&Hw3&Hs3); auto. split; auto.
        eapply writes_ext in Hw3 as (n3&Hw3&Hn3); [|intros j; symmetry; apply Hs].
        eapply S_ext; [eapply S_update_pairs; [exact Hw|exact Hw3]|].
        intros j. rewrite <- Hn3. apply Hs3.
      - apply setall_spec in E1 as (ND2&m2&Hw&Hs); auto. inversion P; subst. split; auto.
        eapply S_ext; [eapply S_update_fails1; exact Hw|exact Hs]. }
    unfold dict_update in E. destruct u as [|items|xs s|].
    + destruct (P [] None) as [P1 P2]; [exact E|]. split; auto. now apply S_update_none.
    + destruct (P (map Ok items) None) as [P1 P2]; [exact E|]. split; auto. now apply S_update_map.
    + apply P. exact E.
    + inversion E; subst. split; auto. constructor.
  - inversion H; subst. split; auto. constructor.
  - inversion H; subst. split; auto. apply S_len with (map fst d'); auto using map_length.
    intros k. now rewrite get_in.
  - inversion H; subst. split; auto. apply S_keys; auto. intros k. now rewrite get_in.
  - inversion H; subst. split; auto. rewrite (values_flat d') by auto. apply S_values; auto.
    intros k. now rewrite get_in.
Qed.

(** In a failing update the entries written before the failure stay, no other key is
    touched. *)
Theorem C23_failing_update : forall xs s m w r m' w',
  writes xs s m w r m' w' ->
  exists pre rest, xs = pre ++ rest /\ (r = Ok tt -> rest = []) /\
    (forall k, ~ In k (flat_map (fun x => match x with Ok (k, _) => [k] | Err _ => [] end) pre) -> m' k = m k) /\
    (forall k, In k (flat_map (fun x => match x with Ok (k, _) => [k] | Err _ => [] end) pre) ->
       exists x w1 z w2, In (Ok (k, x)) pre /\ accepts2 x w1 z w2 /\ m' k = Some z).
Proof.
  induction 1.
  - exists [], []. repeat split; auto. intros k [].
  - exists [], []. repeat split; auto. intros k [].
  - exists [], (Err e :: t). repeat split; auto; try discriminate. intros k [].
  - exists [], (Ok (k, x) :: t). repeat split; auto; try discriminate. intros j [].
  - destruct IHwrites as (pre&rest&->&H1&H2&H3). exists (Ok (k, x) :: pre), rest.
    repeat split; auto.
    + intros j Hj. simpl in Hj. rewrite H2 by tauto. unfold fset.
      destruct (keqb k j) eqn:E; auto. apply keqb_eq in E. tauto.
    + intros j Hj. simpl in Hj.
      destruct (existsb (keqb j) (flat_map (fun x => match x with Ok (k, _) => [k] | Err _ => [] end) pre)) eqn:E.
      * apply (existsb_keys keqb keqb_eq) in E. destruct (H3 j E) as (x'&w1'&z'&w2&?&?&?).
        exists x', w1', z', w2. simpl. auto.
      * destruct Hj as [->|Hj].
        -- exists x, w, z, w1. split; [now left|]. split; auto. rewrite H2.
           ++ unfold fset. now rewrite keqb_refl.
           ++ intros Hin. apply (existsb_keys keqb keqb_eq) in Hin. congruence.
        -- apply (existsb_keys keqb keqb_eq) in Hj. congruence.
Qed.

(** Insertion order: assigning to a key that is there keeps the order of the keys, a new key
    goes last. *)
Theorem C23_key_order : forall k x d w d' w',
  dict_exec (DSet k x) (d, w) = (Ok DRUnit, (d', w')) ->
  (In k (map fst d) -> map fst d' = map fst d) /\
  (~ In k (map fst d) -> map fst d' = map fst d ++ [k]).
Proof.
  intros k x d w d' w' H. cbn [CollModel.dict_exec] in H.
  destruct (dict_setitem isitem coerceitem keqb k x (d, w)) as [r1 [d1 w1]] eqn:E.
  apply setitem_spec in E as [(y&Ha&->&->)|(Hr&->&->)]; inversion H; subst.
  rewrite dict_set_keys by auto. destruct (existsb (keqb k) (map fst d)) eqn:E.
  - apply existsb_keys in E; auto. tauto.
  - split; auto. intros Hin. apply (existsb_keys keqb keqb_eq) in Hin. congruence.
Qed.

Definition dtyped (d : list (K * V)) : Prop := typed isitem (map snd d).

Lemma dset_typed d k v : isitem v = true -> dtyped d -> dtyped (dict_set keqb d k v).
Proof. intros Hv T x Hx. apply dict_set_In in Hx as [->|Hx]; auto. Qed.

Lemma setall_typed xs : good_coercion isitem coerceitem -> forall s d w r d' w', dtyped d ->
  dict_setall isitem coerceitem keqb xs s (d, w) = (r, (d', w')) -> dtyped d'.
Proof.
  intros G. induction xs as [|[[k x]|e] t IH]; intros s d w r d' w' T H; cbn [dict_setall] in H.
  - destruct s; inversion H; subst; auto.
  - destruct (dict_coerce_setitem isitem coerceitem keqb k x (d, w)) as [r1 [d1 w1]] eqn:E.
    apply coerce_setitem_spec in E as [(z&Hz&->&->)|(Hr&->&->)].
    + eapply IH; [|exact H]. apply dset_typed; auto.
      destruct Hz as (y&w2&_&Hy). eapply accepts_typed; eauto.
    + inversion H; subst; auto.
  - inversion H; subst; auto.
Qed.

Lemma dict_exec_typed o d w r d' w' : good_coercion isitem coerceitem -> dtyped d ->
  dict_exec o (d, w) = (r, (d', w')) -> dtyped d'.
Proof.
  intros G T H.
  assert (Del : forall k, dtyped (dict_del keqb d k)).
  { intros k x Hx. apply T. apply in_map_iff in Hx as (y&<-&Hy). apply in_map.
    eapply dict_del_sub; eauto. }
  destruct o; cbn [CollModel.dict_exec] in H; try (inversion H; subst; auto; fail).
  - destruct (dict_setitem isitem coerceitem keqb k x (d, w)) as [r1 [d1 w1]] eqn:E.
    apply setitem_spec in E as [(y&Ha&->&->)|(Hr&->&->)]; inversion H; subst; auto.
    apply dset_typed; auto. eapply accepts_typed; eauto.
  - destruct (get d k); inversion H; subst; auto.
  - destruct (get d k); inversion H; subst; auto.
  - destruct (get d k); inversion H; subst; auto.
  - destruct (rev d) as [|[k v] t] eqn:E; inversion H; subst; auto.
    intros x Hx. apply T. rewrite <- (rev_involutive d), E. simpl. rewrite map_app.
    apply in_or_app. auto.
  - inversion H; subst. intros x [].
  - destruct (dict_update isitem coerceitem keqb u kw (d, w)) as [r1 [d1 w1]] eqn:E.
    assert (d' = d1) as -> by (destruct r1; inversion H; auto).
    unfold dict_update in E.
    assert (P : forall first : res unit * (list (K * V) * W),
      (forall r2 d2 w2, first = (r2, (d2, w2)) -> dtyped d2) ->
      match first with (Err e, st') => (Err e, st')
      | (Ok _, st') => dict_setall isitem coerceitem keqb (map Ok kw) None st' end = (r1, (d1, w1)) -> dtyped d1).
    { intros [r2 [d2 w2]] F P. specialize (F _ _ _ eq_refl). destruct r2.
      - eapply setall_typed; eauto.
      - inversion P; subst; auto. }
    eapply P; [|exact E]. intros r2 d2 w2 F. destruct u.
    + inversion F; subst; auto.
    + eapply setall_typed; eauto.
    + eapply setall_typed; eauto.
    + inversion F; subst; auto.
Qed.

Theorem C21_dict_values_typed : forall src w d w1 os outs d' w',
  good_coercion isitem coerceitem ->
  dict_new src w = (Ok d, w1) ->
  dict_run os (d, w1) = (outs, (d', w')) ->
  NoDup (map fst d') /\ forall k x, In (k, x) d' -> isitem x = true.
Proof.
  intros src w d w1 os outs d' w' G Hn Hr.
  assert (T : NoDup (map fst d) /\ dtyped d).
  { unfold dict_new in Hn. destruct (dict_source key_of_nat as_pair src) as [[xs stop]|]; [|discriminate].
    destruct (coerce_pairs isitem coerceitem xs stop w) as [[ys [e|]] w2] eqn:E; inversion Hn; subst.
    assert (Ty : typed isitem (map snd ys)).
    { clear Hn Hr. revert w ys w1 E. generalize (@None exn) as fin. induction xs as [|[k x] t IH]; simpl; intros fin w ys w1 E.
      - inversion E; subst. intros x [].
      - destruct (coerce_value isitem coerceitem x w) as [[y|e] w2] eqn:Ec; [|inversion E; subst; intros z []].
        destruct (coerce_pairs isitem coerceitem t stop w2) as [[ys1 e1] w3] eqn:Et.
        inversion E; subst. apply coerce_value_ok in Ec. apply accepts_typed in Ec; auto.
        intros z [<-|Hz]; auto. eapply IH; eauto. }
    clear Hn E Hr. assert (Acc : forall acc, NoDup (map fst acc) /\ dtyped acc ->
      NoDup (map fst (fold_left (fun d kv => dict_set keqb d (fst kv) (snd kv)) ys acc)) /\
      dtyped (fold_left (fun d kv => dict_set keqb d (fst kv) (snd kv)) ys acc)).
    { induction ys as [|[k y] t IH]; simpl; intros acc [H1 H2]; auto.
      apply IH; [intros z Hz; apply Ty; now right|]. split; [now apply dict_set_NoDup|].
      apply dset_typed; auto. apply Ty. now left. }
    apply Acc. split; [constructor|intros x []]. }
  clear Hn. revert d w1 outs T Hr. induction os as [|o t IH]; cbn [CollModel.dict_run]; intros d w1 outs T Hr.
  - inversion Hr; subst. destruct T as [T1 T2]. split; auto. intros k x Hx. apply T2.
    apply in_map_iff. exists (k, x). auto.
  - destruct (dict_exec o (d, w1)) as [r [d1 w2]] eqn:E1.
    destruct (dict_run t (d1, w2)) as [rs st2] eqn:E2. inversion Hr; subst.
    eapply IH; [|exact E2]. destruct T. split.
    + eapply C23_refines_finite_map; eauto.
    + eapply dict_exec_typed; eauto.
Qed.

End Dicts.

(** ** Cases *)

Section Cases.
Open Scope Z_scope.

(** Items: numbers and pieces of text; the list wants numbers, text is coerced to its
    length, and text of length 3 is turned down.  The world counts the coercions. *)
Inductive val := Num (n : Z) | Txt (s : list Z).
Definition is_num (v : val) := match v with Num _ => true | Txt _ => false end.
Definition to_num (v : val) (w : nat) : res val * nat :=
  match v with
  | Txt s => if Nat.eqb (length s) 3 then (Err ValueErr, S w) else (Ok (Num (Z.of_nat (length s))), S w)
  | Num n => (Ok (Num n), S w)
  end.
Definition val_eqb (a b : val) := match a, b with Num x, Num y => x =? y | _, _ => false end.
Definition chars (v : val) : @iterable val :=
  match v with Num _ => NotIter | Txt s => Items (map (fun c => Txt (repeat 0 (Z.to_nat c))) s) None end.
Definition no_fmt (v : val) := match v with Txt [_; _] => true | _ => false end.
Definition sort_ok (l : list val) : list val * option exn := (rev l, None).

Notation lexec := (list_exec is_num to_num val_eqb chars no_fmt sort_ok).
Notation lrun := (list_run is_num to_num val_eqb chars no_fmt sort_ok).
Notation lnew := (list_new is_num to_num (fun ks : list Z => ks) Z.eqb).

Lemma to_num_good : good_coercion is_num to_num.
Proof.
  intros [n|s] w v' w'; simpl; intros H.
  - inversion H; reflexivity.
  - destruct (Nat.eqb (length s) 3); inversion H; reflexivity.
Qed.

(** construction, then a history with successes and failures *)
Example C21_case :
  lnew (SSequence [Num 4; Txt [7; 7]]) 0%nat = (Ok [Num 4; Num 2], 1%nat) /\
  lrun [LAppend (Txt []); LAppend (Txt [1; 2; 3]); LSetItem (-1) (Num 9);
        LExtend (Items [Num 1; Txt [1; 1; 1]; Num 5] None); LSort] ([Num 4; Num 2], 1%nat)
  = ([Ok RUnit; Err CollItemCoerceErr; Ok RUnit; Err CollItemCoerceErr; Ok RUnit],
     ([Num 1; Num 9; Num 2; Num 4], 4%nat)) /\
  sorter_permutes sort_ok /\ good_coercion is_num to_num.
Proof.
  repeat split; try (intros l; apply Permutation_sym, Permutation_rev). apply to_num_good.
Qed.

(** A coerce function that returns something of the wrong type gets it into the list: the
    coerced value is never checked (coll.py:90-100). *)
Theorem C21_bad_coercion_refuted : exists (coerceitem : val -> nat -> res val * nat) src l w1 x,
  list_new is_num coerceitem (fun ks : list Z => ks) Z.eqb src 0%nat = (Ok l, w1) /\
  In x l /\ is_num x = false.
Proof.
  exists (fun v w => (Ok v, w)), (SSequence [Txt []]), [Txt []], 0%nat, (Txt []).
  repeat split. now left.
Qed.

Example C22_same_case :
  coerced is_num to_num (LSetSlice (mkSlice (Some (-1)) None None) (Items [Txt [1]; Num 6] None)) 0%nat
    (LSetSlice (mkSlice (Some (-1)) None None) (Items [Num 1; Num 6] None)) 1%nat /\
  lexec (LSetSlice (mkSlice (Some (-1)) None None) (Items [Txt [1]; Num 6] None)) ([Num 8; Num 9], 0%nat)
  = (Ok RUnit, ([Num 8; Num 1; Num 6], 1%nat)) /\
  ~ divergent (V := val) no_fmt (LIndex (Num 9) 0 (Some 2)) [Num 8; Num 9] /\
  lexec (LIndex (Num 9) 0 (Some 2)) ([Num 8; Num 9], 0%nat) = (Ok (RNat 1), ([Num 8; Num 9], 0%nat)).
Proof.
  repeat split.
  - exists [Num 1; Num 6]. split; [|reflexivity].
    econstructor; [right; split; reflexivity|]. econstructor; [left; repeat split|]. constructor.
  - simpl. intros [H|H]; [lia|discriminate].
Qed.

Fixpoint put (k : Z) (l : list Z) : list Z :=
  match l with [] => [k] | x :: t => if k <=? x then k :: l else x :: put k t end.
Definition by_key : list Z -> list Z := fold_right put [].

Lemma by_key_ok ks : Permutation (by_key ks) ks /\ Sorted Z.le (by_key ks).
Proof.
  induction ks as [|k ks [P S]]; cbn [by_key fold_right]; [auto|]. fold (by_key ks). split.
  - apply perm_trans with (k :: by_key ks); [|auto]. generalize (by_key ks). clear.
    induction l as [|x t IH]; cbn [put]; auto. destruct (k <=? x); auto.
    apply perm_trans with (x :: k :: t); [auto|constructor].
  - revert S. generalize (by_key ks). clear. induction l as [|x t IH]; intros S; cbn [put]; [auto|].
    destruct (Z.leb_spec k x); [auto|]. inversion S; subst. constructor; auto.
    destruct t as [|y t]; cbn [put]; [constructor; lia|]. inversion H3; subst.
    destruct (k <=? y); constructor; lia.
Qed.

Example C22_from_mapping_case :
  (forall ks, Permutation (by_key ks) ks /\ Sorted Z.le (by_key ks)) /\
  list_new is_num to_num by_key Z.eqb
    (SMapping [(3, Num 7); (1, Txt [5; 5]); (2, Num 4)]) 0%nat = (Ok [Num 2; Num 4; Num 7], 1%nat).
Proof. split; [exact by_key_ok|reflexivity]. Qed.

Example C22_insert_case :
  lexec (LInsert (-1) (Txt [1; 0])) ([Num 8; Num 9], 0%nat)
    = (Ok RUnit, ([Num 8; Num 1; Num 0; Num 9], 2%nat)) /\
  lexec (LInsert 0 (Num 5)) ([Num 8], 0%nat) = (Err TypeErr, ([Num 8], 0%nat)).
Proof. split; reflexivity. Qed.

Example C22_pop_case :
  lexec (LPop (-3)) ([Num 8; Num 9], 0%nat) = (Ok (RVal (Num 8)), ([Num 9], 0%nat)).
Proof. reflexivity. Qed.

Example C22_index_case :
  lexec (LIndex (Num 7) 0 (Some 5)) ([Num 8; Num 9], 0%nat) = (Err IndexErr, ([Num 8; Num 9], 0%nat)) /\
  lexec (LIndex (Num 7) 0 None) ([Num 8; Num 9], 0%nat) = (Err ValueErr, ([Num 8; Num 9], 0%nat)) /\
  lexec (LRemove (Txt [1; 2])) ([Num 8; Num 9], 0%nat) = (Err TypeErr, ([Num 8; Num 9], 0%nat)).
Proof. repeat split. Qed.

Example C22_refused_case :
  refuses is_num to_num (Txt [1; 2; 3]) 0%nat 1%nat /\
  lexec (LContains (Txt [1; 2; 3])) ([Num 8], 0%nat) = (Err CollItemCoerceErr, ([Num 8], 1%nat)).
Proof. repeat split. simpl. eauto. Qed.

Example C22_add_case :
  typed is_num [Num 1] /\
  list_add is_num to_num (fun ks : list Z => ks) Z.eqb [Num 1] (APlain [Txt []; Num 2]) 0%nat
  = (Ok [Num 1; Num 0; Num 2], 1%nat).
Proof. split; [intros x [<-|[]]; reflexivity|reflexivity]. Qed.

Notation dexec := (dict_exec is_num to_num Z.eqb).

Example C23_case :
  NoDup (map fst [(1, Num 10); (2, Num 20)]) /\
  dexec (DUpdate (UPairs [Ok (3, Txt [5]); Ok (1, Txt []); Ok (2, Txt [1; 1; 1]); Ok (4, Num 1)] None) [])
    ([(1, Num 10); (2, Num 20)], 0%nat)
  = (Err CollItemCoerceErr, ([(1, Num 0); (2, Num 20); (3, Num 1)], 3%nat)) /\
  dexec DPopitem ([(1, Num 10); (2, Num 20)], 0%nat) = (Ok (DRItem 2 (Num 20)), ([(1, Num 10)], 0%nat)).
Proof.
  repeat split. repeat constructor; simpl; intuition discriminate.
Qed.

Example C23_order_case :
  dexec (DSet 1 (Txt [0])) ([(1, Num 10); (2, Num 20)], 0%nat)
    = (Ok DRUnit, ([(1, Num 1); (2, Num 20)], 1%nat)) /\
  dexec (DSet 3 (Num 0)) ([(1, Num 10); (2, Num 20)], 0%nat)
    = (Ok DRUnit, ([(1, Num 10); (2, Num 20); (3, Num 0)], 0%nat)).
Proof. split; reflexivity. Qed.

(** Building a dict from mappings coerces each value once, update twice. *)
Example C23_coerces_twice :
  exists co : val -> nat -> res val * nat,
  dict_new is_num co Z.eqb Z.of_nat (fun _ => None) (SMapping [(1, Txt [1; 1])]) 0%nat
    = (Ok [(1, Txt [1])], 1%nat) /\
  dict_exec is_num co Z.eqb (DUpdate (UMapping [(1, Txt [1; 1])]) []) ([], 0%nat)
    = (Ok DRUnit, ([(1, Txt [])], 2%nat)).
Proof.
  exists (fun v w => match v with Txt (_ :: s) => (Ok (Txt s), S w) | _ => (Err ValueErr, w) end).
  split; reflexivity.
Qed.

End Cases.

Print Assumptions C21_list_items_typed.
Print Assumptions C22_same_as_builtin.
Print Assumptions C22_insert_spreads.
Print Assumptions C22_pop_far_below.
Print Assumptions C22_index_divergence.
Print Assumptions C22_failure_atomic.
Print Assumptions C22_refused_item_raises.
Print Assumptions C22_from_sequence.
Print Assumptions C22_from_mapping.
Print Assumptions C22_add.
Print Assumptions C23_refines_finite_map.
Print Assumptions C23_failing_update.
Print Assumptions C23_key_order.
Print Assumptions C21_dict_values_typed.
Print Assumptions C21_bad_coercion_refuted.
