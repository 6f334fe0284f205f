(** Proofs about visiting with apply_empty_slots (C61). *)
From Coq Require Import String List NArith ZArith Arith Bool Lia.
From Verif Require Import Prelude SelPathModel FSModel MFSModel MFSProofs GenModel PickleModel AutoModel JsonModel JsonSpec JsonProofs
  VisitModel DiffFilter VisitSpec VisitProofs VisitPath EmptySlotModel EmptySlotSpec.
Import ListNotations.
Local Open Scope string_scope.
Local Open Scope list_scope.

Lemma held_slot v n : unpack_slot v n = held_at v n.
Proof. destruct v as [[]|]; reflexivity. Qed.

Lemma listy_kind W c : listy W c = is_list_kind (w_kind W c).
Proof. unfold listy. destruct (w_kind W c); reflexivity. Qed.

Lemma indexed_in {A} (l : list A) j k x : In (k, x) (indexed j l) <-> exists i, k = EInt (Z.of_nat (j + i)) /\ nth_error l i = Some x.
Proof.
  revert j. induction l as [|y l IH]; intros j; simpl.
  - split; [tauto|]. intros ([|i] & _ & E); discriminate.
  - rewrite IH. split.
    + intros [E|(i & -> & N)].
      * injection E as <- <-. exists 0. split; [now rewrite Nat.add_0_r|reflexivity].
      * exists (S i). split; [f_equal; lia|exact N].
    + intros ([|i] & -> & N).
      * left. simpl in N. injection N as ->. now rewrite Nat.add_0_r.
      * right. exists i. split; [f_equal; lia|exact N].
Qed.
Lemma keyed_in {A} (l : list (str * A)) k x : In (k, x) (keyed l) <-> exists s, k = EStr s /\ In (s, x) l.
Proof.
  unfold keyed. rewrite in_map_iff. split.
  - intros ([s y] & E & I). injection E as <- <-. eauto.
  - intros (s & -> & I). exists (s, x). auto.
Qed.

(** the items unpacked are the items there are *)
Lemma unpack_has W v c l k x : unpack_items W (Some v) c = Some l -> In (k, x) l -> has_item (listy W c) v k x.
Proof.
  assert (HL : forall l, In (k, x) (indexed 0 l) ->
      match k with EInt i => (0 <= i)%Z /\ nth_error l (Z.to_nat i) = Some x | _ => False end).
  { clear. intros l I. apply indexed_in in I as (i & -> & N). cbn [Nat.add]. split; [lia|now rewrite Nat2Z.id]. }
  assert (HD : forall l, In (k, x) (keyed l) -> match k with EStr s => In (s, x) l | _ => False end).
  { clear. intros l I. apply keyed_in in I as (s & -> & N). exact N. }
  unfold unpack_items, has_item. destruct v; try discriminate.
  - rewrite listy_kind. destruct (is_list_kind _); [|discriminate]. intros E I. injection E as <-. split; auto. exact (HL _ I).
  - rewrite listy_kind. destruct (is_list_kind _); [discriminate|]. intros E I. injection E as <-. split; auto. exact (HD _ I).
  - unfold slot. change (s2l "_values") with items_name. destruct (find_name items_name slots) as [w|]; [|discriminate].
    intros E I. exists w. split; auto. destruct w; try discriminate; injection E as <-; [exact (HL _ I)|exact (HD _ I)].
Qed.
Lemma has_unpack W v c k x : has_item (listy W c) v k x -> exists l, unpack_items W (Some v) c = Some l /\ In (k, x) l.
Proof.
  assert (HL : forall l, match k with EInt i => (0 <= i)%Z /\ nth_error l (Z.to_nat i) = Some x | _ => False end -> In (k, x) (indexed 0 l)).
  { clear. intros l. destruct k as [s|i|]; try tauto. intros [H N]. apply indexed_in. exists (Z.to_nat i). split; auto. cbn [Nat.add]. now rewrite Z2Nat.id. }
  assert (HD : forall l, match k with EStr s => In (s, x) l | _ => False end -> In (k, x) (keyed l)).
  { clear. intros l. destruct k; try tauto. intros I. apply keyed_in. eauto. }
  unfold unpack_items, has_item. rewrite listy_kind. destruct v; try tauto.
  - intros [-> A]. eauto.
  - intros [-> A]. eauto.
  - intros (w & S & A). unfold slot in S. change (s2l "_values") with items_name in S. rewrite S.
    destruct w; try tauto; eauto.
Qed.
Lemma item_size W v c l k x : unpack_items W (Some v) c = Some l -> In (k, x) l -> pysize x < pysize v.
Proof.
  intros U I. pose proof (unpack_has _ _ _ _ _ _ U I) as H. unfold has_item in H. destruct v; try tauto.
  - destruct H as [_ H]. destruct k; try tauto. destruct H as [_ H]. apply nth_error_In in H. now apply size_list.
  - destruct H as [_ H]. destruct k; try tauto. eapply size_dict; eauto.
  - destruct H as (w & S & H). apply find_name_in in S. apply (size_obj _ _ c0) in S.
    destruct w; try tauto; destruct k; try tauto.
    + destruct H as [_ H]. apply nth_error_In, size_list in H. lia.
    + apply size_dict in H. lia.
Qed.
Lemma slot_size v n x : unpack_slot (Some v) n = Some x -> pysize x < pysize v.
Proof. destruct v; try discriminate. simpl. intros F. exact (size_obj _ _ c _ (find_name_in _ _ _ F)). Qed.

Lemma taken_dec t x : (exists d, taken_as t x d) \/ forall d, ~ taken_as t x d.
Proof.
  destruct t as [|isa co|c co]; simpl.
  - destruct x as [v|]; [|right; auto].
    destruct v; try (right; intros d [sl E]; discriminate E). left. eauto.
  - right. destruct x; auto.
  - left. destruct x; eauto.
Qed.

Section Path.
Variable W : world.
Variable o : vopts.
Variable P : option (list (list elem)).
Hypothesis FO : filter_of o P.
Notation meets := (meets W o P).

Lemma prop_taken f go q p x d : taken_as (q_type p) x d -> map_prop_e f go q p x = go x d q.
Proof.
  unfold map_prop_e, taken_as. destruct (q_type p).
  - destruct x as [v|]; [|tauto]. intros [sl ->]. reflexivity.
  - destruct x; tauto.
  - destruct x; intros ->; reflexivity.
Qed.
Lemma prop_leaf f go q p x : (forall d, ~ taken_as (q_type p) x d) -> map_prop_e f go q p x = f q (Some p) x.
Proof.
  unfold map_prop_e, taken_as. destruct (q_type p); intros H.
  - destruct x as [[]|]; auto. exfalso. eapply H; eauto.
  - destruct x; reflexivity.
  - exfalso. destruct x; eapply H; eauto.
Qed.

(** ** Equations *)
Definition vitems_e (e : bool) f n (v : option pyv) c q : out (option pyv) :=
  if is_coll W c then
    match unpack_items W v c with
    | Some l => let* ms := map_collection_e o f (visit_e W o e f n) q (w_item W c) l in
                let* a := aggregate W c ms in Val (Some a)
    | None => Exc [] VisitorUnpack
    end
  else Val None.
Lemma visit_e_eq e f n v c q : v <> Some PNone -> visit_e W o e f (S n) v c q =
  (let* coll := vitems_e e f n v c q in
   let* props := map_record_e o e f (visit_e W o e f n) q (w_props W c) (held_at v) in
   reduce W o q c props coll).
Proof.
  intros H. destruct v as [v|]; [|reflexivity]. destruct v; try reflexivity. congruence.
Qed.
Lemma none_dec (v : option pyv) : v = Some PNone \/ v <> Some PNone.
Proof. destruct v as [[]|]; auto; right; discriminate. Qed.

(** ** The same descent under two hooks, two settings *)
Lemma record_ext e e' f g go go' q ps get :
  (forall p, In p ps -> shown o P q p ->
     match get (q_name p) with
     | Some x => map_prop_e f go (q ++ [EStr (q_name p)]) p (Some x) = map_prop_e g go' (q ++ [EStr (q_name p)]) p (Some x)
     | None => match e, e' with
               | true, true => map_prop_e f go (q ++ [EStr (q_name p)]) p None = map_prop_e g go' (q ++ [EStr (q_name p)]) p None
               | false, false => True
               | true, false => exists y, map_prop_e f go (q ++ [EStr (q_name p)]) p None = Val y /\ ignored o y = true
               | false, true => False
               end
     end) ->
  map_record_e o e f go q ps get = map_record_e o e' g go' q ps get.
Proof.
  induction ps as [|p ps IH]; intros H; auto. cbn [map_record_e].
  rewrite IH by (intros; apply H; simpl; auto).
  destruct (is_filtered o q p) eqn:S; auto. apply (shown_iff o P FO) in S.
  specialize (H p (or_introl eq_refl) S). destruct (get (q_name p)) as [x|].
  - rewrite !orb_true_r. now rewrite H.
  - rewrite !orb_false_r. destruct e, e'; auto.
    + now rewrite H.
    + destruct H as (y & -> & I). cbn [obind]. rewrite I. destruct (map_record_e o false g go' q ps get); reflexivity.
    + tauto.
Qed.
Lemma collection_ext f g go go' q t l :
  (forall k x, In (k, x) l -> match t with
     | TCls c _ => go (Some x) c (q ++ [k]) = go' (Some x) c (q ++ [k])
     | _ => f (q ++ [k]) None (Some x) = g (q ++ [k]) None (Some x)
     end) ->
  map_collection_e o f go q t l = map_collection_e o g go' q t l.
Proof.
  induction l as [|[k x] l IH]; intros H; auto. cbn [map_collection_e].
  rewrite IH by (intros; apply H; simpl; auto).
  specialize (H k x (or_introl eq_refl)). destruct t; now rewrite H.
Qed.

Theorem same_calls e f g : forall n c v q,
  (forall q' p x, meets e c v q q' (Leaf p x) -> f q' p x = g q' p x) ->
  visit_e W o e f n v c q = visit_e W o e g n v c q.
Proof.
  induction n as [|n IH]; intros c v q H; auto.
  destruct (none_dec v) as [->|Nv]; [reflexivity|]. rewrite !visit_e_eq by auto.
  assert (EV : vitems_e e f n v c q = vitems_e e g n v c q).
  { unfold vitems_e. destruct (is_coll W c) eqn:C; auto. apply coll_iff in C.
    destruct v as [v|]; auto. destruct (unpack_items W (Some v) c) as [l|] eqn:U; auto.
    rewrite (collection_ext f g _ (visit_e W o e g n)); auto. intros k x I.
    pose proof (unpack_has _ _ _ _ _ _ U I) as HI.
    destruct (w_item W c) as [|isa co|d co] eqn:T.
    - apply H. exact (mt_item_leaf W o P e c v q k x C HI ltac:(intros; congruence)).
    - apply H. exact (mt_item_leaf W o P e c v q k x C HI ltac:(intros; congruence)).
    - apply IH. intros q' p y M. apply H. eapply mt_item; eauto. }
  rewrite EV. rewrite (record_ext e e f g _ (visit_e W o e g n)); auto.
  intros p Ip S.
  assert (G : forall x, held_at v (q_name p) = x -> (x = None -> e = true) ->
     map_prop_e f (visit_e W o e f n) (q ++ [EStr (q_name p)]) p x = map_prop_e g (visit_e W o e g n) (q ++ [EStr (q_name p)]) p x).
  { intros x <- X. destruct (taken_dec (q_type p) (held_at v (q_name p))) as [[d T]|T].
    - rewrite !(prop_taken _ _ _ _ _ d) by auto. apply IH. intros q' p' y M. apply H.
      exact (mt_slot W o P e c v q p d q' _ Ip S X T M).
    - rewrite !prop_leaf by auto. apply H. exact (mt_leaf W o P e c v q p Ip S X T). }
  destruct (held_at v (q_name p)) as [x|] eqn:E.
  - apply G; auto. discriminate.
  - destruct e; auto.
Qed.

(** Empty slots for which the hook gives what is left out make no difference. *)
Theorem no_difference f : forall n c v q,
  (forall q' d, ~ meets true c v q q' (Node d None)) ->
  (forall q' p, meets true c v q q' (Leaf p None) -> exists y, f q' p None = Val y /\ ignored o y = true) ->
  visit_e W o true f n v c q = visit_e W o false f n v c q.
Proof.
  induction n as [|n IH]; intros c v q HN HL; auto.
  destruct (none_dec v) as [->|Nv]; [reflexivity|]. rewrite !visit_e_eq by auto.
  assert (EV : vitems_e true f n v c q = vitems_e false f n v c q).
  { unfold vitems_e. destruct (is_coll W c) eqn:C; auto. apply coll_iff in C.
    destruct v as [v|]; auto. destruct (unpack_items W (Some v) c) as [l|] eqn:U; auto.
    rewrite (collection_ext f f _ (visit_e W o false f n)); auto. intros k x I.
    pose proof (unpack_has _ _ _ _ _ _ U I) as HI.
    destruct (w_item W c) as [|isa co|d co] eqn:T; auto.
    apply IH.
    - intros q' d' M. eapply HN. eapply mt_item; eauto.
    - intros q' p M. eapply HL. eapply mt_item; eauto. }
  rewrite EV. rewrite (record_ext true false f f _ (visit_e W o false f n)); auto.
  intros p Ip S. destruct (taken_dec (q_type p) (held_at v (q_name p))) as [[d T]|T].
  - assert (Go : forall q' t, meets true d (held_at v (q_name p)) (q ++ [EStr (q_name p)]) q' t -> meets true c v q q' t)
      by (intros; eapply mt_slot; eauto).
    destruct (held_at v (q_name p)) as [x|] eqn:E.
    + rewrite !(prop_taken _ _ _ _ _ d) by auto. apply IH; eauto.
      intros q' d' M. eapply HN. eauto.
    + exfalso. eapply HN. apply Go. apply mt_here.
  - pose proof (mt_leaf W o P true c v q p Ip S (fun _ => eq_refl) T) as M.
    destruct (held_at v (q_name p)) as [x|] eqn:E.
    + now rewrite !prop_leaf.
    + rewrite prop_leaf by auto. eauto.
Qed.

(** ** Every slot is given to the hook *)
Lemma record_val e f go q ps get l : map_record_e o e f go q ps get = Val l ->
  forall p, In p ps -> shown o P q p -> (get (q_name p) = None -> e = true) ->
  exists m, map_prop_e f go (q ++ [EStr (q_name p)]) p (get (q_name p)) = Val m.
Proof.
  revert l. induction ps as [|p ps IH]; intros l E p' I S G; [destruct I|].
  cbn [map_record_e] in E. destruct I as [->|I].
  - apply (shown_iff o P FO) in S. rewrite S in E.
    replace (e || match get (q_name p') with Some _ => true | None => false end) with true in E.
    2:{ destruct (get (q_name p')); [now rewrite orb_true_r|]. now rewrite G. }
    destruct (map_prop_e _ _ _ _ _) as [m|]; [eauto|discriminate].
  - destruct (is_filtered o q p); [eauto|]. destruct (e || _); [|eauto].
    destruct (map_prop_e f go (q ++ [EStr (q_name p)]) p (get (q_name p))) as [m'|]; cbn [obind] in E; [|discriminate].
    destruct (map_record_e o e f go q ps get) as [r|] eqn:R; cbn [obind] in E; [|discriminate]. eauto.
Qed.
Lemma collection_val f go q t l ms : map_collection_e o f go q t l = Val ms -> forall k x, In (k, x) l ->
  exists m, match t with TCls c _ => go (Some x) c (q ++ [k]) | _ => f (q ++ [k]) None (Some x) end = Val m.
Proof.
  revert ms. induction l as [|[k x] l IH]; intros ms E k' x' I; [destruct I|]. cbn [map_collection_e] in E.
  destruct (match t with TCls c _ => go (Some x) c (q ++ [k]) | _ => f (q ++ [k]) None (Some x) end) as [m|] eqn:M;
    cbn [obind] in E; [|discriminate].
  destruct (map_collection_e o f go q t l) as [r|] eqn:R; cbn [obind] in E; [|discriminate].
  destruct I as [I|I]; [|eauto]. injection I as <- <-. eauto.
Qed.
Lemma visit_e_val e f n v c q out : visit_e W o e f n v c q = Val out ->
  exists m coll props, n = S m /\ vitems_e e f m v c q = Val coll /\
    map_record_e o e f (visit_e W o e f m) q (w_props W c) (held_at v) = Val props /\ reduce W o q c props coll = Val out.
Proof.
  destruct n as [|m]; [discriminate|]. destruct (none_dec v) as [->|Nv]; [discriminate|].
  rewrite visit_e_eq by auto. intros E.
  destruct (vitems_e e f m v c q) as [coll|] eqn:V; cbn [obind] in E; [|discriminate].
  destruct (map_record_e _ _ _ _ _ _ _) as [props|] eqn:R; cbn [obind] in E; [|discriminate].
  exists m, coll, props. auto.
Qed.

(** what the visit comes to was visited too *)
Lemma step_slot e f n v c q out p d : visit_e W o e f n v c q = Val out ->
  In p (w_props W c) -> shown o P q p -> (held_at v (q_name p) = None -> e = true) ->
  taken_as (q_type p) (held_at v (q_name p)) d ->
  exists m out', m < n /\ visit_e W o e f m (held_at v (q_name p)) d (q ++ [EStr (q_name p)]) = Val out'.
Proof.
  intros E Ip S X T. apply visit_e_val in E as (m & coll & props & -> & _ & R & _).
  destruct (record_val _ _ _ _ _ _ _ R p Ip S X) as [y Y]. rewrite (prop_taken _ _ _ _ _ d) in Y by auto.
  exists m, y. split; [lia|auto].
Qed.
Lemma step_item e f n v c q out k x : visit_e W o e f n (Some v) c q = Val out ->
  collection W c -> has_item (listy W c) v k x ->
  exists m out', m < n /\ match w_item W c with
                 | TCls d _ => visit_e W o e f m (Some x) d (q ++ [k])
                 | _ => f (q ++ [k]) None (Some x)
                 end = Val out'.
Proof.
  intros E C H. apply visit_e_val in E as (m & coll & props & -> & V & _).
  apply coll_iff in C. unfold vitems_e in V. rewrite C in V. apply has_unpack in H as (l & U & I). rewrite U in V.
  destruct (map_collection_e _ _ _ _ _ _) as [ms|] eqn:M; cbn [obind] in V; [|discriminate].
  destruct (collection_val _ _ _ _ _ _ M k x I) as [y Y]. exists m, y. split; [lia|auto].
Qed.

Theorem all_met e f c v q q' t : meets e c v q q' t -> forall n out, visit_e W o e f n v c q = Val out ->
  match t with
  | Node d x => exists m y, m <= n /\ visit_e W o e f m x d q' = Val y
  | Leaf p x => exists y, f q' p x = Val y
  end.
Proof.
  induction 1 as [c v q|c v q p Ip S X T|c v q p d q' t Ip S X T M IH|c v q k x C HI T|c v q k x d co q' t C HI T M IH]; intros n out E.
  - exists n, out. auto.
  - apply visit_e_val in E as (m & coll & props & -> & _ & R & _).
    destruct (record_val _ _ _ _ _ _ _ R p Ip S X) as [y Y]. rewrite prop_leaf in Y by auto. eauto.
  - destruct (step_slot _ _ _ _ _ _ _ p d E Ip S X T) as (m & y & L & Y). specialize (IH _ _ Y).
    destruct t; auto. destruct IH as (m' & y' & L' & Y'). exists m', y'. split; [lia|auto].
  - destruct (step_item _ _ _ _ _ _ _ k x E C HI) as (m & y & L & Y).
    destruct (w_item W c) eqn:TT; eauto. destruct (T _ _ eq_refl).
  - destruct (step_item _ _ _ _ _ _ _ k x E C HI) as (m & y & L & Y). rewrite T in Y. specialize (IH _ _ Y).
    destruct t; auto. destruct IH as (m' & y' & L' & Y'). exists m', y'. split; [lia|auto].
Qed.

(** ** Where it is in the output *)
Lemma record_find e f go q ps get l : map_record_e o e f go q ps get = Val l -> NoDup (map q_name ps) ->
  forall p, In p ps -> shown o P q p -> (get (q_name p) = None -> e = true) ->
  exists m, map_prop_e f go (q ++ [EStr (q_name p)]) p (get (q_name p)) = Val m /\
    find_name (q_name p) l = if ignored o m then None else Some m.
Proof.
  assert (Sub : forall ps l, map_record_e o e f go q ps get = Val l -> incl (map fst l) (map q_name ps)).
  { clear. induction ps as [|p ps IH]; cbn [map_record_e]; intros l E.
    - injection E as <-. apply incl_refl.
    - destruct (is_filtered o q p); [apply incl_tl; auto|]. destruct (e || _); [|apply incl_tl; auto].
      destruct (map_prop_e _ _ _ _ _); cbn [obind] in E; [|discriminate].
      destruct (map_record_e o e f go q ps get) eqn:R; cbn [obind] in E; [|discriminate].
      injection E as <-. destruct (ignored o a); [apply incl_tl; auto|].
      intros n [<-|I]; [simpl; auto|right; eapply IH; eauto]. }
  revert l. induction ps as [|p ps IH]; intros l E N p' I S G; [destruct I|].
  cbn [map_record_e] in E. simpl in N. inversion N as [|? ? N1 N2]; subst.
  destruct I as [->|I].
  - apply (shown_iff o P FO) in S. rewrite S in E.
    replace (e || match get (q_name p') with Some _ => true | None => false end) with true in E.
    2:{ destruct (get (q_name p')); [now rewrite orb_true_r|]. now rewrite G. }
    destruct (map_prop_e _ _ _ _ _) as [m|]; cbn [obind] in E; [|discriminate].
    destruct (map_record_e o e f go q ps get) as [r|] eqn:R; cbn [obind] in E; [|discriminate].
    exists m. split; auto. injection E as <-. destruct (ignored o m).
    + apply find_name_none. intros I. apply N1. exact (Sub _ _ R _ I).
    + simpl. now rewrite str_eqb_refl.
  - assert (NE : q_name p' <> q_name p) by (intros X; apply N1; rewrite <- X; now apply in_map).
    destruct (is_filtered o q p); [eapply IH; eauto|].
    destruct (e || match get (q_name p) with Some _ => true | None => false end); [|eapply IH; eauto].
    destruct (map_prop_e f go (q ++ [EStr (q_name p)]) p (get (q_name p))) as [m'|]; cbn [obind] in E; [|discriminate].
    destruct (map_record_e o e f go q ps get) as [r|] eqn:R; cbn [obind] in E; [|discriminate].
    destruct (IH r eq_refl N2 p' I S G) as (m0 & M & F). exists m0. split; auto.
    injection E as <-. destruct (ignored o m'); auto. simpl.
    destruct (str_eqb (q_name p') (q_name p)) eqn:X; auto. apply str_eqb_eq in X. congruence.
Qed.
Lemma record_names e f go q ps get l : map_record_e o e f go q ps get = Val l ->
  forall n m, In (n, m) l -> exists p, In p ps /\ q_name p = n /\ shown o P q p.
Proof.
  revert l. induction ps as [|p ps IH]; cbn [map_record_e]; intros l E n m I.
  - injection E as <-. destruct I.
  - assert (Tl : forall r, map_record_e o e f go q ps get = Val r -> In (n, m) r -> exists p0, In p0 (p :: ps) /\ q_name p0 = n /\ shown o P q p0).
    { intros r R J. destruct (IH r R n m J) as (p0 & K1 & K2). exists p0. simpl; auto. }
    destruct (is_filtered o q p) eqn:Fp; [eauto|]. destruct (e || _); [|eauto].
    destruct (map_prop_e _ _ _ _ _) as [m'|] eqn:M; cbn [obind] in E; [|discriminate].
    destruct (map_record_e o e f go q ps get) as [r|] eqn:R; cbn [obind] in E; [|discriminate].
    injection E as <-. destruct (ignored o m'); [eauto|]. destruct I as [J|J]; [|eauto].
    injection J as <- <-. exists p. split; [simpl; auto|]. split; auto. now apply (shown_iff o P FO).
Qed.

Hypothesis ST : sound_types W.

Lemma vitems_e_coll e f n v c q a : vitems_e e f n v c q = Val (Some a) -> is_coll W c = true /\ container a.
Proof.
  unfold vitems_e. destruct (is_coll W c); [|discriminate]. destruct (unpack_items _ _ _); [|discriminate].
  destruct (map_collection_e _ _ _ _ _ _); cbn [obind]; [|discriminate].
  destruct (aggregate W c a0) eqn:E; cbn [obind]; [|discriminate]. intros H; injection H as <-.
  split; auto. eapply aggregate_container; eauto.
Qed.
Lemma visit_e_container e f n v c q out : visit_e W o e f n v c q = Val out -> container out.
Proof.
  intros E. apply visit_e_val in E as (m & coll & props & _ & V & _ & R). eapply reduce_container; eauto.
  intros a ->. eapply vitems_e_coll; eauto.
Qed.

(** the place of a shown property *)
Lemma place e f n v c q out p : visit_e W o e f n v c q = Val out ->
  In p (w_props W c) -> shown o P q p -> (held_at v (q_name p) = None -> e = true) ->
  exists m y, map_prop_e f (visit_e W o e f m) (q ++ [EStr (q_name p)]) p (held_at v (q_name p)) = Val y /\
    forall r, out_at out (EStr (q_name p) :: r) = if ignored o y then None else out_at y r.
Proof.
  intros E Ip S X. apply visit_e_val in E as (m & coll & props & -> & V & M & R).
  destruct (record_find _ _ _ _ _ _ _ M (proj1 (ST c)) p Ip S X) as (y & Y & F). exists m, y. split; auto.
  intros r. enough (out_at out (EStr (q_name p) :: r) = match find_name (q_name p) props with Some z => out_at z r | None => None end) as ->.
  { rewrite F. destruct (ignored o y); reflexivity. }
  unfold reduce in R. destruct coll as [a|]; [|injection R as <-; reflexivity].
  apply vitems_e_coll in V as [C _].
  destruct (forallb (is_filtered o q) (w_props W c)) eqn:AF.
  { rewrite (all_filtered W o P FO) in AF. destruct (AF p Ip S). }
  assert (Fv : find_name values_name props = None).
  { apply find_name_none. intros I. apply in_map_iff in I as ([k z] & En & I). simpl in En. subst k.
    destruct (record_names _ _ _ _ _ _ _ M _ z I) as (p' & Ip' & En & _).
    apply (proj2 (ST c)) in Ip'; [|now apply coll_iff]. tauto. }
  rewrite Fv, dset_fresh in R by (now apply find_name_none). injection R as <-.
  cbn [out_at]. rewrite find_name_app. destruct (find_name (q_name p) props); auto. cbn [find_name].
  destruct (str_eqb (q_name p) values_name) eqn:Eq; auto. apply str_eqb_eq in Eq. exfalso.
  apply (proj2 (ST c)) in Ip; [|now apply coll_iff]. destruct Ip as [Y' _]. apply Y'. exact Eq.
Qed.

Theorem all_placed f c v q r p x : down W o P c v q r p x -> forall n out, visit_e W o true f n v c q = Val out ->
  exists y, f (q ++ map EStr r) (Some p) x = Val y /\ out_at out (map EStr r) = if ignored o y then None else Some y.
Proof.
  induction 1 as [c v q p Ip S T|c v q p d r p' x Ip S T D IH]; intros n out E;
    destruct (place _ _ _ _ _ _ _ p E Ip S (fun _ => eq_refl)) as (m & y & Y & F); cbn [map].
  - rewrite prop_leaf in Y by auto. exists y. split; auto. rewrite F. reflexivity.
  - rewrite (prop_taken _ _ _ _ _ d) in Y by auto. destruct (IH _ _ Y) as (z & Z & G). exists z. split.
    + rewrite <- app_assoc in Z. exact Z.
    + rewrite F. rewrite (container_kept o y) by (eapply visit_e_container; eauto). exact G.
Qed.
End Path.
