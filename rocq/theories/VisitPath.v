(** Proofs about visiting under a filter (C42). *)
From Coq Require Import String List NArith ZArith Arith Bool Lia Permutation.
From Verif Require Import Prelude SelPathModel FSModel MFSModel MFSProofs GenModel PickleModel AutoModel JsonModel JsonSpec JsonProofs
  VisitModel DiffFilter VisitSpec VisitProofs.
Import ListNotations.
Local Open Scope string_scope.
Local Open Scope list_scope.

(** ** Sizes *)
Fixpoint pysize (v : pyv) : nat :=
  match v with
  | PList l | PTuple l => S (list_sum (map pysize l))
  | PDict l => S (list_sum (map (fun e => pysize (snd e)) l))
  | PObj _ l => S (list_sum (map (fun e => pysize (snd e)) l))
  | _ => 1
  end.
Lemma list_sum_in x l : In x l -> x <= list_sum l.
Proof.
  induction l as [|y t IH]; [intros []|]. intros H. cbn [list_sum fold_right].
  change (fold_right Nat.add 0 t) with (list_sum t).
  destruct H as [->|H]; [lia|specialize (IH H); lia].
Qed.
Lemma size_list x l : In x l -> pysize x < pysize (PList l).
Proof.
  intros H. cbn [pysize]. pose proof (list_sum_in (pysize x) (map pysize l) (in_map _ _ _ H)). lia.
Qed.
Lemma size_dict k x l : In (k, x) l -> pysize x < pysize (PDict l).
Proof.
  intros H. cbn [pysize]. pose proof (list_sum_in (pysize x) (map (fun e => pysize (snd e)) l) (in_map (fun e => pysize (snd e)) _ _ H)). lia.
Qed.
Lemma size_obj k x c l : In (k, x) l -> pysize x < pysize (PObj c l).
Proof.
  intros H. cbn [pysize]. pose proof (list_sum_in (pysize x) (map (fun e => pysize (snd e)) l) (in_map (fun e => pysize (snd e)) _ _ H)). lia.
Qed.

Section Path.
Variable W : world.
Variable o : vopts.
Variable P : option (list (list elem)).
Hypothesis FO : filter_of o P.
Notation leads := (leads W o P).
Notation agree := (agree W o P).

Lemma shown_iff q p : is_filtered o q p = false <-> shown o P q p.
Proof.
  assert (F : (match v_filter o with
               | None => false
               | Some m => mfs_true m && negb (match getitem_path m (q ++ [EStr (q_name p)]) with
                                               | Some m' => mfs_true m' | None => false end)
               end) = false <-> selected P (q ++ [EStr (q_name p)])).
  { destruct P as [l|]; cbn [filter_of selected] in *.
    - destruct FO as (Ne & ordm & m & Ho & Hm & ->).
      rewrite (touches_iff ordm Ho l Ne m Hm).
      assert (HT : mfs_true m = true).
      { pose proof (filter_heads ordm Ho l Ne m Hm) as H. unfold mfs_true. destruct (heads m); congruence. }
      rewrite HT. cbn [andb]. destruct (getitem_path m (q ++ [EStr (q_name p)])) as [m'|] eqn:E.
      + assert (H : heads m' <> []).
        { eapply getitem_path_nonempty; eauto.
          - eapply filter_wf; eauto.
          - eapply filter_heads; eauto. }
        unfold mfs_true. destruct (heads m'); simpl; [congruence|]. split; [congruence|auto].
      + simpl. split; congruence.
    - rewrite FO. tauto. }
  unfold is_filtered, shown, hidden. rewrite orb_false_iff, F.
  destruct (v_extraneous o), (q_extraneous p); simpl; intuition congruence.
Qed.
Lemma shown_dec q p : {shown o P q p} + {~ shown o P q p}.
Proof.
  destruct (is_filtered o q p) eqn:E; [right|left; now apply shown_iff].
  intros H. apply shown_iff in H. congruence.
Qed.

Lemma all_filtered q c : forallb (is_filtered o q) (w_props W c) = true <-> forall p, In p (w_props W c) -> ~ shown o P q p.
Proof.
  rewrite forallb_forall. split; intros H p I.
  - intros S. apply shown_iff in S. rewrite (H p I) in S. discriminate.
  - destruct (is_filtered o q p) eqn:E; auto. apply shown_iff in E. destruct (H p I E).
Qed.
Lemma some_shown q c : forallb (is_filtered o q) (w_props W c) = false <-> exists p, In p (w_props W c) /\ shown o P q p.
Proof.
  split.
  - intros H. induction (w_props W c) as [|p t IH]; [discriminate|]. simpl in H.
    destruct (is_filtered o q p) eqn:E.
    + destruct (IH H) as (p' & I & S). exists p'. simpl; auto.
    + exists p. split; [simpl; auto|now apply shown_iff].
  - intros (p & I & S). destruct (forallb _ _) eqn:E; auto. rewrite all_filtered in E. destruct (E p I S).
Qed.
Lemma under_exists c q r : exists r', items_under W o P c q r r'.
Proof.
  destruct (forallb (is_filtered o q) (w_props W c)) eqn:E.
  - exists r. right. split; auto. now apply all_filtered.
  - exists (EStr (s2l "values") :: r). left. split; auto. now apply some_shown.
Qed.

Lemma coll_iff c : is_coll W c = true <-> collection W c.
Proof. unfold is_coll, is_coll_kind, collection. destruct (w_kind W c); intuition congruence. Qed.

Lemma seen_dec t x : (exists d, seen_as t x d) \/ forall d, ~ seen_as t x d.
Proof.
  destruct t as [|isa co|c co]; simpl.
  - destruct x; try (right; intros d [sl E]; discriminate E). left. exists c, slots. reflexivity.
  - right. auto.
  - left. eauto.
Qed.

Section Hook.
Variable apply : list elem -> option prop -> pyv -> out pyv.
Notation visit := (visit W o apply).
Notation vmap := (vmap W o apply).

Lemma map_prop_seen q p x d : seen_as (q_type p) x d -> map_prop apply q p (vmap x) = visit x d q.
Proof.
  unfold map_prop, seen_as. destruct (q_type p); cbn [fst snd VisitProofs.vmap].
  - intros [sl ->]. reflexivity.
  - tauto.
  - intros ->. reflexivity.
Qed.
Lemma map_prop_leaf q p x : (forall d, ~ seen_as (q_type p) x d) -> map_prop apply q p (vmap x) = apply q (Some p) x.
Proof.
  unfold map_prop, seen_as. destruct (q_type p); cbn [fst snd VisitProofs.vmap]; intros H.
  - destruct x; auto. exfalso. eapply H; eauto.
  - destruct x; reflexivity.
  - exfalso. eapply H; eauto.
Qed.

Lemma map_record_find q ps get l : map_record o apply q ps get = Val l -> NoDup (map q_name ps) ->
  forall p x, In p ps -> shown o P q p -> get (q_name p) = Some x ->
  exists m, map_prop apply (q ++ [EStr (q_name p)]) p x = Val m /\
    find_name (q_name p) l = if ignored o m then None else Some m.
Proof.
  assert (Sub : forall ps l, map_record o apply q ps get = Val l -> incl (map fst l) (map q_name ps)).
  { clear. induction ps as [|p ps IH]; cbn [map_record]; intros l E.
    - injection E as <-. apply incl_refl.
    - destruct (is_filtered o q p); [apply incl_tl; auto|]. destruct (get (q_name p)); [|apply incl_tl; auto].
      destruct (map_prop _ _ _ _); cbn [obind] in E; [|discriminate].
      destruct (map_record o apply q ps get) eqn:R; cbn [obind] in E; [|discriminate].
      injection E as <-. destruct (ignored o a); [apply incl_tl; auto|].
      intros n [<-|I]; [simpl; auto|right; eapply IH; eauto]. }
  revert l. induction ps as [|p ps IH]; intros l E N p' x I S G; [destruct I|].
  cbn [map_record] in E. simpl in N. inversion N as [|? ? N1 N2]; subst.
  destruct I as [->|I].
  - apply shown_iff in S. rewrite S, G in E.
    destruct (map_prop _ _ _ _) as [m|]; cbn [obind] in E; [|discriminate].
    destruct (map_record o apply q ps get) as [r|] eqn:R; cbn [obind] in E; [|discriminate].
    exists m. split; auto. injection E as <-. destruct (ignored o m).
    + apply find_name_none. intros I. apply N1. exact (Sub _ _ R _ I).
    + simpl. now rewrite str_eqb_refl.
  - assert (NE : q_name p' <> q_name p) by (intros X; apply N1; rewrite <- X; now apply in_map).
    destruct (is_filtered o q p); [eapply IH; eauto|]. destruct (get (q_name p)); [|eapply IH; eauto].
    destruct (map_prop apply (q ++ [EStr (q_name p)]) p m) as [m'|]; cbn [obind] in E; [|discriminate].
    destruct (map_record o apply q ps get) as [r|] eqn:R; cbn [obind] in E; [|discriminate].
    destruct (IH r eq_refl N2 p' x I S G) as (m0 & M & F). exists m0. split; auto.
    injection E as <-. destruct (ignored o m'); auto. simpl.
    destruct (str_eqb (q_name p') (q_name p)) eqn:X; auto. apply str_eqb_eq in X. congruence.
Qed.

Lemma map_record_in q ps get l : map_record o apply q ps get = Val l ->
  forall n m, In (n, m) l -> exists p x, In p ps /\ q_name p = n /\ shown o P q p /\ get n = Some x /\
    map_prop apply (q ++ [EStr n]) p x = Val m.
Proof.
  revert l. induction ps as [|p ps IH]; cbn [map_record]; intros l E n m I.
  - injection E as <-. destruct I.
  - assert (Tl : forall r, map_record o apply q ps get = Val r -> In (n, m) r -> exists p0 x, In p0 (p :: ps) /\ q_name p0 = n /\ shown o P q p0 /\ get n = Some x /\
      map_prop apply (q ++ [EStr n]) p0 x = Val m).
    { intros r R J. destruct (IH r R n m J) as (p0 & x & K1 & K2). exists p0, x. simpl; auto. }
    destruct (is_filtered o q p) eqn:Fp; [eauto|]. destruct (get (q_name p)) as [x|] eqn:G; [|eauto].
    destruct (map_prop _ _ _ _) as [m'|] eqn:M; cbn [obind] in E; [|discriminate].
    destruct (map_record o apply q ps get) as [r|] eqn:R; cbn [obind] in E; [|discriminate].
    injection E as <-. destruct (ignored o m'); [eauto|]. destruct I as [J|J]; [|eauto].
    injection J as <- <-. exists p, x. split; [simpl; auto|]. split; auto. split; [now apply shown_iff|]. auto.
Qed.

Lemma map_collection_in q t l ms : map_collection o apply q t l = Val ms ->
  forall k m, In (k, m) ms -> exists x, In (k, x) l /\ map_item apply (q ++ [k]) t x = Val m.
Proof.
  revert ms. induction l as [|[k x] l IH]; cbn [map_collection]; intros ms E k' m I.
  - injection E as <-. destruct I.
  - destruct (map_item _ _ _ _) as [m'|] eqn:M; cbn [obind] in E; [|discriminate].
    destruct (map_collection o apply q t l) as [r|] eqn:R; cbn [obind] in E; [|discriminate].
    injection E as <-. assert (Tl : In (k', m) r -> exists x0, In (k', x0) ((k, x) :: l) /\ map_item apply (q ++ [k']) t x0 = Val m).
    { intros J. destruct (IH r eq_refl k' m J) as (x0 & K1 & K2). exists x0. simpl; auto. }
    destruct (ignored o m'); [auto|]. destruct I as [J|J]; auto. injection J as <- <-. exists x. simpl; auto.
Qed.

(** nothing dropped: the results correspond to the items one by one *)
Lemma map_collection_all q t l ms : map_collection o apply q t l = Val ms ->
  (forall k x m, In (k, x) l -> map_item apply (q ++ [k]) t x = Val m -> ignored o m = false) ->
  Forall2 (fun kx km => fst kx = fst km /\ map_item apply (q ++ [fst kx]) t (snd kx) = Val (snd km)) l ms.
Proof.
  revert ms. induction l as [|[k x] l IH]; cbn [map_collection]; intros ms E H.
  - injection E as <-. constructor.
  - destruct (map_item _ _ _ _) as [m'|] eqn:M; cbn [obind] in E; [|discriminate].
    destruct (map_collection o apply q t l) as [r|] eqn:R; cbn [obind] in E; [|discriminate].
    injection E as <-. rewrite (H k x m') by (simpl; auto). constructor; auto.
    apply IH; auto. intros k0 x0 m0 I. apply H. simpl; auto.
Qed.

Hypothesis ST : sound_types W.

(** ** Containers *)

Definition container (v : pyv) : Prop := (exists l, v = PList l) \/ exists l, v = PDict l.

Lemma container_kept v : container v -> ignored o v = false.
Proof. intros [[l ->]|[l ->]]; reflexivity. Qed.

Lemma aggregate_container c ms a : aggregate W c ms = Val a -> container a.
Proof.
  unfold aggregate, to_list, to_dict. destruct (is_list_kind _).
  - intros E; injection E as <-. left; eauto.
  - destruct (omap _ ms); cbn [obind]; [|discriminate]. intros E; injection E as <-. right; eauto.
Qed.
Lemma vitems_container c q v a : vitems W o apply c q v = Val (Some a) -> container a.
Proof.
  unfold vitems. destruct (is_coll W c); [|discriminate]. destruct (option_map _ v) as [[l|]|]; try discriminate.
  destruct (map_collection _ _ _ _ _); cbn [obind]; [|discriminate].
  destruct (aggregate W c a0) eqn:E; cbn [obind]; [|discriminate]. intros H; injection H as <-.
  eapply aggregate_container; eauto.
Qed.
Lemma vitems_none c q v : vitems W o apply c q v = Val None -> is_coll W c = false.
Proof.
  unfold vitems. destruct (is_coll W c); auto. destruct (option_map _ v) as [[l|]|]; try discriminate.
  destruct (map_collection _ _ _ _ _); cbn [obind]; [|discriminate].
  destruct (aggregate W c a); cbn [obind]; discriminate.
Qed.
Lemma reduce_container q c props coll out : reduce W o q c props coll = Val out ->
  (forall a, coll = Some a -> container a) -> container out.
Proof.
  unfold reduce. destruct coll as [a|]; intros E H; [|injection E as <-; right; eauto].
  destruct (forallb _ _); [injection E as <-; auto|].
  destruct (find_name _ _) as [v|]; [destruct (py_true v); [discriminate|]|]; injection E as <-; right; eauto.
Qed.

(** what a visited record or collection consists of *)
Lemma visit_parts c' sl c q out : visit (PObj c' sl) c q = Val out ->
  exists coll props, vitems W o apply c q (slot sl (s2l "_values")) = Val coll /\
    map_record o apply q (w_props W c) (fun n => option_map vmap (slot sl n)) = Val props /\
    reduce W o q c props coll = Val out.
Proof.
  rewrite visit_obj. intros E. unfold slot. change (s2l "_values") with items_name.
  destruct (vitems _ _ _ _ _ _) as [coll|]; cbn [obind] in E; [|discriminate].
  destruct (map_record _ _ _ _ _) as [props|] eqn:M; cbn [obind] in E; [|discriminate].
  exists coll, props. auto.
Qed.
Lemma visit_container c' sl c q out : visit (PObj c' sl) c q = Val out -> container out.
Proof.
  intros E. apply visit_parts in E as (coll & props & V & M & R). eapply reduce_container; eauto.
  intros a ->. eapply vitems_container; eauto.
Qed.

(** the output of a record or collection in terms of its parts *)
Lemma reduce_shape q c props coll out :
  map_record o apply q (w_props W c) props = Val coll -> forall items,
  (forall a, items = Some a -> is_coll W c = true) ->
  reduce W o q c coll items = Val out ->
  match items with
  | None => out = PDict coll
  | Some a => ((forall p, In p (w_props W c) -> ~ shown o P q p) /\ out = a /\ coll = []) \/
              ((exists p, In p (w_props W c) /\ shown o P q p) /\ out = PDict (coll ++ [(s2l "values", a)]) /\
               find_name (s2l "values") coll = None)
  end.
Proof.
  intros M items HC. unfold reduce. destruct items as [a|]; [|intros E; now injection E as <-].
  destruct (forallb (is_filtered o q) (w_props W c)) eqn:AF.
  - intros E; injection E as <-. left. rewrite all_filtered in AF. split; auto. split; auto.
    destruct coll as [|[n m] t]; auto. exfalso.
    destruct (map_record_in _ _ _ _ M n m (or_introl eq_refl)) as (p & x & I & _ & S & _). exact (AF p I S).
  - assert (F : find_name values_name coll = None).
    { apply find_name_none. intros I. apply in_map_iff in I as ([n m] & En & I). simpl in En. subst n.
      destruct (map_record_in _ _ _ _ M _ m I) as (p & x & Ip & En & _).
      apply (proj2 (ST c)) in Ip; [|apply coll_iff; eauto]. tauto. }
    rewrite F, dset_fresh by (now apply find_name_none). intros E; injection E as <-.
    right. split; [now apply some_shown|]. auto.
Qed.

Lemma indexed_nth {A} (l : list A) j i : nth_error (indexed j l) i = option_map (fun x => (EInt (Z.of_nat (j + i)), x)) (nth_error l i).
Proof.
  revert j i. induction l as [|x t IH]; intros j i; destruct i; simpl; auto.
  - now rewrite Nat.add_0_r.
  - rewrite IH. replace (S j + i) with (j + S i) by lia. reflexivity.
Qed.
Lemma Forall2_nth {A B} (R : A -> B -> Prop) l m i : Forall2 R l m ->
  match nth_error l i, nth_error m i with
  | Some a, Some b => R a b
  | None, None => True
  | _, _ => False
  end.
Proof. intros H. revert i. induction H; intros [|i]; simpl; auto. apply IHForall2. Qed.

Lemma to_dict_find q t (l : list (str * pyv)) ms d :
  Forall2 (fun kx km => fst kx = fst km /\ map_item apply (q ++ [fst kx]) t (snd kx) = Val (snd km))
    (keyed (map (fun e => (fst e, vmap (snd e))) l)) ms ->
  to_dict ms = Val (PDict d) ->
  forall s, match find_name s l, find_name s d with
            | Some x, Some m => map_item apply (q ++ [EStr s]) t (vmap x) = Val m
            | None, None => True
            | _, _ => False
            end.
Proof.
  unfold to_dict. intros H.
  revert ms d H. induction l as [|[k x] l IH]; intros ms d H E s.
  - inversion H; subst. simpl in E. injection E as <-. simpl. auto.
  - simpl in H. inversion H as [|a [k' m] b ms' [E1 E2] H']; subst. cbn [fst snd] in E1, E2. subst k'.
    cbn [omap fst snd obind] in E.
    match type of E with context [omap ?f ms'] => destruct (omap f ms') as [d'|] eqn:O end; cbn [obind] in E; [|discriminate].
    injection E as <-. cbn [find_name]. destruct (str_eqb s k) eqn:X.
    + apply str_eqb_eq in X. subst s. exact E2.
    + apply (IH ms' d' H'). rewrite O. reflexivity.
Qed.

(** Items: those of the collection and those of the output correspond. *)
Definition held (c : nat) (sl : list (str * pyv)) : Prop :=
  (w_kind W c = KList \/ w_kind W c = KJsonList -> exists l, slot sl (s2l "_values") = Some (PList l)) /\
  (w_kind W c = KDict \/ w_kind W c = KJsonDict -> exists l, slot sl (s2l "_values") = Some (PDict l) /\ NoDup (map fst l)).

Lemma items_match c q sl a :
  is_coll W c = true -> held c sl ->
  vitems W o apply c q (slot sl (s2l "_values")) = Val (Some a) ->
  (forall k x m, item_at sl k x -> map_item apply (q ++ [k]) (w_item W c) (vmap x) = Val m -> ignored o m = false) ->
  (forall k x, item_at sl k x -> exists m, map_item apply (q ++ [k]) (w_item W c) (vmap x) = Val m /\
      forall r, out_at a (k :: r) = out_at m r) /\
  (forall k r y, out_at a (k :: r) = Some y -> exists x m, item_at sl k x /\
      map_item apply (q ++ [k]) (w_item W c) (vmap x) = Val m /\ out_at m r = Some y).
Proof.
  intros CK [HL HD] V KP. unfold vitems in V. rewrite CK in V.
  assert (KK : (w_kind W c = KList \/ w_kind W c = KJsonList) /\ is_list_kind (w_kind W c) = true \/
               (w_kind W c = KDict \/ w_kind W c = KJsonDict) /\ is_list_kind (w_kind W c) = false).
  { unfold is_coll in CK. destruct (w_kind W c); try discriminate; simpl; auto. }
  destruct KK as [[K LK]|[K LK]].
  - destruct (HL K) as [l El]. unfold item_at in *. rewrite El in V |- *. cbn [option_map items_of] in V.
    destruct (map_collection o apply q (w_item W c) _) as [ms|] eqn:M; cbn [obind] in V; [|discriminate].
    unfold aggregate in V. rewrite LK in V. unfold to_list in V. cbn [obind] in V. injection V as <-.
    apply map_collection_all in M.
    2:{ intros k [x f] m I. apply In_nth_error in I as [i I]. rewrite indexed_nth in I. cbn [Nat.add] in I.
        destruct (nth_error (map vmap l) i) as [y|] eqn:N; [|discriminate]. cbn [option_map] in I. injection I as <- ->.
        rewrite nth_error_map in N. destruct (nth_error l i) as [y|] eqn:N'; [|discriminate]. injection N as -> <-.
        apply KP. rewrite El. split; [lia|]. now rewrite Nat2Z.id. }
    assert (G : forall i, match nth_error l i, nth_error (map snd ms) i with
       | Some x, Some m => map_item apply (q ++ [EInt (Z.of_nat i)]) (w_item W c) (vmap x) = Val m
       | None, None => True | _, _ => False end).
    { intros i. pose proof (Forall2_nth _ _ _ i M) as F. rewrite indexed_nth, nth_error_map in F. cbn [Nat.add] in F.
      rewrite nth_error_map. destruct (nth_error l i), (nth_error ms i) as [[k m]|]; cbn [option_map fst snd] in *; auto.
      destruct F as [<- F]. exact F. }
    split.
    + intros [s|z|] x; try tauto. intros [Hz N]. specialize (G (Z.to_nat z)). rewrite N in G.
      destruct (nth_error (map snd ms) (Z.to_nat z)) as [m|] eqn:N'; [|tauto].
      rewrite Z2Nat.id in G by auto. exists m. split; auto. intros r. cbn [out_at].
      destruct (Z.leb_spec 0 z); [|lia]. now rewrite N'.
    + intros [s|z|] r y; cbn [out_at]; try discriminate.
      destruct (Z.leb_spec 0 z) as [Hz|]; [|discriminate]. specialize (G (Z.to_nat z)).
      destruct (nth_error (map snd ms) (Z.to_nat z)) as [m|] eqn:N'; [|discriminate]. intros Y.
      destruct (nth_error l (Z.to_nat z)) as [x|] eqn:N; [|tauto]. rewrite Z2Nat.id in G by auto.
      exists x, m. auto.
  - destruct (HD K) as (l & El & ND). unfold item_at in *. rewrite El in V |- *. cbn [option_map items_of] in V.
    destruct (map_collection o apply q (w_item W c) _) as [ms|] eqn:M; cbn [obind] in V; [|discriminate].
    unfold aggregate in V. rewrite LK in V.
    assert (exists d, to_dict ms = Val (PDict d)) as [d D].
    { unfold to_dict in *. destruct (omap _ ms); cbn [obind] in *; [eauto|discriminate]. }
    rewrite D in V. cbn [obind] in V. injection V as <-.
    apply map_collection_all in M.
    2:{ intros k [x f] m I. unfold keyed in I. rewrite map_map in I. apply in_map_iff in I as ([s y] & E & I).
        cbn [fst snd] in E. injection E as <- <- <-. apply KP. rewrite El. now apply in_find_name. }
    pose proof (to_dict_find q (w_item W c) l ms d M D) as G.
    split.
    + intros [s|z|] x; try tauto. intros N. specialize (G s). rewrite N in G.
      destruct (find_name s d) as [m|] eqn:N'; [|tauto].
      exists m. split; auto. intros r. cbn [out_at]. now rewrite N'.
    + intros [s|z|] r y; cbn [out_at]; try discriminate. specialize (G s).
      destruct (find_name s d) as [m|] eqn:N'; [|discriminate]. intros Y.
      destruct (find_name s l) as [x|] eqn:N; [|tauto]. exists x, m. auto.
Qed.

(** ** C42 *)

Definition wh (c : nat) (v : pyv) (q : list elem) : Prop :=
  forall q' r d w, leads c v q q' r (SNode d w) -> exists c' sl, w = PObj c' sl /\ held d sl.
Definition ik (c : nat) (v : pyv) (q : list elem) : Prop :=
  forall q' r x y, leads c v q q' r (SLeaf None x) -> apply q' None x = Val y -> ignored o y = false.

Lemma wh_slot c c' sl q p x d : In p (w_props W c) -> shown o P q p -> slot sl (q_name p) = Some x ->
  seen_as (q_type p) x d -> wh c (PObj c' sl) q -> wh d x (q ++ [EStr (q_name p)]).
Proof. intros I S F SE H q' r d' w L. eapply H. eapply ld_slot; eauto. Qed.
Lemma wh_item c c' sl q k x d co : collection W c -> item_at sl k x -> w_item W c = TCls d co ->
  wh c (PObj c' sl) q -> wh d x (q ++ [k]).
Proof.
  intros C I T H q' r d' w L. destruct (under_exists c q (k :: r)) as [r' U]. eapply H. eapply ld_item; eauto.
Qed.
Lemma ik_slot c c' sl q p x d : In p (w_props W c) -> shown o P q p -> slot sl (q_name p) = Some x ->
  seen_as (q_type p) x d -> ik c (PObj c' sl) q -> ik d x (q ++ [EStr (q_name p)]).
Proof. intros I S F SE H q' r d' w L. eapply H. eapply ld_slot; eauto. Qed.
Lemma ik_item c c' sl q k x d co : collection W c -> item_at sl k x -> w_item W c = TCls d co ->
  ik c (PObj c' sl) q -> ik d x (q ++ [k]).
Proof.
  intros C I T H q' r d' w L. destruct (under_exists c q (k :: r)) as [r' U]. eapply H. eapply ld_item; eauto.
Qed.

Lemma kept_items c c' sl q : is_coll W c = true -> wh c (PObj c' sl) q -> ik c (PObj c' sl) q ->
  forall k x m, item_at sl k x -> map_item apply (q ++ [k]) (w_item W c) (vmap x) = Val m -> ignored o m = false.
Proof.
  intros CK H K k x m I M. apply coll_iff in CK. unfold map_item in M.
  assert (Leaf : (forall d co, w_item W c <> TCls d co) -> apply (q ++ [k]) None x = Val m -> ignored o m = false).
  { intros T A. destruct (under_exists c q [k]) as [r U]. eapply K; eauto. eapply ld_item_leaf; eauto. }
  destruct (w_item W c) as [|isa co|d co] eqn:T; cbn [fst snd VisitProofs.vmap] in M.
  - apply Leaf; [discriminate|auto].
  - apply Leaf; [discriminate|auto].
  - pose proof (wh_item _ _ _ _ _ _ _ _ CK I T H) as Hx.
    destruct (Hx _ _ _ _ (ld_here W o P d x (q ++ [k]))) as (c1 & sl1 & -> & _).
    apply container_kept. eapply visit_container; eauto.
Qed.

(** what is at [t] is in the output at [r] *)
Definition present (out : pyv) (q r : list elem) (t : spot) : Prop :=
  match t with
  | SNode d w => exists y, visit w d q = Val y /\ out_at out r = Some y
  | SLeaf p x => exists y, apply q p x = Val y /\ out_at out r = if ignored o y then None else Some y
  end.

Lemma out_slot q c props get items out n :
  map_record o apply q (w_props W c) get = Val props ->
  (forall a, items = Some a -> is_coll W c = true) ->
  reduce W o q c props items = Val out ->
  (exists p, In p (w_props W c) /\ shown o P q p /\ q_name p = n) ->
  forall r, out_at out (EStr n :: r) = match find_name n props with Some m => out_at m r | None => None end.
Proof.
  intros M C R (p & Ip & S & En) r. pose proof (reduce_shape _ _ _ _ _ M items C R) as Sh.
  destruct items as [a|].
  - destruct Sh as [(N & _)|(_ & -> & F)]; [destruct (N p Ip S)|].
    cbn [out_at]. rewrite find_name_app. destruct (find_name n props); auto. cbn [find_name].
    destruct (str_eqb n (s2l "values")) eqn:E; auto. apply str_eqb_eq in E. exfalso.
    apply (proj2 (ST c)) in Ip; [|apply coll_iff; eauto]. destruct Ip as [X _]. congruence.
  - subst out. reflexivity.
Qed.

Lemma parts_coll c q v a coll : vitems W o apply c q v = Val coll -> coll = Some a -> is_coll W c = true.
Proof. intros V ->. unfold vitems in V. destruct (is_coll W c); auto. discriminate. Qed.

Lemma out_items q c props get a out r r' :
  map_record o apply q (w_props W c) get = Val props -> is_coll W c = true ->
  reduce W o q c props (Some a) = Val out -> items_under W o P c q r r' ->
  out_at out r' = out_at a r.
Proof.
  intros M C R U. pose proof (reduce_shape _ _ _ _ _ M (Some a) (fun _ _ => C) R) as Sh.
  destruct Sh as [(N & -> & _)|((p & I & S) & -> & F)]; destruct U as [((p' & I' & S') & ->)|(N' & ->)].
  - destruct (N p' I' S').
  - reflexivity.
  - cbn [out_at]. rewrite find_name_app, F. cbn [find_name]. now rewrite str_eqb_refl.
  - destruct (N' p I S).
Qed.

Theorem all_present c v q q' r t : leads c v q q' r t -> wh c v q -> ik c v q -> forall out,
  visit v c q = Val out -> present out q' r t.
Proof.
  induction 1 as [c v q|c c' sl q p x Ip S F NS|c c' sl q p x d q' r t Ip S F SE L IH
                 |c c' sl q k x r C I T U|c c' sl q k x d co q' r r' t C I T L IH U]; intros H K out E.
  - exists out. auto.
  - destruct (visit_parts _ _ _ _ _ E) as (coll & props & V & M & R).
    destruct (map_record_find _ _ _ _ M (proj1 (ST c)) p (vmap x) Ip S) as (m & MP & FP).
    { now rewrite F. }
    rewrite map_prop_leaf in MP by auto. exists m. split; auto.
    rewrite (out_slot _ _ _ _ _ _ _ M (fun a => parts_coll _ _ _ a _ V) R); eauto.
    rewrite FP. destruct (ignored o m); reflexivity.
  - destruct (visit_parts _ _ _ _ _ E) as (coll & props & V & M & R).
    destruct (map_record_find _ _ _ _ M (proj1 (ST c)) p (vmap x) Ip S) as (m & MP & FP).
    { now rewrite F. }
    rewrite (map_prop_seen _ _ _ d) in MP by auto.
    pose proof (wh_slot _ _ _ _ _ _ _ Ip S F SE H) as Hx.
    assert (Cm : ignored o m = false).
    { destruct (Hx _ _ _ _ (ld_here W o P d x _)) as (c1 & sl1 & -> & _). apply container_kept. eapply visit_container; eauto. }
    rewrite Cm in FP.
    pose proof (IH Hx (ik_slot _ _ _ _ _ _ _ Ip S F SE K) m MP) as Pr.
    assert (OA : out_at out (EStr (q_name p) :: r) = out_at m r).
    { rewrite (out_slot _ _ _ _ _ _ _ M (fun a => parts_coll _ _ _ a _ V) R); eauto. now rewrite FP. }
    unfold present in *. rewrite OA. exact Pr.
  - destruct (visit_parts _ _ _ _ _ E) as (coll & props & V & M & R).
    apply coll_iff in C. destruct coll as [a|]; [|apply vitems_none in V; congruence].
    destruct (H _ _ _ _ (ld_here W o P c _ q)) as (c1 & sl1 & X & Hd). injection X as <- <-.
    destruct (items_match c q sl a C Hd V (kept_items _ _ _ _ C H K)) as [A1 _].
    destruct (A1 k x I) as (m & MI & OA). exists m.
    assert (Am : apply (q ++ [k]) None x = Val m).
    { unfold map_item in MI. destruct (w_item W c) eqn:T'; auto. destruct (T _ _ eq_refl). }
    split; auto. rewrite (out_items _ _ _ _ _ _ _ _ M C R U), OA. cbn [out_at].
    rewrite (kept_items _ _ _ _ C H K k x m I MI). reflexivity.
  - destruct (visit_parts _ _ _ _ _ E) as (coll & props & V & M & R). pose proof C as C'.
    apply coll_iff in C. destruct coll as [a|]; [|apply vitems_none in V; congruence].
    destruct (H _ _ _ _ (ld_here W o P c _ q)) as (c1 & sl1 & X & Hd). injection X as <- <-.
    destruct (items_match c q sl a C Hd V (kept_items _ _ _ _ C H K)) as [A1 _].
    destruct (A1 k x I) as (m & MI & OA). unfold map_item in MI. rewrite T in MI. cbn [snd VisitProofs.vmap] in MI.
    pose proof (IH (wh_item _ _ _ _ _ _ _ _ C' I T H) (ik_item _ _ _ _ _ _ _ _ C' I T K) m MI) as Pr.
    assert (OA' : out_at out r' = out_at m r) by (rewrite (out_items _ _ _ _ _ _ _ _ M C R U); apply OA).
    unfold present in *. rewrite OA'. exact Pr.
Qed.

(** everything in the output is there because of something in the value *)
Definition explained (c : nat) (v : pyv) (q : list elem) (r : list elem) (y : pyv) : Prop :=
  exists q' r1 t, leads c v q q' r1 t /\
    match t with
    | SLeaf p x => exists z r2, r = r1 ++ r2 /\ apply q' p x = Val z /\ out_at z r2 = Some y
    | SNode d w => r = r1 \/
        (r = r1 ++ [EStr (s2l "values")] /\ collection W d /\ exists p, In p (w_props W d) /\ shown o P q' p)
    end.

Lemma explained_slot c c' sl q p x d r y : In p (w_props W c) -> shown o P q p -> slot sl (q_name p) = Some x ->
  seen_as (q_type p) x d -> explained d x (q ++ [EStr (q_name p)]) r y ->
  explained c (PObj c' sl) q (EStr (q_name p) :: r) y.
Proof.
  intros I S F SE (q' & r1 & t & L & T). exists q', (EStr (q_name p) :: r1), t. split; [eapply ld_slot; eauto|].
  destruct t.
  - destruct T as [-> |(-> & T)]; auto.
  - destruct T as (z & r2 & -> & T). exists z, r2. auto.
Qed.
Lemma explained_item c c' sl q k x d co r r' y : collection W c -> item_at sl k x -> w_item W c = TCls d co ->
  items_under W o P c q (k :: r) r' -> explained d x (q ++ [k]) r y ->
  explained c (PObj c' sl) q r' y.
Proof.
  intros C I T U (q' & r1 & t & L & Q).
  destruct (under_exists c q (k :: r1)) as [r1' U1]. exists q', r1', t. split; [eapply ld_item; eauto|].
  assert (App : forall r2, r = r1 ++ r2 -> r' = r1' ++ r2).
  { intros r2 ->. destruct U as [[(p & Ip & Sp) ->]|[N ->]], U1 as [[(p' & Ip' & Sp') ->]|[N' ->]]; auto.
    - destruct (N' p Ip Sp).
    - destruct (N p' Ip' Sp'). }
  destruct t.
  - destruct Q as [-> |(-> & Q)].
    + left. rewrite <- (app_nil_r r1'). apply App. now rewrite app_nil_r.
    + right. split; auto.
  - destruct Q as (z & r2 & E & Q). exists z, r2. auto.
Qed.

Theorem all_explained : forall n r, length r <= n -> forall c v q out y,
  wh c v q -> ik c v q -> visit v c q = Val out -> out_at out r = Some y -> explained c v q r y.
Proof.
  induction n as [|n IH]; intros r Ln c v q out y H K E O.
  - destruct r; [|simpl in Ln; lia]. exists q, [], (SNode c v). split; [apply ld_here|auto].
  - destruct r as [|k r]; [exists q, [], (SNode c v); split; [apply ld_here|auto]|]. simpl in Ln.
    destruct (H _ _ _ _ (ld_here W o P c v q)) as (c' & sl & -> & Hd).
    destruct (visit_parts _ _ _ _ _ E) as (coll & props & V & M & R).
    (* a slot *)
    assert (Slot : forall s m, k = EStr s -> find_name s props = Some m -> out_at m r = Some y -> explained c (PObj c' sl) q (k :: r) y).
    { intros s m -> Fs Om. apply find_name_in in Fs.
      destruct (map_record_in _ _ _ _ M s m Fs) as (p & x & Ip & <- & S & G & MP).
      destruct (slot sl (q_name p)) as [w|] eqn:F; [|discriminate]. injection G as <-.
      destruct (seen_dec (q_type p) w) as [[d SE]|NS].
      - rewrite (map_prop_seen _ _ _ d) in MP by auto. eapply explained_slot; eauto.
        eapply IH; [|eapply wh_slot; eauto|eapply ik_slot; eauto|exact MP|exact Om]. lia.
      - rewrite map_prop_leaf in MP by auto. exists (q ++ [EStr (q_name p)]), [EStr (q_name p)], (SLeaf (Some p) w).
        split; [eapply ld_leaf; eauto|]. exists m, r. auto. }
    (* an item *)
    assert (Item : forall a k' r1 r', coll = Some a -> out_at a (k' :: r1) = Some y -> length r1 <= n ->
              items_under W o P c q (k' :: r1) r' -> explained c (PObj c' sl) q r' y).
    { intros a k' r1 r' -> Oa L1 U. pose proof (parts_coll _ _ _ a _ V eq_refl) as C.
      destruct (items_match c q sl a C Hd V (kept_items _ _ _ _ C H K)) as [_ A2].
      destruct (A2 k' r1 y Oa) as (x & m & I & MI & Om). apply coll_iff in C. unfold map_item in MI.
      assert (Leaf : (forall d co, w_item W c <> TCls d co) -> apply (q ++ [k']) None x = Val m -> explained c (PObj c' sl) q r' y).
      { intros T A. destruct (under_exists c q [k']) as [r0 U0].
        exists (q ++ [k']), r0, (SLeaf None x). split; [eapply ld_item_leaf; eauto|]. exists m, r1. split; [|auto].
        destruct U as [[(p & Ip & Sp) ->]|[N ->]], U0 as [[(p' & Ip' & Sp') ->]|[N' ->]]; auto.
        - destruct (N' p Ip Sp).
        - destruct (N p' Ip' Sp'). }
      destruct (w_item W c) as [|isa co|d co] eqn:T; cbn [fst snd VisitProofs.vmap] in MI.
      - apply Leaf; [discriminate|auto].
      - apply Leaf; [discriminate|auto].
      - eapply explained_item; eauto.
        eapply IH; [exact L1|eapply wh_item; eauto|eapply ik_item; eauto|exact MI|exact Om]. }
    pose proof (reduce_shape _ _ _ _ _ M coll (fun a => parts_coll _ _ _ a _ V) R) as Sh.
    destruct coll as [a|].
    + destruct Sh as [(N & -> & _)|(Sp & -> & F)].
      * eapply Item; eauto; [lia|]. right. auto.
      * destruct k as [s|z|]; cbn [out_at] in O; try discriminate.
        rewrite find_name_app in O. destruct (find_name s props) as [m|] eqn:Fs; [eapply Slot; eauto|].
        cbn [find_name] in O. destruct (str_eqb s (s2l "values")) eqn:X; [|discriminate].
        apply str_eqb_eq in X. subst s. destruct r as [|k' r1].
        -- exists q, [], (SNode c (PObj c' sl)). split; [apply ld_here|]. right. split; auto. split; auto.
           apply coll_iff. eapply parts_coll; eauto.
        -- eapply Item; eauto; [simpl in Ln; lia|]. left. auto.
    + subst out. destruct k as [s|z|]; cbn [out_at] in O; try discriminate.
      destruct (find_name s props) as [m|] eqn:Fs; [eapply Slot; eauto|discriminate].
Qed.
End Hook.

(** ** Only what is shown matters *)

Lemma map_collection_ext f g q t l l' :
  Forall2 (fun a b => fst a = fst b /\ map_item f (q ++ [fst a]) t (snd a) = map_item g (q ++ [fst b]) t (snd b)) l l' ->
  map_collection o f q t l = map_collection o g q t l'.
Proof.
  induction 1 as [|[k x] [k' x'] l l' [E M] H IH]; auto. cbn [fst snd] in E, M. subst k'.
  cbn [map_collection]. rewrite M, IH. reflexivity.
Qed.

Lemma map_record_ext f g q ps get get' :
  (forall p, In p ps -> shown o P q p ->
     match get (q_name p), get' (q_name p) with
     | Some x, Some x' => map_prop f (q ++ [EStr (q_name p)]) p x = map_prop g (q ++ [EStr (q_name p)]) p x'
     | None, None => True
     | _, _ => False
     end) ->
  map_record o f q ps get = map_record o g q ps get'.
Proof.
  induction ps as [|p ps IH]; intros H; auto. cbn [map_record].
  rewrite IH by (intros; apply H; simpl; auto).
  destruct (is_filtered o q p) eqn:S; auto. apply shown_iff in S.
  specialize (H p (or_introl eq_refl) S).
  destruct (get (q_name p)), (get' (q_name p)); try tauto. now rewrite H.
Qed.

Lemma indexed_Forall2 {A} (R : elem * A -> elem * A -> Prop) (l l' : list A) j :
  length l = length l' ->
  (forall i x x', nth_error l i = Some x -> nth_error l' i = Some x' -> R (EInt (Z.of_nat (j + i)), x) (EInt (Z.of_nat (j + i)), x')) ->
  Forall2 R (indexed j l) (indexed j l').
Proof.
  revert j l'. induction l as [|x l IH]; intros j [|x' l'] E H; try discriminate; simpl; constructor.
  - specialize (H 0 x x' eq_refl eq_refl). now rewrite Nat.add_0_r in H.
  - apply IH; [simpl in E; lia|]. intros i y y' Y Y'. specialize (H (S i) y y' Y Y').
    replace (S j + i) with (j + S i) by lia. exact H.
Qed.
Lemma keyed_Forall2 {A} (R : elem * A -> elem * A -> Prop) (l l' : list (str * A)) :
  map fst l = map fst l' ->
  (forall i k x x', nth_error l i = Some (k, x) -> nth_error l' i = Some (k, x') -> R (EStr k, x) (EStr k, x')) ->
  Forall2 R (keyed l) (keyed l').
Proof.
  unfold keyed. revert l'. induction l as [|[k x] l IH]; intros [|[k' x'] l'] E H; try discriminate; simpl; constructor.
  - simpl in E. injection E as <- E. exact (H 0 k x x' eq_refl eq_refl).
  - simpl in E. injection E as _ E. apply IH; auto. intros i. exact (H (S i)).
Qed.

Lemma indexed_map2 {A B} (u u' : A -> B) (R : elem * B -> elem * B -> Prop) (l : list A) :
  (forall i x, nth_error l i = Some x -> R (EInt (Z.of_nat i), u x) (EInt (Z.of_nat i), u' x)) ->
  Forall2 R (indexed 0 (map u l)) (indexed 0 (map u' l)).
Proof.
  intros H. apply indexed_Forall2; [now rewrite !map_length|]. intros i x x' N N'. cbn [Nat.add].
  rewrite nth_error_map in N, N'. destruct (nth_error l i) as [y|] eqn:E; [|discriminate].
  injection N as <-. injection N' as <-. auto.
Qed.
Lemma keyed_map2 {A B} (u u' : A -> B) (R : elem * B -> elem * B -> Prop) (l : list (str * A)) :
  (forall k x, In (k, x) l -> R (EStr k, u x) (EStr k, u' x)) ->
  Forall2 R (keyed (map (fun e => (fst e, u (snd e))) l)) (keyed (map (fun e => (fst e, u' (snd e))) l)).
Proof.
  intros H. induction l as [|[k x] l IH]; simpl; constructor.
  - apply H. simpl; auto.
  - apply IH. intros k' x' I. apply H. simpl; auto.
Qed.

(** Hooks that agree on what is found in the value, at its position there, give the same. *)
Theorem same_hooks f g : forall n c v q, pysize v <= n ->
  (forall q' r d w, leads c v q q' r (SNode d w) -> exists c' sl, w = PObj c' sl /\ held d sl) ->
  (forall q' r p x, leads c v q q' r (SLeaf p x) -> f q' p x = g q' p x) ->
  visit W o f v c q = visit W o g v c q.
Proof.
  induction n as [|n IH]; intros c v q Sz H A; [destruct v; simpl in Sz; lia|].
  destruct (H _ _ _ _ (ld_here W o P c v q)) as (c' & sl & -> & Hd).
  rewrite !visit_obj.
  assert (EV : vitems W o f c q (find_name items_name sl) = vitems W o g c q (find_name items_name sl)).
  { unfold vitems. destruct (is_coll W c) eqn:C; auto.
    assert (MI : forall k x, item_at sl k x -> pysize x <= n ->
       map_item f (q ++ [k]) (w_item W c) (vmap W o f x) = map_item g (q ++ [k]) (w_item W c) (vmap W o g x)).
    { intros k x I Sx. apply coll_iff in C. unfold map_item.
      assert (Leaf : (forall d co, w_item W c <> TCls d co) -> f (q ++ [k]) None x = g (q ++ [k]) None x).
      { intros T. destruct (under_exists c q [k]) as [r U]. eapply A. eapply ld_item_leaf; eauto. }
      destruct (w_item W c) as [|isa co|d co] eqn:T; cbn [fst snd VisitProofs.vmap]; try (apply Leaf; discriminate).
      apply IH; auto.
      - intros q' r d' w L. destruct (under_exists c q (k :: r)) as [r' U]. eapply H. eapply ld_item; eauto.
      - intros q' r p y L. destruct (under_exists c q (k :: r)) as [r' U]. eapply A. eapply ld_item; eauto. }
    unfold item_at, slot in MI. change (s2l "_values") with items_name in MI.
    destruct (find_name items_name sl) as [w|] eqn:F; auto. cbn [option_map].
    pose proof (size_obj _ _ c' _ (find_name_in _ _ _ F)) as Sw.
    destruct w; auto; cbn [items_of].
    - rewrite (map_collection_ext f g q (w_item W c) _ (indexed 0 (map (vmap W o g) l))); auto.
      apply indexed_map2. intros i x N. cbn [fst snd]. split; auto.
      apply MI; [split; [lia|now rewrite Nat2Z.id]|]. apply nth_error_In in N. apply size_list in N. lia.
    - rewrite (map_collection_ext f g q (w_item W c) _ (keyed (map (fun e => (fst e, vmap W o g (snd e))) l))); auto.
      apply keyed_map2. intros k x I. cbn [fst snd]. split; auto. apply MI; [|apply size_dict in I; lia].
      apply in_find_name; auto. destruct Hd as [HL HD].
      unfold slot in HL, HD. change (s2l "_values") with items_name in HL, HD. rewrite F in HL, HD.
      unfold is_coll, is_coll_kind in C. destruct (w_kind W c); try discriminate.
      all: try (destruct HL as [l' X]; [auto|]; discriminate X).
      all: destruct HD as (l' & X & ND); [auto|]; injection X as <-; exact ND. }
  rewrite EV. destruct (vitems W o g c q (find_name items_name sl)); cbn [obind]; auto.
  rewrite (map_record_ext f g q _ _ (fun n => option_map (vmap W o g) (find_name n sl))); auto.
  intros p Ip S. destruct (find_name (q_name p) sl) as [x|] eqn:F; cbn [option_map]; auto.
  destruct (seen_dec (q_type p) x) as [[d SE]|NS].
  - rewrite !(map_prop_seen _ _ _ _ d) by auto. apply IH.
    + pose proof (size_obj _ _ c' _ (find_name_in _ _ _ F)). lia.
    + intros q' r d' w L. eapply H. eapply ld_slot; eauto.
    + intros q' r p' y L. eapply A. eapply ld_slot; eauto.
  - rewrite !map_prop_leaf by auto. eapply A. eapply ld_leaf; eauto.
Qed.

(** Values that agree in everything shown give the same. *)
Theorem same_values apply : forall c q v v', agree c q v v' -> visit W o apply v c q = visit W o apply v' c q.
Proof.
  set (Ps := fun (t : vtype) (q : list elem) (x x' : option pyv) => forall p, q_type p = t ->
    match x, x' with
    | Some y, Some y' => map_prop apply q p (vmap W o apply y) = map_prop apply q p (vmap W o apply y')
    | None, None => True
    | _, _ => False
    end).
  set (Pi := fun (t : vtype) (q : list elem) (x x' : option pyv) => forall c, w_item W c = t ->
    vitems W o apply c q x = vitems W o apply c q x').
  apply (agree_mind W o P (fun c q v v' => visit W o apply v c q = visit W o apply v' c q) Ps Pi); unfold Ps, Pi.
  - auto.
  - intros c q c1 c2 sl sl' _ HS _ HI. rewrite !visit_obj.
    assert (EV : vitems W o apply c q (find_name items_name sl) = vitems W o apply c q (find_name items_name sl')).
    { destruct (is_coll W c) eqn:C; [|unfold vitems; now rewrite C]. apply coll_iff in C. exact (HI C c eq_refl). }
    rewrite EV.
    rewrite (map_record_ext apply apply q _ _ (fun n => option_map (vmap W o apply) (find_name n sl'))); [reflexivity|].
    intros p Ip S. specialize (HS p Ip S p eq_refl). unfold slot in HS.
    destruct (find_name (q_name p) sl), (find_name (q_name p) sl'); auto.
  - auto.
  - auto.
  - intros t q d x x' S S' _ E p <-. rewrite !(map_prop_seen _ _ _ _ d) by auto. exact E.
  - auto.
  - intros d co q l l' L _ H c T. unfold vitems. destruct (is_coll W c); auto. cbn [option_map items_of].
    rewrite (map_collection_ext apply apply q (w_item W c) _ (indexed 0 (map (vmap W o apply) l'))); auto.
    apply indexed_Forall2; [now rewrite !map_length|]. intros i x x' N N'. rewrite nth_error_map in N, N'.
    destruct (nth_error l i) as [y|] eqn:Y; [|discriminate]. destruct (nth_error l' i) as [y'|] eqn:Y'; [|discriminate].
    injection N as <-. injection N' as <-. cbn [fst snd Nat.add]. split; auto. rewrite T. cbn [map_item snd VisitProofs.vmap]. eauto.
  - intros d co q l l' L _ H c T. unfold vitems. destruct (is_coll W c); auto. cbn [option_map items_of].
    rewrite (map_collection_ext apply apply q (w_item W c) _ (keyed (map (fun e => (fst e, vmap W o apply (snd e))) l'))); auto.
    apply keyed_Forall2.
    { rewrite !map_map. exact L. }
    intros i k x x' N N'. rewrite nth_error_map in N, N'.
    destruct (nth_error l i) as [[k1 y]|] eqn:Y; [|discriminate]. destruct (nth_error l' i) as [[k2 y']|] eqn:Y'; [|discriminate].
    injection N as -> <-. injection N' as -> <-. cbn [fst snd]. split; auto. rewrite T. cbn [map_item snd VisitProofs.vmap]. eauto.
Qed.
End Path.
