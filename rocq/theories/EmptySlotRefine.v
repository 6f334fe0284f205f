(** Without the option the descent of EmptySlotModel is that of VisitModel; with it, when it ends
    (C61). *)
From Coq Require Import String List NArith ZArith Arith Bool Lia.
From Verif Require Import Prelude SelPathModel FSModel MFSModel MFSProofs GenModel PickleModel AutoModel JsonModel JsonSpec JsonProofs
  VisitModel DiffFilter VisitSpec VisitProofs VisitPath EmptySlotModel EmptySlotSpec EmptySlotProofs.
Import ListNotations.
Local Open Scope string_scope.
Local Open Scope list_scope.

Lemma indexed_map {A B} (u : A -> B) l j : indexed j (map u l) = map (fun kx => (fst kx, u (snd kx))) (indexed j l).
Proof. revert j. induction l as [|x l IH]; intros j; simpl; auto. now rewrite IH. Qed.
Lemma keyed_map {A B} (u : A -> B) l : keyed (map (fun e => (fst e, u (snd e))) l) = map (fun kx => (fst kx, u (snd kx))) (keyed l).
Proof. unfold keyed. now rewrite !map_map. Qed.
Lemma sort_map {A B} (u : A -> B) l : sort_keys (map (fun e => (fst e, u (snd e))) l) = map (fun e => (fst e, u (snd e))) (sort_keys l).
Proof.
  assert (I : forall (e : str * A) l, insert (fst e, u (snd e)) (map (fun e => (fst e, u (snd e))) l) = map (fun e => (fst e, u (snd e))) (insert e l)).
  { intros e. induction l0 as [|y l0 IH]; simpl; auto. destruct (str_leb (fst e) (fst y)); simpl; auto. now rewrite IH. }
  unfold sort_keys. induction l as [|x l IH]; simpl; auto. now rewrite IH, I.
Qed.
Lemma zero_map {A B} (u : A -> B) l : zero_indexed (map (fun e => (fst e, u (snd e))) l) = map (fun kx => (fst kx, u (snd kx))) (zero_indexed l).
Proof. unfold zero_indexed. rewrite sort_map, !map_map. reflexivity. Qed.

Lemma insert_in {A} (e : str * A) l x : In x (insert e l) -> x = e \/ In x l.
Proof.
  induction l as [|y l IH]; simpl; [intuition|]. destruct (str_leb (fst e) (fst y)); simpl; intuition.
Qed.
Lemma sort_in {A} (l : list (str * A)) x : In x (sort_keys l) -> In x l.
Proof.
  unfold sort_keys. induction l as [|y l IH]; simpl; auto. intros H. apply insert_in in H. intuition.
Qed.

Section Refine.
Variable W : world.
Variable o : vopts.
Variable f : list elem -> option prop -> option pyv -> out pyv.
Let apply q p x := f q p (Some x).

Lemma collection_same (down : pyv -> nat -> list elem -> out pyv) go q t l :
  (forall k x c, In (k, x) l -> down x c (q ++ [k]) = go (Some x) c (q ++ [k])) ->
  map_collection o apply q t (map (fun kx => (fst kx, (snd kx, down (snd kx)))) l) = map_collection_e o f go q t l.
Proof.
  induction l as [|[k x] l IH]; intros H; auto. cbn [map map_collection map_collection_e fst snd].
  rewrite IH by (intros; apply H; simpl; auto).
  unfold map_item. cbn [fst snd]. destruct t; auto. rewrite (H k x) by (simpl; auto). reflexivity.
Qed.
Lemma record_same (down : pyv -> nat -> list elem -> out pyv) go q ps (get : str -> option pyv) :
  (forall n x c, get n = Some x -> down x c (q ++ [EStr n]) = go (Some x) c (q ++ [EStr n])) ->
  map_record o apply q ps (fun n => option_map (fun x => (x, down x)) (get n)) = map_record_e o false f go q ps get.
Proof.
  intros H. induction ps as [|p ps IH]; auto. cbn [map_record map_record_e]. rewrite IH.
  destruct (is_filtered o q p); auto. destruct (get (q_name p)) as [x|] eqn:G; cbn [option_map orb]; auto.
  unfold map_prop, map_prop_e. cbn [fst snd]. destruct (q_type p).
  - destruct x; auto. now rewrite H.
  - destruct x; auto.
  - now rewrite H.
Qed.
Lemma record_none go q ps (get : str -> option pyv) : (forall n, get n = None) -> map_record_e o false f go q ps get = Val [].
Proof.
  intros H. induction ps as [|p ps IH]; auto. cbn [map_record_e]. rewrite H. cbn [orb]. now destruct (is_filtered o q p).
Qed.

Theorem visit_same : forall n v c q, pysize v <= n -> visit_e W o false f n (Some v) c q = visit W o apply v c q.
Proof.
  induction n as [|n IH]; intros v c q Sz; [destruct v; simpl in Sz; lia|].
  destruct (none_dec (Some v)) as [E|Nv]; [injection E as ->; reflexivity|].
  rewrite visit_e_eq by auto.
  assert (Items : forall l, unpack_items W (Some v) c = Some l ->
     map_collection_e o f (visit_e W o false f n) q (w_item W c) l =
     map_collection o apply q (w_item W c) (map (fun kx => (fst kx, (snd kx, visit W o apply (snd kx)))) l)).
  { intros l U. symmetry. apply collection_same. intros k x d I. symmetry. apply IH.
    pose proof (item_size _ _ _ _ _ _ U I). lia. }
  assert (Slots : map_record_e o false f (visit_e W o false f n) q (w_props W c) (held_at (Some v)) =
     map_record o apply q (w_props W c) (fun m => option_map (fun x => (x, visit W o apply x)) (held_at (Some v) m))).
  { symmetry. apply record_same. intros m x d E. symmetry. apply IH. rewrite <- held_slot in E. apply slot_size in E. lia. }
  rewrite Slots. unfold vitems_e.
  destruct v; try congruence.
  - destruct b; cbn [visit]; destruct (is_coll W c); cbn [obind]; auto; rewrite <- Slots, record_none by reflexivity; reflexivity.
  - cbn [visit]; destruct (is_coll W c); cbn [obind]; auto; rewrite <- Slots, record_none by reflexivity; reflexivity.
  - cbn [visit]; destruct (is_coll W c); cbn [obind]; auto; rewrite <- Slots, record_none by reflexivity; reflexivity.
  - cbn [visit]; destruct (is_coll W c); cbn [obind]; auto; rewrite <- Slots, record_none by reflexivity; reflexivity.
  - cbn [visit]; destruct (is_coll W c); cbn [obind unpack_items]; [|rewrite <- Slots, record_none by reflexivity; reflexivity].
    destruct (is_list_kind (w_kind W c)) eqn:K; cbn [obind]; auto.
    cbn [unpack_items] in Items. rewrite K in Items. rewrite (Items _ eq_refl), <- (indexed_map (fun x => (x, visit W o apply x))).
    rewrite <- Slots, record_none by reflexivity. cbn [obind].
    try (destruct (map_collection o apply q (w_item W c) _) as [ms|]; cbn [obind]; auto;
    destruct (aggregate W c ms); reflexivity).
  - cbn [visit]; destruct (is_coll W c); cbn [obind unpack_items]; [|rewrite <- Slots, record_none by reflexivity; reflexivity].
    destruct (is_list_kind (w_kind W c)) eqn:K; cbn [obind]; auto.
    cbn [unpack_items] in Items. rewrite K in Items. rewrite (Items _ eq_refl), <- (keyed_map (fun x => (x, visit W o apply x))).
    rewrite <- Slots, record_none by reflexivity. cbn [obind].
    try (destruct (map_collection o apply q (w_item W c) _) as [ms|]; cbn [obind]; auto;
    destruct (aggregate W c ms); reflexivity).
  - cbn [visit]; destruct (is_coll W c); cbn [obind]; auto; rewrite <- Slots, record_none by reflexivity; reflexivity.
  - rewrite visit_obj. cbn [held_at]. unfold slot, vitems. cbn [unpack_items] in Items |- *.
    destruct (is_coll W c); [|reflexivity]. destruct (find_name items_name slots) as [w|]; [|reflexivity]. cbn [option_map].
    destruct w; try reflexivity; cbn [items_of].
    + rewrite (Items _ eq_refl), <- (indexed_map (fun x => (x, visit W o apply x))). reflexivity.
    + rewrite (Items _ eq_refl), <- (keyed_map (fun x => (x, visit W o apply x))). reflexivity.
  - cbn [visit]; destruct (is_coll W c); cbn [obind]; auto; rewrite <- Slots, record_none by reflexivity; reflexivity.
Qed.

(** ** Casting *)
Variable rec : nat -> pyv -> out pyv.
Variable by_key : list (str * pyv) -> list (str * pyv).

Let cmap x : mapper := (x, cast W o apply rec by_key x).
Definition citems (listk : bool) (v : option pyv) : out (list (elem * mapper)) :=
  let* l := grok_items listk v in Val (map (fun kx => (fst kx, cmap (snd kx))) l).

Lemma citems_eq listk w : citems listk (Some w) =
  match w with
  | PList l => if listk then Val (indexed 0 (map cmap l)) else match l with [] => Val [] | _ => Exc [] (OtherErr 72) end
  | PTuple l => if listk then Val (indexed 0 (map cmap l)) else match l with [] => Val [] | _ => Exc [] (OtherErr 72) end
  | PDict l => if listk then Val (zero_indexed (map (fun e => (fst e, cmap (snd e))) l))
               else Val (keyed (map (fun e => (fst e, cmap (snd e))) l))
  | PStr _ => Exc [] CollCoerceErr
  | _ => Exc [] GrokCollErr
  end.
Proof.
  unfold citems. destruct w; try reflexivity; cbn [grok_items]; destruct listk; cbn [obind].
  - now rewrite (indexed_map cmap).
  - now destruct l.
  - now rewrite (zero_map cmap).
  - now rewrite (keyed_map cmap).
  - now rewrite (indexed_map cmap).
  - now destruct l.
Qed.

Lemma cast_eq j c q : cast W o apply rec by_key j c q =
  (let isrec := is_record W o q c in
   if isrec && negb (is_dict (Some j)) then Exc [] GrokRecordErr
   else
     let* coll :=
       (if is_coll W c then
          let* l := citems (is_list_kind (w_kind W c)) (grok_values isrec (Some j)) in
          let* ms := map_collection o apply q (w_item W c) l in
          let* a := collect W rec c ms in Val (Some a)
        else Val None) in
     if isrec || is_coll W c then
       let* props := (if isrec then map_record o apply q (w_props W c) (fun n => option_map cmap (grok_slot (Some j) n)) else Val []) in
       produce W rec by_key c props coll
     else apply q None j).
Proof.
  assert (EM : forall l ps, map_record o apply q ps (fun n => find_name n (map (fun kv => (fst kv, cmap (snd kv))) l))
      = map_record o apply q ps (fun n => option_map cmap (find_name n l))).
  { intros l. induction ps as [|p ps IH]; auto. cbn [map_record]. destruct (is_filtered o q p); auto.
    rewrite (find_mapped cmap). now rewrite IH. }
  destruct j; cbn [cast is_dict negb]; cbv zeta; try rewrite andb_true_r; try rewrite andb_false_r.
  all: destruct (is_record W o q c) eqn:R; cbn [andb orb negb grok_values]; auto.
  all: destruct (is_coll W c) eqn:C; cbn [obind]; auto; fold (cmap).
  all: try (rewrite citems_eq; reflexivity).
  - rewrite citems_eq. destruct (is_list_kind (w_kind W c)); [reflexivity|]. destruct l; reflexivity.
  - change (fun kv : str * pyv => (fst kv, (snd kv, cast W o apply rec by_key (snd kv)))) with (fun kv : str * pyv => (fst kv, cmap (snd kv))).
    rewrite EM. cbn [grok_slot].
    rewrite (find_mapped (fun v => match v with
                     | PList l => if is_list_kind (w_kind W c) then Val (indexed 0 (map cmap l)) else match l with [] => Val [] | _ => Exc [] (OtherErr 72) end
                     | PTuple l => if is_list_kind (w_kind W c) then Val (indexed 0 (map cmap l)) else match l with [] => Val [] | _ => Exc [] (OtherErr 72) end
                     | PDict l => if is_list_kind (w_kind W c) then Val (zero_indexed (map (fun e => (fst e, cmap (snd e))) l))
                                  else Val (keyed (map (fun e => (fst e, cmap (snd e))) l))
                     | PStr _ => Exc [] CollCoerceErr
                     | _ => Exc [] GrokCollErr
                     end)).
    destruct (find_name values_name l) as [w|] eqn:F; cbn [option_map]; rewrite citems_eq; [reflexivity|].
    destruct (is_list_kind (w_kind W c)); reflexivity.
  - change (fun kv : str * pyv => (fst kv, (snd kv, cast W o apply rec by_key (snd kv)))) with (fun kv : str * pyv => (fst kv, cmap (snd kv))).
    rewrite EM. reflexivity.
  - rewrite citems_eq. destruct (is_list_kind (w_kind W c)); reflexivity.
  - rewrite citems_eq. destruct (is_list_kind (w_kind W c)); [reflexivity|]. destruct l; reflexivity.
Qed.

Lemma grok_items_in listk w l k x : grok_items listk (Some w) = Val l -> In (k, x) l -> data_item listk w k x.
Proof.
  destruct w; cbn [grok_items]; try discriminate.
  - destruct listk; [|destruct l0; [|discriminate]]; intros E I; injection E as <-; [|destruct I].
    apply indexed_in in I as (i & -> & N). cbn [Nat.add data_item]. rewrite Nat2Z.id. split; [auto|split; [lia|auto]].
  - intros E I; injection E as <-. destruct listk.
    + unfold zero_indexed in I. apply in_map_iff in I as ([s y] & Ek & I). injection Ek as <- <-. apply sort_in in I.
      simpl. eauto.
    + apply keyed_in in I as (s & -> & I). simpl. auto.
  - destruct listk; [|destruct l0; [|discriminate]]; intros E I; injection E as <-; [|destruct I].
    apply indexed_in in I as (i & -> & N). cbn [Nat.add data_item]. rewrite Nat2Z.id. split; [auto|split; [lia|auto]].
Qed.
Lemma data_size listk w k x : data_item listk w k x -> pysize x < pysize w.
Proof.
  destruct w; simpl; try tauto; destruct k; try tauto.
  - intros (_ & _ & N). apply nth_error_In in N. now apply size_list.
  - intros (_ & I). eapply (size_dict s x l); eauto.
  - intros (_ & _ & s & I). eapply (size_dict s x l); eauto.
  - intros (_ & _ & N). apply nth_error_In in N. exact (size_list _ _ N).
Qed.
Lemma values_size isrec j w : grok_values isrec (Some j) = Some w -> pysize w <= pysize j.
Proof.
  destruct j; cbn [grok_values]; try (intros E; injection E as <-; lia).
  destruct isrec; [|intros E; injection E as <-; lia]. destruct (find_name values_name l) as [x|] eqn:F; intros E; injection E as <-; [|lia].
  apply find_name_in, size_dict in F. lia.
Qed.
Lemma grok_values_some isrec j : exists w, grok_values isrec (Some j) = Some w.
Proof. destruct j; cbn [grok_values]; eauto. destruct isrec; eauto. destruct (find_name _ _); eauto. Qed.

Theorem cast_same : forall n j c q, pysize j <= n ->
  cast_e W o false f rec by_key n (Some j) c q = cast W o apply rec by_key j c q.
Proof.
  induction n as [|n IH]; intros j c q Sz; [destruct j; simpl in Sz; lia|].
  rewrite cast_eq. cbn [cast_e]. cbv zeta.
  destruct (is_record W o q c && negb (is_dict (Some j))); auto.
  assert (Slots : map_record_e o false f (cast_e W o false f rec by_key n) q (w_props W c) (grok_slot (Some j)) =
     map_record o apply q (w_props W c) (fun m => option_map cmap (grok_slot (Some j) m))).
  { symmetry. apply record_same. intros m x d E. symmetry. apply IH. destruct j; try discriminate. simpl in E.
    apply find_name_in, size_dict in E. lia. }
  rewrite Slots.
  destruct (is_coll W c).
  2:{ cbn [obind]. reflexivity. }
  destruct (grok_values_some (is_record W o q c) j) as [w E]. rewrite E. unfold citems.
  destruct (grok_items (is_list_kind (w_kind W c)) (Some w)) as [l|] eqn:G; cbn [obind]; auto.
  rewrite <- (collection_same (cast W o apply rec by_key) (cast_e W o false f rec by_key n)); [reflexivity|].
  intros k x d I. symmetry. apply IH. apply values_size in E. apply (grok_items_in _ _ _ _ _ G), data_size in I. lia.
Qed.
End Refine.

Section Casting.
Variable W : world.
Variable o : vopts.
Variable P : option (list (list elem)).
Hypothesis FO : filter_of o P.
Variable rec : nat -> pyv -> out pyv.
Variable by_key : list (str * pyv) -> list (str * pyv).

Lemma members_iff q c : is_record W o q c = true <-> has_members W o P c q.
Proof.
  unfold is_record, has_members. rewrite existsb_exists. split; intros (p & I & S); exists p; split; auto.
  - apply (shown_iff o P FO). now destruct (is_filtered o q p).
  - apply (shown_iff o P FO) in S. now rewrite S.
Qed.

Lemma values_data q c j w : grok_values (is_record W o q c) (Some j) = Some w -> data_of W o P c q j w.
Proof.
  unfold data_of. destruct (is_record W o q c) eqn:R.
  - apply members_iff in R. destruct j; cbn [grok_values key_of]; try (intros E; injection E as <-; right; auto; fail).
    unfold slot. change (s2l "values") with values_name. destruct (find_name values_name l); intros E; injection E as <-; [left|right]; auto.
  - assert (N : ~ has_members W o P c q) by (intros H; apply members_iff in H; congruence).
    intros E. right. split; [tauto|]. destruct j; cbn [grok_values] in E; now injection E as <-.
Qed.

Theorem cast_no_difference f : forall n c v q,
  (forall q' d, ~ cmeets W o P c v q q' (Node d None)) ->
  (forall q' p, cmeets W o P c v q q' (Leaf p None) -> exists y, f q' p None = Val y /\ ignored o y = true) ->
  cast_e W o true f rec by_key n v c q = cast_e W o false f rec by_key n v c q.
Proof.
  induction n as [|n IH]; intros c v q HN HL; auto. cbn [cast_e]. cbv zeta.
  destruct (is_record W o q c && negb (is_dict v)); auto.
  destruct v as [v|]; [|destruct (HN q c (cm_here W o P c None q))].
  assert (ER : map_record_e o true f (cast_e W o true f rec by_key n) q (w_props W c) (grok_slot (Some v)) =
               map_record_e o false f (cast_e W o false f rec by_key n) q (w_props W c) (grok_slot (Some v))).
  { apply (record_ext o P FO). intros p Ip S.
    change (grok_slot (Some v) (q_name p)) with (key_of (Some v) (q_name p)).
    destruct (taken_dec (q_type p) (key_of (Some v) (q_name p))) as [[d T]|T].
    - assert (Go : forall q' t, cmeets W o P d (key_of (Some v) (q_name p)) (q ++ [EStr (q_name p)]) q' t -> cmeets W o P c (Some v) q q' t)
        by (intros; eapply cm_slot; eauto).
      destruct (key_of (Some v) (q_name p)) as [x|] eqn:E.
      + rewrite !(prop_taken _ _ _ _ _ d) by auto. apply IH; eauto. intros q' d' M. eapply HN. eauto.
      + exfalso. eapply HN. apply Go. apply cm_here.
    - pose proof (cm_leaf W o P c (Some v) q p Ip S T) as M.
      destruct (key_of (Some v) (q_name p)) as [x|] eqn:E.
      + now rewrite !prop_leaf.
      + rewrite prop_leaf by auto. eauto. }
  rewrite ER. destruct (is_coll W c) eqn:C; auto. apply coll_iff in C.
  destruct (grok_values_some (is_record W o q c) v) as [w E]. rewrite E.
  destruct (grok_items (is_list_kind (w_kind W c)) (Some w)) as [l|] eqn:G; cbn [obind]; auto.
  rewrite (collection_ext o f f _ (cast_e W o false f rec by_key n)); auto.
  intros k x I. destruct (w_item W c) as [|isa co|d co] eqn:T; auto.
  apply (grok_items_in _ _ _ _ _ G) in I. rewrite <- listy_kind in I. apply values_data in E.
  apply IH; intros q' t M; [eapply HN|eapply HL]; eapply cm_item; eauto.
Qed.

(** a property declared as of a class with something to read, without a key for it *)
Theorem cast_absent f n c l q p d co : In p (w_props W c) -> shown o P q p -> key_of (Some (PDict l)) (q_name p) = None ->
  q_type p = TCls d co -> has_members W o P d (q ++ [EStr (q_name p)]) \/ collection W d ->
  forall y, cast_e W o true f rec by_key n (Some (PDict l)) c q <> Val y.
Proof.
  intros Ip S K T H y E. destruct n as [|n]; [discriminate|]. cbn [cast_e] in E. cbv zeta in E.
  assert (R : is_record W o q c = true) by (apply members_iff; exists p; auto).
  rewrite R in E. cbn [andb orb is_dict negb] in E.
  destruct (if is_coll W c then _ else _) as [coll|]; cbn [obind] in E; [|discriminate].
  destruct (map_record_e _ _ _ _ _ _ _) as [props|] eqn:M; cbn [obind] in E; [|discriminate].
  destruct (record_val o P FO _ _ _ _ _ _ _ M p Ip S (fun _ => eq_refl)) as [z Z].
  rewrite (prop_taken _ _ _ _ _ d) in Z by (rewrite T; destruct (grok_slot _ _); reflexivity).
  change (grok_slot (Some (PDict l)) (q_name p)) with (key_of (Some (PDict l)) (q_name p)) in Z. rewrite K in Z.
  destruct n as [|n]; [discriminate|]. cbn [cast_e is_dict negb grok_values] in Z. cbv zeta in Z.
  rewrite andb_true_r in Z. destruct (is_record W o (q ++ [EStr (q_name p)]) d) eqn:R'; [discriminate|].
  destruct H as [H|H]; [apply members_iff in H; congruence|]. apply coll_iff in H. rewrite H in Z. discriminate.
Qed.
End Casting.
