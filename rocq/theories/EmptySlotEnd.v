(** When visiting with apply_empty_slots ends (C61). *)
From Coq Require Import String List NArith ZArith Arith Bool Lia.
From Verif Require Import Prelude SelPathModel FSModel MFSModel MFSProofs GenModel PickleModel AutoModel JsonModel JsonSpec JsonProofs
  VisitModel DiffFilter VisitSpec VisitProofs VisitPath EmptySlotModel EmptySlotSpec EmptySlotProofs.
Import ListNotations.
Local Open Scope string_scope.
Local Open Scope list_scope.

Definition no_rec {A} (r : out A) : Prop := forall pa, r <> Exc pa RecursionErr.
Lemma no_rec_bind {A B} (x : out A) (k : A -> out B) : no_rec (obind x k) -> no_rec x.
Proof. intros H pa ->. exact (H pa eq_refl). Qed.
Lemma no_rec_bind2 {A B} (x : out A) (k : A -> out B) : no_rec x -> (forall a, x = Val a -> no_rec (k a)) -> no_rec (obind x k).
Proof. intros H K. destruct x as [a|pa e]; cbn [obind]; auto. intros pa' E. injection E as -> ->. exact (H pa' eq_refl). Qed.
Lemma no_rec_val {A} (a : A) : no_rec (Val a).
Proof. intros pa. discriminate. Qed.
Lemma aggregate_no_rec W c ms : no_rec (aggregate W c ms).
Proof.
  unfold aggregate, to_list, to_dict. destruct (is_list_kind _); [apply no_rec_val|].
  apply no_rec_bind2; [|intros; apply no_rec_val].
  induction ms as [|[k x] ms IH]; [apply no_rec_val|]. cbn [omap fst snd].
  apply no_rec_bind2; [destruct k; intros pa; discriminate|]. intros a _. apply no_rec_bind2; auto. intros; apply no_rec_val.
Qed.
Lemma reduce_no_rec W o q c props coll : no_rec (reduce W o q c props coll).
Proof.
  unfold reduce. destruct coll; [|apply no_rec_val]. destruct (forallb _ _); [apply no_rec_val|].
  destruct (find_name _ _) as [v|]; [destruct (py_true v)|]; intros pa; discriminate.
Qed.

Section End.
Variable W : world.
Variable o : vopts.
Variable P : option (list (list elem)).
Hypothesis FO : filter_of o P.
Variable e : bool.

(** ** More stack makes no difference *)
Definition extends (go go' : descent) : Prop := forall x c q, no_rec (go x c q) -> go' x c q = go x c q.

Lemma record_more f go go' q ps get : extends go go' -> no_rec (map_record_e o e f go q ps get) ->
  map_record_e o e f go' q ps get = map_record_e o e f go q ps get.
Proof.
  intros G. induction ps as [|p ps IH]; cbn [map_record_e]; auto. destruct (is_filtered o q p); auto.
  destruct (e || _); auto. intros N.
  assert (M : map_prop_e f go' (q ++ [EStr (q_name p)]) p (get (q_name p)) = map_prop_e f go (q ++ [EStr (q_name p)]) p (get (q_name p))).
  { apply no_rec_bind in N. unfold map_prop_e in *. destruct (q_type p), (get (q_name p)) as [[]|]; auto. }
  rewrite M. destruct (map_prop_e f go _ p _) as [m|]; cbn [obind] in *; auto.
  rewrite IH; auto. eapply no_rec_bind; eauto.
Qed.
Lemma collection_more f go go' q t l : extends go go' -> no_rec (map_collection_e o f go q t l) ->
  map_collection_e o f go' q t l = map_collection_e o f go q t l.
Proof.
  intros G. induction l as [|[k x] l IH]; cbn [map_collection_e]; auto. intros N.
  assert (M : match t with TCls c _ => go' (Some x) c (q ++ [k]) | _ => f (q ++ [k]) None (Some x) end =
              match t with TCls c _ => go (Some x) c (q ++ [k]) | _ => f (q ++ [k]) None (Some x) end).
  { apply no_rec_bind in N. destruct t; auto. }
  rewrite M. destruct (match t with TCls c _ => go (Some x) c (q ++ [k]) | _ => f (q ++ [k]) None (Some x) end) as [m|]; cbn [obind] in *; auto.
  rewrite IH; auto. eapply no_rec_bind; eauto.
Qed.
Lemma visit_more f n : extends (visit_e W o e f n) (visit_e W o e f (S n)).
Proof.
  induction n as [|n IH]; intros v c q N; [destruct (N [] eq_refl)|].
  destruct (none_dec v) as [->|Nv]; [reflexivity|]. rewrite visit_e_eq in N |- * by auto. rewrite visit_e_eq by auto.
  assert (EV : vitems_e W o e f (S n) v c q = vitems_e W o e f n v c q).
  { apply no_rec_bind in N. unfold vitems_e in *. destruct (is_coll W c); auto. destruct (unpack_items W v c) as [l|]; auto.
    rewrite (collection_more f _ _ _ _ _ IH); auto. eapply no_rec_bind; eauto. }
  rewrite EV. destruct (vitems_e W o e f n v c q); cbn [obind] in *; auto.
  rewrite (record_more f _ _ _ _ _ IH); auto. eapply no_rec_bind; eauto.
Qed.
Lemma visit_enough f n m v c q : no_rec (visit_e W o e f n v c q) -> visit_e W o e f (m + n) v c q = visit_e W o e f n v c q.
Proof.
  intros N. induction m as [|m IH]; auto. cbn [Nat.add]. rewrite visit_more; auto. now rewrite IH.
Qed.

(** ** It ends *)
Lemma common {A} (Q : A -> nat -> Prop) (l : list A) : (forall x, In x l -> exists n0, forall n, n0 <= n -> Q x n) ->
  exists n0, forall x n, In x l -> n0 <= n -> Q x n.
Proof.
  induction l as [|x l IH]; intros H.
  - exists 0. intros x n [].
  - destruct (H x (or_introl eq_refl)) as [a A1]. destruct IH as [b B]; [intros; apply H; simpl; auto|].
    exists (Nat.max a b). intros y n [<-|I] L; [apply A1; lia|apply B; auto; lia].
Qed.

Variable f : list elem -> option prop -> option pyv -> out pyv.
Hypothesis HF : forall q p x, no_rec (f q p x).

Lemma record_ends go q ps get :
  (forall p d, In p ps -> ~ hidden o p -> taken_as (q_type p) (get (q_name p)) d -> no_rec (go (get (q_name p)) d (q ++ [EStr (q_name p)]))) ->
  no_rec (map_record_e o e f go q ps get).
Proof.
  induction ps as [|p ps IH]; intros H; cbn [map_record_e]; [apply no_rec_val|].
  assert (N : no_rec (map_record_e o e f go q ps get)) by (apply IH; intros; apply H; simpl; auto).
  destruct (is_filtered o q p) eqn:Fp; auto. destruct (e || _); auto.
  apply no_rec_bind2; [|intros m _; apply no_rec_bind2; auto; intros; apply no_rec_val].
  destruct (taken_dec (q_type p) (get (q_name p))) as [[d T]|T].
  - rewrite (prop_taken _ _ _ _ _ d) by auto. apply H; auto; [simpl; auto|]. apply (shown_iff o P FO) in Fp. apply Fp.
  - rewrite prop_leaf by auto. apply HF.
Qed.
Lemma collection_ends go q t l :
  (forall k x d co, In (k, x) l -> t = TCls d co -> no_rec (go (Some x) d (q ++ [k]))) ->
  no_rec (map_collection_e o f go q t l).
Proof.
  induction l as [|[k x] l IH]; intros H; cbn [map_collection_e]; [apply no_rec_val|].
  apply no_rec_bind2.
  - destruct t; try apply HF. eapply H; simpl; auto.
  - intros m _. apply no_rec_bind2; [apply IH; intros; eapply H; simpl; eauto|]. intros; apply no_rec_val.
Qed.

Definition ends (v : option pyv) (c : nat) : Prop := exists n0, forall n, n0 <= n -> forall q, no_rec (visit_e W o e f n v c q).

Lemma none_ends c : bounded W o c -> ends None c.
Proof.
  induction 1 as [c _ IH].
  destruct (common (fun p n => ~ hidden o p -> forall d co, q_type p = TCls d co -> forall q, no_rec (visit_e W o e f n None d q)) (w_props W c)) as [n0 H].
  { intros p Ip. destruct (is_filtered o [] p) eqn:Fp.
    - destruct (v_extraneous o) eqn:Ve, (q_extraneous p) eqn:Qe.
      all: try (exists 0; intros n _ Nh; exfalso; apply Nh; split; auto; fail).
      all: destruct (q_type p) as [|isa co|d co] eqn:T; [exists 0; intros; discriminate|exists 0; intros; discriminate|].
      all: destruct (IH p d co Ip) as [n0 H]; auto; [unfold hidden; intuition congruence|].
      all: exists n0; intros n L _ d' co' Ed q; injection Ed as <- <-; auto.
    - apply (shown_iff o P FO) in Fp as [Nh _].
      destruct (q_type p) as [|isa co|d co] eqn:T; [exists 0; intros; discriminate|exists 0; intros; discriminate|].
      destruct (IH p d co Ip Nh T) as [n0 H]. exists n0; intros n L _ d' co' Ed q; injection Ed as <- <-; auto. }
  exists (S n0). intros n L q. destruct n as [|n]; [lia|]. rewrite visit_e_eq by discriminate.
  apply no_rec_bind2; [unfold vitems_e; destruct (is_coll W c); intros pa; discriminate|]. intros coll _.
  apply no_rec_bind2; [|intros; apply reduce_no_rec]. apply record_ends. intros p d Ip Nh T. cbn [held_at] in *.
  unfold taken_as in T. destruct (q_type p) as [|isa co|d' co] eqn:Et; try tauto. subst d'. eapply H; eauto. lia.
Qed.

Lemma value_ends : (forall c, bounded W o c) -> forall s v c, pysize v <= s -> ends (Some v) c.
Proof.
  intros B. induction s as [|s IH]; intros v c Sz; [destruct v; simpl in Sz; lia|].
  assert (Sl : exists n0, forall p n, In p (w_props W c) -> n0 <= n -> forall d, taken_as (q_type p) (held_at (Some v) (q_name p)) d ->
             forall q, no_rec (visit_e W o e f n (held_at (Some v) (q_name p)) d q)).
  { apply (common (fun p n => forall d, taken_as (q_type p) (held_at (Some v) (q_name p)) d ->
             forall q, no_rec (visit_e W o e f n (held_at (Some v) (q_name p)) d q))). intros p Ip.
    destruct (taken_dec (q_type p) (held_at (Some v) (q_name p))) as [[d T]|T].
    2:{ exists 0. intros n _ d T'. destruct (T d T'). }
    assert (E : ends (held_at (Some v) (q_name p)) d).
    { destruct (held_at (Some v) (q_name p)) as [x|] eqn:E; [|apply none_ends; auto].
      apply IH. rewrite <- held_slot in E. apply slot_size in E. lia. }
    destruct E as [n0 H]. exists n0. intros n L d' T'.
    assert (d' = d) as ->.
    { unfold taken_as in T, T'. destruct (q_type p); try (destruct (held_at _ _); tauto).
      - destruct (held_at _ _); try tauto. destruct T as [sl ->], T' as [sl' E]. congruence.
      - destruct (held_at _ _); congruence. }
    auto. }
  assert (It : exists n0, forall n l k x d co, n0 <= n -> unpack_items W (Some v) c = Some l -> In (k, x) l -> w_item W c = TCls d co ->
             forall q, no_rec (visit_e W o e f n (Some x) d q)).
  { destruct (unpack_items W (Some v) c) as [l|] eqn:U; [|exists 0; intros; discriminate].
    destruct (w_item W c) as [|isa co|d co] eqn:T; [exists 0; intros; discriminate|exists 0; intros; discriminate|].
    destruct (common (fun kx n => forall q, no_rec (visit_e W o e f n (Some (snd kx)) d q)) l) as [n0 H].
    { intros [k x] I. apply IH. pose proof (item_size _ _ _ _ _ _ U I). simpl. lia. }
    exists n0. intros n l' k x d' co' L El I Ed q. injection El as <-. injection Ed as <- <-. exact (H (k, x) n I L q). }
  destruct Sl as [a Ha], It as [b Hb]. exists (S (Nat.max a b)). intros n L q. destruct n as [|n]; [lia|].
  destruct (none_dec (Some v)) as [E|Nv]; [injection E as ->; intros pa; discriminate|].
  rewrite visit_e_eq by auto. apply no_rec_bind2.
  - unfold vitems_e. destruct (is_coll W c); [|apply no_rec_val].
    destruct (unpack_items W (Some v) c) as [l|] eqn:U; [|intros pa; discriminate].
    apply no_rec_bind2.
    + apply collection_ends. intros k x d co I T. eapply Hb; eauto. lia.
    + intros ms _. apply no_rec_bind2; [apply aggregate_no_rec|]. intros; apply no_rec_val.
  - intros coll _. apply no_rec_bind2; [|intros; apply reduce_no_rec].
    apply record_ends. intros p d Ip Nh T. apply Ha; auto. lia.
Qed.
End End.

(** ** It does not end *)
Section Endless.
Variable W : world.
Variable o : vopts.
Hypothesis NF : v_filter o = None.

Lemma within_visited f c d : within W o c d -> forall n q out, visit_e W o true f n None c q = Val out ->
  exists m q' out', m < n /\ visit_e W o true f m None d q' = Val out'.
Proof.
  induction 1 as [c p d co Ip Nh T|c d x _ IH1 _ IH2]; intros n q out E.
  - assert (S : shown o None q p) by (split; simpl; auto).
    destruct (step_slot W o None NF true f n None c q out p d E Ip S (fun _ => eq_refl)) as (m & y & L & Y).
    { cbn [held_at]. rewrite T. reflexivity. }
    exists m, (q ++ [EStr (q_name p)]), y. auto.
  - destruct (IH1 _ _ _ E) as (m & q' & y & L & Y). destruct (IH2 _ _ _ Y) as (m' & q'' & y' & L' & Y').
    exists m', q'', y'. split; [lia|auto].
Qed.
Theorem endless f d : within W o d d -> forall n q out, visit_e W o true f n None d q <> Val out.
Proof.
  intros Wi. induction n as [n IH] using lt_wf_ind. intros q out E.
  destruct (within_visited f d d Wi n q out E) as (m & q' & y & L & Y). exact (IH m L q' y Y).
Qed.
End Endless.
