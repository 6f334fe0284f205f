(** C51: proofs. *)
From Coq Require Import String List NArith ZArith Arith Bool Lia.
From Verif Require Import Prelude SelPathModel GenModel PickleModel AutoModel JsonModel JsonSpec JsonProofs
  VisitModel VisitSpec VisitProofs ReflectModel ReflectSpec ReprProofs.
Import ListNotations.
Local Open Scope list_scope.

Lemma mapm_fst {A} (f : prop -> res A) l infos :
  mapm (fun p => do i <- f p; Ok (q_name p, i)) l = Ok infos ->
  map fst infos = map q_name l /\
  (forall p, In p l -> exists x, f p = Ok x /\ In (q_name p, x) infos) /\
  (forall n x, In (n, x) infos -> exists p, In p l /\ q_name p = n /\ f p = Ok x).
Proof.
  revert infos. induction l as [|p l IH]; intros infos H; cbn [mapm] in H.
  - injection H as <-. split; [reflexivity|]. split; [intros p []|intros n x []].
  - destruct (f p) as [i|e] eqn:F; [|discriminate]. cbn [bind] in H.
    destruct (mapm _ l) as [t|e] eqn:M; [|discriminate]. cbn [bind] in H. injection H as <-.
    destruct (IH t eq_refl) as (Ha & B & C). split; [cbn; now rewrite Ha|]. split.
    + intros p' [<-|I]; [exists i; split; [auto|left; auto]|].
      destruct (B p' I) as (x & E & J). exists x. split; [auto|right; auto].
    + intros n x [E|I]; [injection E as <- <-; exists p; cbn; auto|].
      destruct (C n x I) as (p' & J & E). exists p'. cbn. tauto.
Qed.

Lemma mapm_all {A B} (f : A -> res B) l : (forall x, In x l -> exists y, f x = Ok y) -> exists ys, mapm f l = Ok ys.
Proof.
  induction l as [|x l IH]; intros H; [exists []; reflexivity|].
  destruct (H x (or_introl eq_refl)) as (y & E). destruct IH as (ys & Es); [intros z I; apply H; right; auto|].
  exists (y :: ys). cbn. now rewrite E, Es.
Qed.
Lemma mapm_mono {A B} (f g : A -> res B) l ys : (forall x y, In x l -> f x = Ok y -> g x = Ok y) ->
  mapm f l = Ok ys -> mapm g l = Ok ys.
Proof.
  revert ys. induction l as [|x l IH]; intros ys H M; [exact M|]. cbn [mapm] in *.
  destruct (f x) as [y|] eqn:F; [|discriminate]. cbn [bind] in M.
  destruct (mapm f l) as [t|] eqn:E; [|discriminate].
  rewrite (H x y (or_introl eq_refl) F). cbn [bind]. rewrite (IH t); auto. intros z w I. apply H. right. auto.
Qed.

Section Main.
Variable W : world.
Variable cname : nat -> str.
Variable pname : prop -> str.
Variable iname : nat -> str.
Variable alts : prop -> list (nat + str).
Variable extraneous : bool.
Notation reflect := (reflect W cname pname iname alts extraneous).
Notation propinfo := (propinfo cname pname alts).
Notation reflect_prop := (reflect_prop cname pname alts).
Notation visible := (visible extraneous).
Notation on_show := (on_show extraneous).
Notation declared := (declared alts).
Notation walk := (walk W alts extraneous).
Notation uses := (uses W alts extraneous).
Notation finite := (finite W alts extraneous).
Notation says := (says cname pname iname alts).

Lemma visible_iff p : visible p = true <-> on_show p.
Proof.
  unfold ReflectModel.visible, ReflectSpec.on_show. destruct extraneous, (q_extraneous p); cbn; intuition congruence.
Qed.
Lemma is_coll_iff c : is_coll W c = true <-> collection W c.
Proof.
  unfold is_coll, is_coll_kind, collection. destruct (w_kind W c); intuition congruence.
Qed.

Lemma record_types_first l d t : record_types l = d :: t -> exists plain rest, l = map inr plain ++ inl d :: rest.
Proof.
  induction l as [|[c|n] l IH]; cbn; intros H; [discriminate| |].
  - injection H as -> _. exists [], l. reflexivity.
  - destruct (IH H) as (plain & rest & ->). exists (n :: plain), rest. reflexivity.
Qed.
Lemma record_types_skip plain d rest : record_types (map inr plain ++ inl d :: rest) = d :: record_types rest.
Proof. induction plain; cbn; auto. Qed.

Lemma declared_dec p : (exists d, declared p d) \/ (forall d, ~ declared p d).
Proof.
  destruct (alts p) as [|a l] eqn:A.
  - destruct (q_type p) as [| |c co] eqn:T.
    1, 2: right; intros d [[_ [co E]]|(pl & r & E)]; [congruence|rewrite A in E; destruct pl; discriminate].
    left. exists c. left. eauto.
  - destruct (record_types (a :: l)) as [|d t] eqn:R.
    + right. intros d [[E _]|(pl & r & E)]; [congruence|]. rewrite A in E. rewrite E, record_types_skip in R. discriminate.
    + left. exists d. right. rewrite A. eapply record_types_first; eauto.
Qed.

Lemma declared_one p d d' : declared p d -> declared p d' -> d = d'.
Proof.
  intros [[A [co T]]|(pl & r & E)] [[A' [co' T']]|(pl' & r' & E')]; try (rewrite E in *; destruct pl; discriminate);
    try (rewrite E' in *; destruct pl'; discriminate); [congruence|].
  pose proof (record_types_skip pl d r) as R. rewrite <- E, E', record_types_skip in R. congruence.
Qed.

Lemma plain_prop rec p : (forall d, ~ declared p d) -> reflect_prop rec p = Ok (propinfo p).
Proof.
  intros H. unfold ReflectModel.reflect_prop. destruct (alts p) as [|a l] eqn:A.
  - destruct (q_type p) as [| |c co] eqn:T; auto. exfalso. apply (H c). left. eauto.
  - destruct (record_types (a :: l)) as [|d t] eqn:R; [reflexivity|].
    exfalso. apply (H d). right. rewrite A. eapply record_types_first; eauto.
Qed.

(** Every description is a dict with a name. *)
Definition named (x : pyv) : Prop := exists n t, x = PDict (entry "name" (PStr n) :: t).
Lemma reflect_named n c x : reflect n c = Ok x -> named x.
Proof.
  destruct n as [|n]; cbn [ReflectModel.reflect]; [discriminate|].
  match goal with |- bind ?m _ = _ -> _ => destruct m; [|discriminate] end. cbn [bind].
  match goal with |- bind ?m _ = _ -> _ => destruct m; [|discriminate] end. cbn [bind].
  intros H. injection H as <-. unfold typeinfo. do 2 eexists. reflexivity.
Qed.
Lemma named_true x : named x -> py_true x = true.
Proof. intros (n & t & ->). reflexivity. Qed.
Lemma reflect_not_type n c : reflect n c <> Err TypeErr.
Proof.
  revert c. induction n as [|n IH]; intros c; cbn [ReflectModel.reflect]; [discriminate|].
  assert (T : forall p l, (forall e, In e l -> True) -> try_types cname pname alts (reflect n) p l <> Err TypeErr).
  { intros p l _. induction l as [|d l IHl]; cbn; [discriminate|]. specialize (IH d).
    destruct (reflect n d) as [x|e] eqn:E; [destruct (py_true x); [discriminate|auto]|].
    destruct e; congruence. }
  assert (RP : forall p, reflect_prop (reflect n) p <> Err TypeErr).
  { intros p. unfold ReflectModel.reflect_prop. destruct (alts p); [destruct (q_type p); [discriminate|discriminate|apply IH]|apply T; auto]. }
  assert (M : forall l, mapm (fun p => do i <- reflect_prop (reflect n) p; Ok (q_name p, i)) l <> Err TypeErr).
  { induction l as [|p l IHl]; cbn; [discriminate|]. specialize (RP p). destruct (reflect_prop (reflect n) p); [|cbn; congruence].
    cbn [bind]. destruct (mapm _ l); cbn; [discriminate|congruence]. }
  specialize (M (filter visible (w_props W c))).
  destruct (is_coll W c).
  - destruct (w_item W c) as [| |d co]; cbn [bind]; [| |specialize (IH d); destruct (reflect n d); cbn [bind]; [|congruence]];
      destruct (mapm _ _); cbn; try discriminate; congruence.
  - cbn [bind]. destruct (mapm _ _); cbn; [discriminate|congruence].
Qed.

Lemma declared_prop n p d : declared p d -> reflect_prop (reflect n) p = reflect n d.
Proof.
  intros D. unfold ReflectModel.reflect_prop. destruct D as [[A [co T]]|(pl & r & E)].
  - rewrite A, T. reflexivity.
  - rewrite E. destruct (map inr pl ++ inl d :: r) as [|a l] eqn:L; [destruct pl; discriminate|].
    rewrite <- L, record_types_skip. cbn [try_types]. pose proof (reflect_not_type n d) as NT.
    destruct (reflect n d) as [x|e] eqn:R.
    + now rewrite (named_true x (reflect_named _ _ _ R)).
    + destruct e; congruence.
Qed.

Lemma reflect_mono n c x : reflect n c = Ok x -> forall m, n <= m -> reflect m c = Ok x.
Proof.
  revert c x. induction n as [|n IH]; intros c x H m L; [discriminate|].
  destruct m as [|m]; [lia|]. cbn [ReflectModel.reflect] in *.
  assert (RP : forall p y, reflect_prop (reflect n) p = Ok y -> reflect_prop (reflect m) p = Ok y).
  { intros p y E. destruct (declared_dec p) as [[d D]|N].
    - rewrite (declared_prop _ _ _ D) in E. rewrite (declared_prop _ _ _ D). apply (IH _ _ E). lia.
    - rewrite plain_prop in E by auto. rewrite plain_prop by auto; try exact E. }
  match type of H with bind ?a _ = _ => destruct a as [item|] eqn:A; [|discriminate] end.
  match goal with |- bind ?b _ = _ => assert (B : b = Ok item) end.
  { destruct (is_coll W c); auto. destruct (w_item W c) as [| |d co]; auto.
    destruct (reflect n d) as [y|] eqn:E; [|discriminate]. rewrite (IH _ _ E m) by lia. exact A. }
  rewrite B. cbn [bind] in *.
  match type of H with bind ?a _ = _ => destruct a as [infos|] eqn:M; [|discriminate] end.
  rewrite (mapm_mono (fun p => do i <- reflect_prop (reflect n) p; Ok (q_name p, i)) _ _ infos); auto.
  intros p y _ E. destruct (reflect_prop (reflect n) p) as [z|] eqn:P; [|discriminate].
  rewrite (RP p z P). exact E.
Qed.

Lemma finite_reflect c : finite c -> exists n x, reflect n c = Ok x.
Proof.
  induction 1 as [c _ IH].
  assert (PS : exists n, forall p, In p (filter visible (w_props W c)) -> exists y, reflect_prop (reflect n) p = Ok y).
  { assert (G : forall p, In p (filter visible (w_props W c)) -> exists n y, forall m, n <= m -> reflect_prop (reflect m) p = Ok y).
    { intros p I. apply filter_In in I as [I V]. apply visible_iff in V.
      destruct (declared_dec p) as [[d D]|N].
      - destruct (IH d) as (n & x & E); [left; eauto|]. exists n, x. intros m L.
        rewrite (declared_prop _ _ _ D). eapply reflect_mono; eauto.
      - exists 0, (propinfo p). intros m _. apply plain_prop; auto. }
    induction (filter visible (w_props W c)) as [|p l IHl]; [exists 0; intros p []|].
    destruct IHl as (n1 & H1); [intros p' I; apply G; right; auto|].
    destruct (G p (or_introl eq_refl)) as (n2 & y & H2).
    exists (max n1 n2). intros p' [<-|I]; [exists y; apply H2; lia|].
    destruct (H1 p' I) as (y' & E).
    destruct (G p' (or_intror I)) as (n3 & y3 & H3).
    exists y'. destruct (declared_dec p') as [[d D]|N].
    - rewrite (declared_prop _ _ _ D) in E. rewrite (declared_prop _ _ _ D). eapply reflect_mono; eauto. lia.
    - rewrite plain_prop in E by auto. rewrite plain_prop by auto; try exact E. }
  destruct PS as (n1 & PS).
  assert (IT : exists n item, forall m, n <= m ->
     (if is_coll W c then do x <- match w_item W c with TCls d _ => reflect m d | _ => Ok (iteminfo iname c) end; Ok (Some x)
      else Ok None) = Ok item).
  { destruct (is_coll W c) eqn:K; [|exists 0, None; auto].
    destruct (w_item W c) as [| |d co] eqn:T.
    1, 2: exists 0, (Some (iteminfo iname c)); auto.
    destruct (IH d) as (n & x & E); [right; split; [apply is_coll_iff; auto|eauto]|].
    exists n, (Some x). intros m L. rewrite (reflect_mono _ _ _ E m L). reflexivity. }
  destruct IT as (n2 & item & IT).
  assert (PS' : forall p, In p (filter visible (w_props W c)) -> exists y, (do i <- reflect_prop (reflect (max n1 n2)) p; Ok (q_name p, i)) = Ok y).
  { intros p I. destruct (PS p I) as (y & E). exists (q_name p, y).
    destruct (declared_dec p) as [[d D]|N].
    - rewrite (declared_prop _ _ _ D) in E. rewrite (declared_prop _ _ _ D). rewrite (reflect_mono _ _ _ E (max n1 n2)) by lia. reflexivity.
    - rewrite plain_prop in E by auto. rewrite plain_prop by auto; try exact E. injection E as ->. reflexivity. }
  destruct (mapm_all _ _ PS') as (infos & M).
  exists (S (max n1 n2)), (typeinfo cname c infos item). cbn [ReflectModel.reflect].
  rewrite IT by lia. cbn [bind]. rewrite M. reflexivity.
Qed.

(** One level of a catalogue. *)
Definition names_distinct : Prop := forall c, NoDup (map q_name (w_props W c)).
Lemma nodup_filter (l : list prop) f : NoDup (map q_name l) -> NoDup (map q_name (filter f l)).
Proof.
  induction l as [|p l IH]; cbn; intros H; [constructor|]. inversion H as [|? ? N R]; subst.
  destruct (f p); auto. cbn. constructor; auto. intros I. apply N. apply in_map_iff in I as (p' & E & I).
  apply filter_In in I as [I _]. rewrite <- E. apply in_map. auto.
Qed.

Lemma reflect_level n c x : names_distinct -> reflect (S n) c = Ok x ->
  member (s2l "name") x = Some (PStr (cname c)) /\ member (s2l "type") x = None
  /\ (forall p, In p (w_props W c) -> on_show p ->
        exists ps y, member (s2l "properties") x = Some ps /\ member (q_name p) ps = Some y
                     /\ reflect_prop (reflect n) p = Ok y)
  /\ (forall ps k y, member (s2l "properties") x = Some ps -> member k ps = Some y ->
        exists p, In p (w_props W c) /\ on_show p /\ q_name p = k /\ reflect_prop (reflect n) p = Ok y)
  /\ (collection W c -> exists y, member (s2l "itemtype") x = Some y
        /\ match w_item W c with TCls d _ => reflect n d | _ => Ok (iteminfo iname c) end = Ok y)
  /\ (forall y, member (s2l "itemtype") x = Some y -> collection W c).
Proof.
  intros ND H. cbn [ReflectModel.reflect] in H.
  match type of H with bind ?a _ = _ => destruct a as [item|] eqn:A; [|discriminate] end. cbn [bind] in H.
  match type of H with bind ?a _ = _ => destruct a as [infos|] eqn:M; [|discriminate] end. cbn [bind] in H.
  injection H as <-. apply mapm_fst in M as (MF & MP & MC).
  assert (NI : NoDup (map fst infos)) by (rewrite MF; apply nodup_filter, ND).
  unfold typeinfo. rewrite (dict_of_nodup _ NI).
  assert (IT : forall x, item = Some x -> py_true x = true).
  { intros x ->. destruct (is_coll W c); [|discriminate]. destruct (w_item W c) as [| |d co]; cbn [bind] in A.
    1, 2: injection A as <-; reflexivity.
    destruct (reflect n d) as [y|] eqn:E; [|discriminate]. injection A as <-. eapply named_true, reflect_named; eauto. }
  set (tail := match item with Some x => if py_true x then [entry "itemtype" x] else [] | None => [] end).
  assert (TE : tail = match item with Some x => [entry "itemtype" x] | None => [] end).
  { unfold tail. destruct item as [y|]; auto. rewrite (IT y eq_refl). reflexivity. }
  rewrite TE. clear TE tail.
  assert (PM : member (s2l "properties") (PDict (entry "name" (PStr (cname c)) ::
      match infos with [] => [] | _ => [entry "properties" (PDict infos)] end ++
      match item with Some x => [entry "itemtype" x] | None => [] end))
    = match infos with [] => None | _ => Some (PDict infos) end).
  { destruct infos; [destruct item|]; reflexivity. }
  rewrite PM. split; [reflexivity|]. split; [destruct infos, item; reflexivity|]. split; [|split; [|split]].
  - intros p I S. assert (J : In p (filter visible (w_props W c))) by (apply filter_In; split; auto; apply visible_iff; auto).
    destruct (MP p J) as (y & E & K). exists (PDict infos), y.
    destruct infos as [|i infos]; [destruct K|]. split; [reflexivity|]. split; [|exact E].
    apply in_find_name; auto.
  - intros ps k y Hp Hk. destruct infos as [|i infos]; [discriminate|]. injection Hp as <-.
    cbn [member] in Hk. apply find_name_in in Hk. destruct (MC k y Hk) as (p & J & E & R).
    apply filter_In in J as [J V]. apply visible_iff in V. eauto 6.
  - intros C. apply is_coll_iff in C. rewrite C in A.
    destruct (match w_item W c with TCls d _ => reflect n d | _ => Ok (iteminfo iname c) end) as [y|]; [|discriminate].
    injection A as <-. exists y. split; auto. destruct infos; reflexivity.
  - intros y Hy. apply is_coll_iff. destruct (is_coll W c) eqn:K; auto. injection A as <-. destruct infos; discriminate.
Qed.

Lemma reflect_walk : names_distinct -> forall c q t, walk c q t ->
  forall n x, reflect n c = Ok x -> exists y, doc_at x q = Some y /\ says t y.
Proof.
  intros ND c q t H. induction H as [c|c p I S N|c p d q t I S D H IH|c C N|c d co q t C T H IH]; intros n x E;
    (destruct n as [|n]; [discriminate|]);
    destruct (reflect_level _ _ _ ND E) as (L1 & L2 & L3 & L4 & L5 & L6).
  - exists x. cbn. auto.
  - destruct (L3 p I S) as (ps & y & P1 & P2 & P3). rewrite plain_prop in P3 by auto. injection P3 as <-.
    exists (propinfo p). cbn [doc_at]. rewrite P1, P2. split; [reflexivity|].
    cbn [ReflectSpec.says]. split; [reflexivity|]. unfold ReflectModel.propinfo.
    destruct (alts p) as [|a l] eqn:A; [|reflexivity]. destruct (q_type p) as [| |d co] eqn:T; try reflexivity.
    exfalso. apply (N d). left. eauto.
  - destruct (L3 p I S) as (ps & y & P1 & P2 & P3). rewrite (declared_prop _ _ _ D) in P3.
    destruct (IH _ _ P3) as (z & Z1 & Z2). exists z. cbn [doc_at]. rewrite P1, P2. auto.
  - destruct (L5 C) as (y & Y1 & Y2). exists y. cbn [doc_at]. rewrite Y1. split; [reflexivity|].
    destruct (w_item W c) as [| |d co] eqn:T; [| |exfalso; apply (N d co); auto]; injection Y2 as <-; reflexivity.
  - destruct (L5 C) as (y & Y1 & Y2). rewrite T in Y2. destruct (IH _ _ Y2) as (z & Z1 & Z2).
    exists z. cbn [doc_at]. rewrite Y1. auto.
Qed.

Lemma reflect_only : names_distinct -> forall q c n x y, reflect n c = Ok x -> doc_at x q = Some y ->
  exists t, walk c q t.
Proof.
  intros ND. induction q as [|s q IH]; intros c n x y E H; [exists (AType c); constructor|].
  destruct n as [|n]; [discriminate|]. destruct (reflect_level _ _ _ ND E) as (_ & _ & L3 & L4 & L5 & L6).
  destruct s as [k|]; cbn [doc_at] in H.
  - destruct (member (s2l "properties") x) as [ps|] eqn:P; [|discriminate].
    destruct (member k ps) as [z|] eqn:Z; [|discriminate].
    destruct (L4 ps k z eq_refl Z) as (p & I & S & <- & R).
    destruct (declared_dec p) as [[d D]|N].
    + rewrite (declared_prop _ _ _ D) in R. destruct (IH d n z y R H) as (t & T). exists t. eapply wk_prop; eauto.
    + rewrite plain_prop in R by auto. injection R as <-.
      destruct q as [|s q]; [exists (AProp p); constructor; auto|].
      exfalso. unfold ReflectModel.propinfo in H.
      destruct s; cbn [doc_at member] in H; destruct (alts p), (q_type p); discriminate.
  - destruct (member (s2l "itemtype") x) as [z|] eqn:Z; [|discriminate].
    pose proof (L6 z eq_refl) as C. destruct (L5 C) as (z' & Z1 & Z2). injection Z1 as <-.
    destruct (w_item W c) as [| |d co] eqn:T.
    1, 2: injection Z2 as <-; destruct q as [|s q];
        [exists (AItem c); constructor; auto; intros d co; rewrite T; discriminate|destruct s; discriminate].
    destruct (IH d n z y Z2 H) as (t & Wt). exists t. eapply wk_item; eauto.
Qed.

Lemma reflect_finite n : forall c x, names_distinct -> reflect n c = Ok x -> finite c.
Proof.
  induction n as [|n IH]; intros c x ND E; [discriminate|].
  destruct (reflect_level _ _ _ ND E) as (_ & _ & L3 & _ & L5 & _).
  constructor. intros d [(p & I & S & D)|(C & co & T)].
  - destruct (L3 p I S) as (ps & y & _ & _ & R). rewrite (declared_prop _ _ _ D) in R. eapply IH; eauto.
  - destruct (L5 C) as (y & _ & R). rewrite T in R. eapply IH; eauto.
Qed.

Lemma finite_no_loop c : finite c -> ~ reaches W alts extraneous c c.
Proof.
  induction 1 as [c _ IH]. intros R.
  assert (X : exists d, uses c d /\ reaches W alts extraneous d d).
  { assert (TR : forall a b, reaches W alts extraneous a b -> forall e, uses b e -> reaches W alts extraneous a e).
    { induction 1; intros f U; [eapply rch_more; eauto; constructor; auto|eapply rch_more; eauto]. }
    inversion R as [a b U|a b e U R']; subst.
    - exists c. split; auto.
    - exists b. split; auto. eapply TR; eauto. }
  destruct X as (d & U & L). apply (IH d U L).
Qed.

Lemma reflect_err n : forall c e, reflect n c = Err e -> e = RecursionErr.
Proof.
  induction n as [|n IH]; intros c e H; [now injection H|].
  cbn [ReflectModel.reflect] in H.
  match type of H with bind ?a _ = _ => destruct a as [item|e1] eqn:A end.
  - cbn [bind] in H. match type of H with bind ?a _ = _ => destruct a as [infos|e2] eqn:M; [discriminate|] end.
    cbn in H. injection H as <-. clear A.
    revert e2 M. induction (filter visible (w_props W c)) as [|p l IHl]; intros e2 M; [discriminate|].
    cbn [mapm] in M. destruct (reflect_prop (reflect n) p) as [y|e3] eqn:P; cbn [bind] in M.
    + destruct (mapm _ l) as [t|e4] eqn:L; [discriminate|]. cbn in M. injection M as <-. apply IHl. auto.
    + injection M as <-. destruct (declared_dec p) as [[d D]|N].
      * rewrite (declared_prop _ _ _ D) in P. eauto.
      * rewrite plain_prop in P; auto. discriminate.
  - cbn in H. injection H as <-. destruct (is_coll W c); [|discriminate].
    destruct (w_item W c) as [| |d co]; [discriminate|discriminate|].
    destruct (reflect n d) as [y|e2] eqn:E; [discriminate|]. injection A as <-. eauto.
Qed.
End Main.

(** What visiting shows is described. *)
Section Cover.
Variable W : world.
Variable o : vopts.
Variable P : option (list (list elem)).
Definition no_alts : prop -> list (nat + str) := fun _ => [].
Notation walk := (walk W no_alts (v_extraneous o)).

Definition spot_place (s : spot) (t : place) : Prop :=
  match s, t with
  | SNode d _, AType d' => d = d'
  | SLeaf (Some p) _, AProp p' => p = p'
  | SLeaf None _, AItem _ => True
  | _, _ => False
  end.

Lemma no_alts_declared p d : declared no_alts p d <-> exists co, q_type p = TCls d co.
Proof.
  split.
  - intros [[_ H]|(pl & r & E)]; auto. destruct pl; discriminate.
  - intros H. left. auto.
Qed.
Lemma shown_on_show q p : shown o P q p -> on_show (v_extraneous o) p.
Proof.
  intros [H _] E. destruct (v_extraneous o) eqn:V; auto. exfalso. apply H. split; auto.
Qed.

Lemma covers c v q0 q r s : leads W o P c v q0 q r s ->
  (forall q r d c' sl p x, leads W o P c v q0 q r (SNode d (PObj c' sl)) ->
     In p (w_props W d) -> q_type p = TAny -> slot sl (q_name p) = Some x -> forall c2 sl2, x <> PObj c2 sl2) ->
  exists q1 w t, q = q0 ++ q1 /\ Forall2 along q1 w /\ walk c w t /\ spot_place s t.
Proof.
  induction 1 as [c v q|c c' sl q p x I S F N|c c' sl q p x d q' r t I S F SE L IH
                 |c c' sl q k x r C IA N U|c c' sl q k x d co q' r r' t C IA T L IH U]; intros DR.
  - exists [], [], (AType c). rewrite app_nil_r. repeat split; constructor.
  - exists [EStr (q_name p)], [QProp (q_name p)], (AProp p). repeat split.
    + constructor; constructor.
    + constructor; auto; [eapply shown_on_show; eauto|]. intros d D. apply no_alts_declared in D as (co & T).
      apply (N d). rewrite T. reflexivity.
  - assert (D : exists co, q_type p = TCls d co).
    { destruct (q_type p) as [| |d' co] eqn:T; cbn in SE.
      - destruct SE as (sl' & ->). exfalso.
        apply (DR q [] c c' sl p (PObj d sl') (ld_here _ _ _ _ _ _) I T F d sl'). reflexivity.
      - destruct SE.
      - subst. eauto. }
    destruct IH as (q1 & w & t' & -> & F2 & Wk & SP).
    { intros q2 r2 d2 c2 sl2 p2 x2 L2. eapply DR. eapply ld_slot; eauto. }
    exists (EStr (q_name p) :: q1), (QProp (q_name p) :: w), t'. rewrite <- app_assoc. repeat split; auto.
    + constructor; auto. reflexivity.
    + eapply wk_prop; eauto; [eapply shown_on_show; eauto|]. apply no_alts_declared; auto.
  - exists [k], [QItem], (AItem c). repeat split.
    + constructor; constructor.
    + constructor; auto.
  - destruct IH as (q1 & w & t' & -> & F2 & Wk & SP).
    { intros q2 r2 d2 c2 sl2 p2 x2 L2.
      assert (UA : exists r3, items_under W o P c q (k :: r2) r3).
      { destruct U as [[E _]|[E _]]; [exists (EStr (s2l "values") :: k :: r2); left; auto|exists (k :: r2); right; auto]. }
      destruct UA as (r3 & UA). eapply DR. eapply ld_item; eauto. }
    exists (k :: q1), (QItem :: w), t'. rewrite <- app_assoc. repeat split; auto.
    + constructor; auto. exact I.
    + eapply wk_item; eauto.
Qed.
End Cover.
