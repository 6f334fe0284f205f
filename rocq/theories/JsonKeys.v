(** Proofs about the keys of documents and of marshalled records (C37, C38). *)
From Coq Require Import String List NArith ZArith Arith Bool Lia.
From Verif Require Import Prelude GenModel PickleModel AutoModel JsonModel JsonSpec JsonPathSpec JsonProofs JsonPath.
Import ListNotations.
Local Open Scope string_scope.
Local Open Scope list_scope.

Lemma find_dset {A} k k' (a : A) l :
  find_name k (dset k' a l) = if str_eqb k k' then Some a else find_name k l.
Proof.
  induction l as [|[k2 b] t IH]; simpl.
  - destruct (str_eqb k k'); auto.
  - destruct (str_eqb k' k2) eqn:E; simpl.
    + apply str_eqb_eq in E. subst k2. destruct (str_eqb k k'); auto.
    + rewrite IH. destruct (str_eqb k k2) eqn:E2; auto. apply str_eqb_eq in E2. subst k2.
      apply str_eqb_neq in E. destruct (str_eqb k k') eqn:E3; auto. apply str_eqb_eq in E3. congruence.
Qed.

Section Keys.
Variable W : world.
Variable parse : str -> res pyv.
Variable show : Z -> str.
Variable by_key : list (str * pyv) -> list (str * pyv).
Let call := call W parse by_key.
Let marshal := marshal W show.

(** ** What a constructor puts into the entries *)

Lemma omap_find {B} (f : str -> pyv -> out B) kw l m :
  omap (fun kv => let* r := f (fst kv) (snd kv) in Val (fst kv, r)) kw = Val l ->
  match find_name m kw with
  | Some y => exists r, f m y = Val r /\ find_name m l = Some r
  | None => find_name m l = None
  end.
Proof.
  revert l; induction kw as [|[k y] t IH]; intros l; cbn [omap fst snd find_name].
  - intros H; injection H as <-. reflexivity.
  - destruct (f k y) as [r|] eqn:F; cbn [obind]; [|discriminate].
    destruct (omap _ t) as [l'|] eqn:O; cbn [obind]; [|discriminate].
    intros H; injection H as <-. cbn [find_name]. destruct (str_eqb m k) eqn:E.
    + apply str_eqb_eq in E. subst. eauto.
    + apply (IH l' eq_refl).
Qed.

Lemma in_order_find ps vals p : NoDup (map q_name ps) -> In p ps ->
  find_name (q_name p) (in_order ps vals) =
    match find_name (q_name p) vals with Some (Some v) => Some v | _ => None end.
Proof.
  unfold in_order. induction ps as [|q ps IH]; simpl; [tauto|]. intros N I. inversion N; subst.
  rewrite find_name_app. destruct (str_eq_dec (q_name p) (q_name q)) as [E|E].
  - rewrite E. assert (R : find_name (q_name q) (flat_map (fun p0 => match find_name (q_name p0) vals with
                             | Some (Some v) => [(q_name p0, v)] | _ => [] end) ps) = None).
    { apply find_name_none. intros J. apply in_map_iff in J as ([m y] & Em & J). simpl in Em. subst m.
      apply in_flat_map in J as (p' & Ip & J). apply H1.
      destruct (find_name (q_name p') vals) as [[v|]|]; simpl in J; try tauto.
      destruct J as [J|[]]. injection J as <- _. now apply in_map. }
    destruct (find_name (q_name q) vals) as [[v|]|]; simpl; try rewrite str_eqb_refl; auto.
  - destruct I as [I|I]; [congruence|]. rewrite <- IH by auto.
    destruct (find_name (q_name q) vals) as [[v|]|]; simpl; auto.
    destruct (str_eqb (q_name p) (q_name q)) eqn:E2; auto. apply str_eqb_eq in E2. congruence.
Qed.

Lemma record_init_slot rec c kw v : NoDup (map q_name (w_props W c)) ->
  record_init W rec c [] kw = Val v ->
  exists sl, v = PObj c sl /\
    forall p, In p (w_props W c) ->
      match find_name (q_name p) kw with
      | Some y => init_prop W rec p (Some y) = Val (find_name (q_name p) sl)
      | None => (has_init p -> init_prop W rec p None = Val (find_name (q_name p) sl)) /\
                (~ has_init p -> find_name (q_name p) sl = None)
      end.
Proof.
  intros N. unfold record_init.
  destruct (omap _ kw) as [given|] eqn:G; cbn [obind]; [|discriminate].
  destruct (omap _ (filter _ _)) as [missing|] eqn:M; cbn [obind]; [|discriminate].
  intros H. injection H as <-. cbn [app]. eexists; split; [reflexivity|]. intros p Ip.
  rewrite (in_order_find _ _ p N Ip), find_name_app.
  assert (G' : omap (fun kv => let* r := (match find_prop (fst kv) (w_props W c) with
                                          | None => Exc [] PropNotKnown
                                          | Some p => init_prop W rec p (Some (snd kv))
                                          end) in Val (fst kv, r)) kw = Val given).
  { rewrite <- G. clear. induction kw as [|[k y] t IH]; auto. cbn [omap fst snd]. rewrite IH.
    destruct (find_prop k (w_props W c)); auto. }
  pose proof (omap_find (fun m y => match find_prop m (w_props W c) with
                                    | None => Exc [] PropNotKnown
                                    | Some p => init_prop W rec p (Some y) end) kw given (q_name p) G') as GF.
  cbn beta in GF.
  destruct (find_name (q_name p) kw) as [y|] eqn:K.
  - destruct GF as (r & R & ->). rewrite (find_prop_in _ p N Ip) in R. rewrite R. destruct r; reflexivity.
  - rewrite GF.
    assert (MF : forall qs ms, NoDup (map q_name qs) ->
       omap (fun p => let* r := init_prop W rec p None in Val (q_name p, r)) qs = Val ms ->
       (In p qs -> exists r, init_prop W rec p None = Val r /\ find_name (q_name p) ms = Some r) /\
       ((forall q, In q qs -> q_name q <> q_name p) -> find_name (q_name p) ms = None)).
    { clear. induction qs as [|q qs IH]; intros ms N; cbn [omap].
      - intros H; injection H as <-. split; [intros []|auto].
      - destruct (init_prop W rec q None) as [r|] eqn:R; cbn [obind]; [|discriminate].
        destruct (omap _ qs) as [ms'|] eqn:O; cbn [obind]; [|discriminate].
        intros H; injection H as <-. simpl in N. inversion N; subst.
        destruct (IH ms' H2 eq_refl) as [I1 I2]. cbn [find_name]. split.
        + intros [->|I]; [rewrite str_eqb_refl; eauto|].
          destruct (str_eqb (q_name p) (q_name q)) eqn:E.
          * apply str_eqb_eq in E. exfalso. apply H1. rewrite <- E. now apply in_map.
          * now apply I1.
        + intros D. destruct (str_eqb (q_name p) (q_name q)) eqn:E.
          * apply str_eqb_eq in E. exfalso. eapply D; [left; reflexivity|]. auto.
          * apply I2. intros q' I. apply D. simpl; auto. }
    assert (NF : forall f (l : list prop), NoDup (map q_name l) -> NoDup (map q_name (filter f l))).
    { clear. intros f l. induction l as [|q l IH]; simpl; auto. intros N. inversion N; subst.
      destruct (f q); simpl; auto. constructor; auto. intros I. apply H1.
      apply in_map_iff in I as (q' & E & I). apply filter_In in I as [I _]. rewrite <- E. now apply in_map. }
    destruct (MF _ _ (NF _ _ N) M) as [M1 M2].
    assert (EG : eager p = true <-> has_init p).
    { unfold eager, has_init. rewrite orb_true_iff. destruct (q_default p); intuition congruence. }
    split.
    + intros HI. apply EG in HI.
      destruct M1 as (r & R & ->); [|rewrite R; destruct r; reflexivity].
      apply filter_In. split; auto. unfold has_name. rewrite K, HI. reflexivity.
    + intros HI. rewrite M2; auto. intros q I E. apply filter_In in I as [I Q].
      assert (q = p).
      { pose proof (find_prop_in _ q N I) as F1. pose proof (find_prop_in _ p N Ip) as F2. congruence. }
      subst q. apply andb_true_iff in Q as [Q _]. apply HI, EG, Q.
Qed.

(** ** Loading a document *)

Definition known (c : nat) (k : str) : Prop := exists p, In p (w_props W c) /\ json_key p = Some k.

Lemma load_doc n c doc v : tidy_class W c -> NoDup (map fst doc) ->
  call (S n) c (PDict doc) = Val v ->
  exists sl ys u, v = PObj c sl /\ reads W (call n) doc (w_props W c) ys /\
    (forall k x, In (k, x) u <-> In (k, x) doc /\ ~ known c k) /\ NoDup (map fst u) /\
    find_name unknown_name sl = (match u with [] => None | _ => Some (PDict u) end) /\
    forall p, In p (w_props W c) -> q_name p <> unknown_name ->
      match find_name (q_name p) ys with
      | Some y => init_prop W (call n) p (Some y) = Val (find_name (q_name p) sl)
      | None => (has_init p -> init_prop W (call n) p None = Val (find_name (q_name p) sl)) /\
                (~ has_init p -> find_name (q_name p) sl = None)
      end.
Proof.
  intros [TK TN TKeys (pu & Pu1 & Pu2 & Pu3 & Pu4 & Pu5 & Pu6)] Nd E.
  change (s2l "unknown_json_keys") with unknown_name in Pu2.
  unfold call in E. cbn [JsonModel.call] in E. fold call in E. unfold call_class in E. rewrite TK in E.
  cbn [decode obind] in E.
  destruct (initkwargs_spec W (call n) c doc (conj TN TKeys)) as
    [(ys & kw & A1 & A2 & A3)|(ps1 & q & ps2 & ys & k' & x' & path & e & A1 & A2 & A3 & A4 & A5 & A6)];
    [|rewrite A6 in E; discriminate].
  rewrite A2 in E. cbn [obind] in E. specialize (A3 Nd).
  set (u := filter (fun kv => negb (existsb (fun p => match json_key p with
                                       | Some k => str_eqb (fst kv) k | None => false end) (w_props W c))) doc) in *.
  destruct (record_init_slot (call n) c kw v TN E) as (sl & -> & S).
  assert (UN : find_name unknown_name ys = None).
  { apply find_name_none. intros I. destruct (reads_names W _ _ _ _ _ A1 I) as (p & k & Ip & Np & Kp).
    assert (p = pu).
    { pose proof (find_prop_in _ p TN Ip) as F1. pose proof (find_prop_in _ pu TN Pu1) as F2. congruence. }
    congruence. }
  assert (KW : forall m, find_name m kw = if str_eqb m unknown_name
                         then match u with [] => None | _ => Some (PDict u) end else find_name m ys).
  { intros m. rewrite A3. destruct u as [|a u'].
    - destruct (str_eqb m unknown_name) eqn:Em; auto. apply str_eqb_eq in Em. now subst.
    - rewrite find_dset. reflexivity. }
  exists sl, ys, u. split; auto. split; auto. split; [|split; [|split]].
  - intros k x. unfold u. rewrite filter_In. cbn [fst]. rewrite negb_true_iff.
    split; intros [I X]; split; auto.
    + intros (p & Ip & Kp).
      assert (Z : existsb (fun p => match json_key p with Some k' => str_eqb k k' | None => false end) (w_props W c) = true).
      { apply existsb_exists. exists p. split; auto. rewrite Kp. apply str_eqb_refl. }
      congruence.
    + destruct (existsb _ (w_props W c)) eqn:Z; auto. exfalso. apply X.
      apply existsb_exists in Z as (p & Ip & Kp). exists p. split; auto.
      destruct (json_key p); [|discriminate]. apply str_eqb_eq in Kp. now subst.
  - unfold u. clear - Nd. induction doc as [|[k x] t IH]; simpl in *; [constructor|].
    inversion Nd; subst. destruct (negb _); auto. simpl. constructor; auto.
    intros I. apply H1. apply in_map_iff in I as (kx & Ek & I). apply filter_In in I as [I _].
    rewrite <- Ek. now apply in_map.
  - specialize (S pu Pu1). rewrite Pu2, KW, str_eqb_refl in S. destruct u as [|a u'].
    + now apply (proj2 S).
    + unfold init_prop, type_safe in S. rewrite Pu4, Pu5 in S. cbn [isinstance obind] in S. congruence.
  - intros p Ip NE. specialize (S p Ip). rewrite KW in S.
    destruct (str_eqb (q_name p) unknown_name) eqn:Ep; [apply str_eqb_eq in Ep; congruence|exact S].
Qed.

(** ** Marshalling out *)

(** property [p] produces [j] for the record with entries [sl] *)
Definition produces (ex : bool) (sl : list (str * pyv)) (p : prop) (j : pyv) : Prop :=
  (ex = true \/ q_extraneous p = false) /\
  exists x, find_name (q_name p) sl = Some x /\ prop_out W show ex p x = Ok j.

Lemma emit_find ex sl ps : forall acc jd,
  NoDup (map q_name ps) ->
  (forall p p' k, In p ps -> In p' ps -> json_key p = Some k -> json_key p' = Some k -> p = p') ->
  emit ex ps (slots_of W show sl ex) acc = Ok jd -> forall k,
  (exists p j, In p ps /\ json_key p = Some k /\ produces ex sl p j /\ find_name k jd = Some j) \/
  ((forall p j, In p ps -> json_key p = Some k -> ~ produces ex sl p j) /\ find_name k jd = find_name k acc).
Proof.
  induction ps as [|p ps IH]; intros acc jd N U E k.
  - simpl in E. injection E as <-. right. split; auto.
  - simpl in N. inversion N as [|? ? N1 N2]; subst.
    assert (U' : forall p p' k, In p ps -> In p' ps -> json_key p = Some k -> json_key p' = Some k -> p = p')
      by (intros; eapply U; simpl; eauto).
    (* a step that does not emit *)
    assert (Skip : (forall j, json_key p = Some k -> ~ produces ex sl p j) ->
        emit ex ps (slots_of W show sl ex) acc = Ok jd ->
        (exists q j, In q (p :: ps) /\ json_key q = Some k /\ produces ex sl q j /\ find_name k jd = Some j) \/
        ((forall q j, In q (p :: ps) -> json_key q = Some k -> ~ produces ex sl q j) /\ find_name k jd = find_name k acc)).
    { intros NP E'. destruct (IH acc jd N2 U' E' k) as [(q & j & A1 & A2 & A3 & A4)|[A1 A2]].
      - left. exists q, j. simpl; auto.
      - right. split; auto. intros q j [<-|I]; eauto. }
    cbn [emit] in E. destruct (negb ex && q_extraneous p) eqn:X.
    { apply Skip; auto. intros j _ [[->|Q] _]; [discriminate|]. rewrite Q, andb_false_r in X. discriminate. }
    assert (EX : ex = true \/ q_extraneous p = false).
    { destruct ex; [auto|]. right. destruct (q_extraneous p); [discriminate|auto]. }
    rewrite slots_of_find, key_same in E.
    destruct (find_name (q_name p) sl) as [x|] eqn:F; cbn [option_map] in E.
    2:{ apply Skip; auto. intros j _ [_ (y & Fy & _)]. congruence. }
    destruct (json_key p) as [kp|] eqn:K; [|apply Skip; auto; discriminate].
    assert (Q : (if q_json p then match q_out p with Some f => f x | None => marshal true ex x end
                 else marshal true ex x) = prop_out W show ex p x).
    { unfold prop_out, conv_out. destruct (q_json p); auto. }
    fold marshal in E. rewrite Q in E. destruct (prop_out W show ex p x) as [j|err] eqn:O.
    + destruct (str_eq_dec kp k) as [->|NE].
      * left. exists p, j. split; [simpl; auto|]. split; auto. split; [split; eauto|].
        destruct (IH _ _ N2 U' E k) as [(q & j' & A1 & A2 & A3 & A4)|[A1 A2]].
        -- exfalso. assert (p = q) by (eapply U; simpl; eauto). subst q. apply N1. now apply in_map.
        -- rewrite A2, find_dset, str_eqb_refl. reflexivity.
      * destruct (IH _ _ N2 U' E k) as [(q & j' & A1 & A2 & A3 & A4)|[A1 A2]].
        -- left. exists q, j'. simpl; auto.
        -- right. split.
           ++ intros q j' [<-|I]; [congruence|eauto].
           ++ rewrite A2, find_dset. destruct (str_eqb k kp) eqn:Ek; auto. apply str_eqb_eq in Ek. congruence.
    + destruct (is_attr_err err); [|discriminate]. apply Skip; auto.
      intros j _ [_ (y & Fy & Oy)]. congruence.
Qed.

Lemma add_unknown_find u : forall jd jd' k, add_unknown u jd = Ok jd' ->
  match find_name k jd with
  | Some j => find_name k jd' = Some j
  | None => match find_name k u with
            | Some r => exists j, r = Ok j /\ find_name k jd' = Some j
            | None => find_name k jd' = None
            end
  end.
Proof.
  induction u as [|[k' r] t IH]; intros jd jd' k E; cbn [add_unknown] in E.
  - injection E as <-. cbn [find_name]. destruct (find_name k jd); reflexivity.
  - unfold has_name in E. cbn [find_name].
    destruct (find_name k' jd) as [j'|] eqn:F.
    + specialize (IH jd jd' k E). destruct (find_name k jd) as [j|] eqn:Fk; auto.
      destruct (str_eqb k k') eqn:Ek; auto. apply str_eqb_eq in Ek. congruence.
    + destruct r as [j|e]; cbn [bind] in E; [|discriminate].
      specialize (IH _ jd' k E). rewrite find_name_app in IH. cbn [find_name] in IH.
      destruct (find_name k jd) as [j2|] eqn:Fk; auto.
      destruct (str_eqb k k') eqn:Ek; auto. eauto.
Qed.
End Keys.
