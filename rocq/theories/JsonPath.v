(** Proofs about loading: what is read (C38) and where it fails (C39). *)
From Coq Require Import String List NArith ZArith Arith Bool Lia.
From Verif Require Import Prelude GenModel PickleModel AutoModel JsonModel JsonSpec JsonPathSpec JsonProofs.
Import ListNotations.
Local Open Scope string_scope.
Local Open Scope list_scope.

Lemma drop_key_some k l : In k l -> exists l', drop_key k l = Some l' /\
  (forall x, x <> k -> (In x l' <-> In x l)) /\ (NoDup l -> NoDup l' /\ ~ In k l').
Proof.
  induction l as [|y t IH]; simpl; [tauto|]. intros I.
  destruct (str_eqb k y) eqn:E.
  - apply str_eqb_eq in E. subst. exists t. split; auto. split.
    + intros x D. intuition congruence.
    + intros N. inversion N; subst. auto.
  - apply str_eqb_neq in E. destruct I as [I|I]; [congruence|].
    destruct (IH I) as (l' & -> & S & N'). exists (y :: l'). split; auto. split.
    + intros x D. simpl. rewrite S; tauto.
    + intros N. inversion N; subst. destruct (N' H2) as [N1 N2]. split.
      * constructor; auto. intros J. destruct (str_eq_dec y k) as [->|D]; [auto|]. apply S in J; auto.
      * intros [J|J]; [congruence|auto].
Qed.

Section Path.
Variable W : world.
Variable parse : str -> res pyv.
Variable by_key : list (str * pyv) -> list (str * pyv).
Let call := call W parse by_key.
Let run := run W parse by_key.

Lemma run_read n p x : run n (Read p x) = prop_read W (call n) p x.
Proof.
  unfold run, JsonPathSpec.run, prop_read. destruct (conv_in p) as [f|].
  - destruct (f x); reflexivity.
  - reflexivity.
Qed.

(** ** Reading a document *)

(** the properties [ps] read the arguments [ys] from [doc] *)
Inductive reads (rec : nat -> pyv -> out pyv) (doc : list (str * pyv)) :
  list prop -> list (str * pyv) -> Prop :=
| rd_nil : reads rec doc [] []
| rd_skip p ps ys : (forall k, json_key p = Some k -> find_name k doc = None) ->
    reads rec doc ps ys -> reads rec doc (p :: ps) ys
| rd_put p ps ys k x y : json_key p = Some k -> find_name k doc = Some x ->
    prop_read W rec p x = Val y -> reads rec doc ps ys -> reads rec doc (p :: ps) ((q_name p, y) :: ys).

Lemma reads_names rec doc ps ys m : reads rec doc ps ys -> In m (map fst ys) ->
  exists p k, In p ps /\ q_name p = m /\ json_key p = Some k.
Proof.
  induction 1 as [|p ps ys H R IH|p ps ys k x y K F P R IH]; simpl; [tauto| |].
  - intros I. destruct (IH I) as (q & k & A & B & C). eauto 6.
  - intros [<-|I]; [eauto 6|]. destruct (IH I) as (q & k' & A & B & C). eauto 6.
Qed.

(** everything is fine, or the first failing property is the one reported *)
Lemma read_props_spec rec doc ps : forall kw u,
  NoDup (map q_name ps) ->
  (forall p p' k, In p ps -> In p' ps -> json_key p = Some k -> json_key p' = Some k -> p = p') ->
  (forall p k x, In p ps -> json_key p = Some k -> find_name k doc = Some x -> In k u) ->
  (forall p, In p ps -> has_name (q_name p) kw = false) ->
  (exists ys u', reads rec doc ps ys /\ read_props W rec doc ps (kw, u) = Val (kw ++ ys, u') /\
     (NoDup u -> NoDup u' /\
     forall k, In k u' <-> In k u /\ forall p, In p ps -> json_key p = Some k -> find_name k doc = None))
  \/
  (exists ps1 p ps2 ys k x path e, ps = ps1 ++ p :: ps2 /\ reads rec doc ps1 ys /\
     json_key p = Some k /\ find_name k doc = Some x /\ prop_read W rec p x = Exc path e /\
     read_props W rec doc ps (kw, u) = Exc (SKey k :: path) e).
Proof.
  induction ps as [|p ps IH]; intros kw u N U Hu Hk.
  - left. exists [], u. split; [apply rd_nil|]. rewrite app_nil_r. split; auto. intros Nu. split; auto.
    intros k. split; [intros I; split; auto; intros p []|tauto].
  - inversion N as [|? ? N1 N2]; subst.
    destruct (json_key p) as [k|] eqn:K; [destruct (find_name k doc) as [x|] eqn:F|].
    + (* the key is there *)
      destruct (drop_key_some k u (Hu p k x (or_introl eq_refl) K F)) as (u' & D & Su' & Nu').
      pose proof (Hk p (or_introl eq_refl)) as HN.
      destruct (prop_read W rec p x) as [y|path e] eqn:R.
      * assert (ST : read_props W rec doc (p :: ps) (kw, u) =
                     read_props W rec doc ps (kw ++ [(q_name p, y)], u')).
        { cbn [read_props]. unfold read_prop. rewrite key_same, K, F, HN, D.
          unfold prop_read, conv_in in R. destruct (q_json p); cbn [obind] in R.
          - rewrite R. reflexivity.
          - rewrite R. reflexivity. }
        destruct (IH (kw ++ [(q_name p, y)]) u') as
          [(ys & u2 & A1 & A2 & A3)|(ps1 & q & ps2 & ys & k' & x' & path & e & A1 & A2 & A3 & A4 & A5 & A6)]; auto.
        { intros; eapply U; simpl; eauto. }
        { intros q k' x' I K' F'. apply Su'; [|eapply Hu; eauto; simpl; auto].
          intros ->. rewrite (U p q k (or_introl eq_refl) (or_intror I) K K') in N1. now apply N1, in_map. }
        { intros q Q. destruct (has_name (q_name q) (kw ++ [(q_name p, y)])) eqn:E; auto.
          apply has_name_in in E. rewrite map_app, in_app_iff in E. simpl in E.
          destruct E as [E|[E|[]]].
          - apply has_name_in in E. rewrite (Hk q) in E by (simpl; auto). discriminate.
          - exfalso. apply N1. rewrite E. now apply in_map. }
        -- left. exists ((q_name p, y) :: ys), u2. split; [eapply rd_put; eauto|].
           rewrite ST, A2, <- app_assoc. split; [reflexivity|].
           intros Nu. destruct (Nu' Nu) as [Nu1 Nu2]. destruct (A3 Nu1) as [A4 A5]. split; auto.
           intros k'. rewrite A5. split.
           ++ intros [I1 I3]. assert (D' : k' <> k) by congruence. apply Su' in I1; auto.
              split; auto. intros q [<-|Q] Kq; [congruence|eauto].
           ++ intros [I1 I2]. split; [|intros q Q; apply I2; simpl; auto].
              apply Su'; auto. intros ->. rewrite (I2 p (or_introl eq_refl) K) in F. discriminate.
        -- right. exists (p :: ps1), q, ps2, ((q_name p, y) :: ys), k', x', path, e.
           rewrite A1. split; auto. split; [eapply rd_put; eauto|]. rewrite <- A1, ST. auto.
      * right. exists [], p, ps, [], k, x, path, e. split; auto. split; [apply rd_nil|].
        repeat split; auto. cbn [read_props]. unfold read_prop. rewrite key_same, K, F, HN, D.
        unfold prop_read, conv_in in R. destruct (q_json p); cbn [obind] in R.
        -- rewrite R. reflexivity.
        -- rewrite R. reflexivity.
    + assert (ST : read_props W rec doc (p :: ps) (kw, u) = read_props W rec doc ps (kw, u)).
      { cbn [read_props]. unfold read_prop. rewrite key_same, K, F. reflexivity. }
      destruct (IH kw u) as
        [(ys & u2 & A1 & A2 & A3)|(ps1 & q & ps2 & ys & k' & x' & path & e & A1 & A2 & A3 & A4 & A5 & A6)]; auto.
      { intros; eapply U; simpl; eauto. }
      { intros; eapply Hu; simpl; eauto. }
      { intros; apply Hk; simpl; auto. }
      * left. exists ys, u2. split; [apply rd_skip; auto; congruence|]. rewrite ST. split; auto.
        intros Nu. destruct (A3 Nu) as [A4 A5]. split; auto. intros k'. rewrite A5. split.
        -- intros [I1 I2]. split; auto. intros q [<-|Q] Kq; [congruence|eauto].
        -- intros [I1 I2]. split; auto. intros q Q. apply I2; simpl; auto.
      * right. exists (p :: ps1), q, ps2, ys, k', x', path, e. rewrite A1. split; auto.
        split; [apply rd_skip; auto; congruence|]. rewrite <- A1, ST. auto.
    + assert (ST : read_props W rec doc (p :: ps) (kw, u) = read_props W rec doc ps (kw, u)).
      { cbn [read_props]. unfold read_prop. rewrite key_same, K. reflexivity. }
      destruct (IH kw u) as
        [(ys & u2 & A1 & A2 & A3)|(ps1 & q & ps2 & ys & k' & x' & path & e & A1 & A2 & A3 & A4 & A5 & A6)]; auto.
      { intros; eapply U; simpl; eauto. }
      { intros; eapply Hu; simpl; eauto. }
      { intros; apply Hk; simpl; auto. }
      * left. exists ys, u2. split; [apply rd_skip; auto; congruence|]. rewrite ST. split; auto.
        intros Nu. destruct (A3 Nu) as [A4 A5]. split; auto. intros k'. rewrite A5. split.
        -- intros [I1 I2]. split; auto. intros q [<-|Q] Kq; [congruence|eauto].
        -- intros [I1 I2]. split; auto. intros q Q. apply I2; simpl; auto.
      * right. exists (p :: ps1), q, ps2, ys, k', x', path, e. rewrite A1. split; auto.
        split; [apply rd_skip; auto; congruence|]. rewrite <- A1, ST. auto.
Qed.

(** ** Errors of constructors have no path *)

Lemma omap_exc {A B} (f : A -> out B) l path e : omap f l = Exc path e ->
  exists l1 x l2, l = l1 ++ x :: l2 /\ f x = Exc path e /\ (forall y, In y l1 -> exists z, f y = Val z).
Proof.
  induction l as [|x t IH]; simpl; [discriminate|].
  destruct (f x) as [y|p e'] eqn:F; cbn [obind].
  - destruct (omap f t) as [ys|p e'] eqn:O; cbn [obind]; [discriminate|].
    intros H. injection H as -> ->. destruct (IH eq_refl) as (l1 & z & l2 & -> & Z1 & Z2).
    exists (x :: l1), z, l2. split; auto. split; auto. intros w [<-|I]; eauto.
  - intros H. injection H as -> ->. exists [], x, t. split; auto. split; auto. intros y [].
Qed.

Lemma omap_first {A B} (f : A -> out B) l1 x l2 path e :
  (forall y, In y l1 -> exists z, f y = Val z) -> f x = Exc path e ->
  omap f (l1 ++ x :: l2) = Exc path e.
Proof.
  induction l1 as [|y t IH]; simpl; intros H F.
  - now rewrite F.
  - destruct (H y (or_introl eq_refl)) as [z ->]. cbn [obind]. rewrite IH; auto.
Qed.

Lemma type_safe_path rec p v path e : type_safe W rec p v = Exc path e -> path = [].
Proof.
  unfold type_safe. destruct (match v, q_required p, q_type p with PNone, true, TAny => true | _, _, _ => false end) eqn:E.
  - destruct v, (q_required p), (q_type p); try discriminate. intros H; injection H as <- <-; auto.
  - assert (G : forall w, (if q_check p w then Val (Some w) else Exc [] ValueCheckErr) = Exc path e -> path = []).
    { intros w. destruct (q_check p w); [discriminate|]. intros H; injection H as <- <-; auto. }
    assert (K : (if isinstance W v (q_type p) then if q_check p v then Val (Some v) else Exc [] ValueCheckErr
      else match run_coerce rec (q_type p) v with
           | Exc _ _ => Exc [] CoerceErr
           | Val nv =>
               if isinstance W nv (q_type p) then if q_check p nv then Val (Some nv) else Exc [] ValueCheckErr
               else match nv, q_required p with
                    | PNone, false => Val None
                    | _, _ => Exc [] ValueCoercionErr
                    end
           end) = Exc path e -> path = []).
    { destruct (isinstance W v (q_type p)); [apply G|]. destruct (run_coerce rec (q_type p) v) as [nv|? ?].
      - destruct (isinstance W nv (q_type p)); [apply G|].
        destruct nv, (q_required p); intros H; try discriminate; injection H as <- <-; auto.
      - intros H; injection H as <- <-; auto. }
    intros H. apply K. destruct v, (q_required p), (q_type p); try discriminate; exact H.
Qed.

Lemma init_prop_path rec p g path e : init_prop W rec p g = Exc path e -> path = [].
Proof.
  unfold init_prop.
  assert (G : forall r : option pyv, match r with
                  | None => if q_required p then Exc [] PropRequired else Val None
                  | Some v => Val (Some v)
                  end = Exc path e -> path = [] :> list step).
  { intros [w|]; [discriminate|]. destruct (q_required p); [|discriminate].
    intros H; injection H as <- <-; auto. }
  assert (K : forall v, obind (type_safe W rec p v) (fun r => match r with
                  | None => if q_required p then Exc [] PropRequired else Val None
                  | Some v => Val (Some v)
                  end) = Exc path e -> path = []).
  { intros v. destruct (type_safe W rec p v) as [r|? ?] eqn:T; cbn [obind]; [apply G|].
    intros H; injection H as <- <-. eapply type_safe_path; eauto. }
  destruct g as [v|]; [apply K|]. destruct (q_default p) as [[v|e']|]; [apply K| |apply (G None)].
  intros H; injection H as <- <-; auto.
Qed.

Lemma record_init_path rec c pre kw path e : record_init W rec c pre kw = Exc path e -> path = [].
Proof.
  unfold record_init.
  destruct (omap _ kw) as [g|p1 e1] eqn:O1; cbn [obind].
  - destruct (omap _ (filter _ _)) as [m|p2 e2] eqn:O2; cbn [obind]; [discriminate|].
    intros H; injection H as <- <-. apply omap_exc in O2 as (l1 & p & l2 & _ & F & _).
    destruct (init_prop W rec p None) eqn:I; cbn [obind] in F; [discriminate|].
    injection F as <- <-. eapply init_prop_path; eauto.
  - intros H; injection H as <- <-. apply omap_exc in O1 as (l1 & [m y] & l2 & _ & F & _).
    cbn [fst snd] in F. destruct (find_prop m (w_props W c)) as [p|].
    + destruct (init_prop W rec p (Some y)) eqn:I; cbn [obind] in F; [discriminate|].
      injection F as <- <-. eapply init_prop_path; eauto.
    + injection F as <- <-; auto.
Qed.

Lemma coerce_item_path rec c v path e : coerce_item W rec c v = Exc path e -> path = [].
Proof.
  unfold coerce_item. destruct (isinstance W v (w_item W c)); [discriminate|].
  destruct (run_coerce rec (w_item W c) v); [discriminate|]. intros H; injection H as <- <-; auto.
Qed.

Lemma coll_init_path rec c v kw path e : coll_init W by_key rec c v kw = Exc path e -> path = [].
Proof.
  unfold coll_init.
  match goal with |- obind ?vs _ = _ -> _ => destruct vs as [w|p1 e1] eqn:O end; cbn [obind];
    [apply record_init_path|].
  intros H; injection H as <- <-. destruct (is_list_kind (w_kind W c)).
  - destruct (list_items by_key v) as [l|? ?] eqn:L; cbn [obind] in O.
    + destruct (omap (coerce_item W rec c) l) as [l'|? ?] eqn:M; cbn [obind] in O; [discriminate|].
      injection O as <- <-. apply omap_exc in M as (l1 & x & l2 & _ & F & _).
      eapply coerce_item_path; eauto.
    + injection O as <- <-. unfold list_items in L.
      destruct v; try discriminate; try (injection L as <- <-; auto; fail).
      * destruct b; [injection L as <- <-; auto|discriminate].
      * destruct (Z.eqb z 0); [discriminate|injection L as <- <-; auto].
      * destruct (find_name _ slots) as [[]|]; try discriminate; injection L as <- <-; auto.
  - destruct (dict_items v) as [l|? ?] eqn:L; cbn [obind] in O.
    + match type of O with obind ?m _ = _ => destruct m as [l'|? ?] eqn:M end; cbn [obind] in O; [discriminate|].
      injection O as <- <-. apply omap_exc in M as (l1 & x & l2 & _ & F & _).
      destruct (coerce_item W rec c (snd x)) eqn:CI; cbn [obind] in F; [discriminate|].
      injection F as <- <-. eapply coerce_item_path; eauto.
    + injection O as <- <-. unfold dict_items in L.
      destruct v as [| | | | |[|? ?]| |[|? ?]| |]; try discriminate; injection L as <- <-; auto.
Qed.

(** ** Tasks *)

Lemma decode_spec v : (exists j, stands parse v j /\ decode parse v = Val j) \/
  (exists e, decode parse v = Exc [] e).
Proof.
  destruct v; try (left; eexists; split; [apply st_self; discriminate|reflexivity]).
  cbn [decode]. destruct (parse s) as [j|e] eqn:E; [left|right; eauto].
  exists j. split; auto. now apply st_text.
Qed.

Lemma stands_decode v j : stands parse v j -> decode parse v = Val j.
Proof.
  intros [w H|s w H].
  - destruct w; try reflexivity. now destruct (H s).
  - cbn [decode]. now rewrite H.
Qed.

Lemma stands2_decode v j : stands2 parse v j ->
  exists v', decode parse v = Val v' /\ decode parse v' = Val j /\ (v' = PNone -> j = PNone).
Proof.
  intros [w w' S H|w s w' S H].
  - exists w'. split; [now apply stands_decode|]. split; auto.
    destruct w'; try reflexivity. now destruct (H s).
  - exists (PStr s). split; [now apply stands_decode|]. cbn [decode]. rewrite H. split; auto. discriminate.
Qed.

Lemma decode_not_str v j : stands parse v j -> forall j', decode parse j = Val j' -> stands2 parse v j'.
Proof.
  intros S j' D. destruct j; cbn [decode] in D; try (injection D as <-; apply st_once; auto; discriminate).
  destruct (parse s) eqn:P; [|discriminate]. injection D as <-. eapply st_twice; eauto.
Qed.

(** reading a whole document, from the first property on *)
Lemma initkwargs_spec rec c doc : distinct_props W c ->
  (exists ys kw, reads rec doc (w_props W c) ys /\ initkwargs W rec c (PDict doc) [] = Val kw /\
     (NoDup (map fst doc) ->
      kw = match filter (fun kv => negb (existsb (fun p => match json_key p with
                                                  | Some k => str_eqb (fst kv) k
                                                  | None => false
                                                  end) (w_props W c))) doc with
            | [] => ys
            | u => dset unknown_name (PDict u) ys
            end))
  \/
  (exists ps1 p ps2 ys k x path e, w_props W c = ps1 ++ p :: ps2 /\ reads rec doc ps1 ys /\
     json_key p = Some k /\ find_name k doc = Some x /\ prop_read W rec p x = Exc path e /\
     initkwargs W rec c (PDict doc) [] = Exc (SKey k :: path) e).
Proof.
  intros [N U]. unfold initkwargs.
  destruct (read_props_spec rec doc (w_props W c) [] (map fst doc) N U) as
    [(ys & u & A1 & A2 & A3)|(ps1 & q & ps2 & ys & k' & x' & path & e & A1 & A2 & A3 & A4 & A5 & A6)]; auto.
  { intros p k x _ _ F. apply find_name_in in F. change k with (fst (k, x)). now apply in_map. }
  - left. rewrite A2. cbn [obind app]. exists ys, (match u with
             | [] => ys
             | _ => dset unknown_name (PDict (filter (fun kv => existsb (str_eqb (fst kv)) u) doc)) ys
             end).
    split; auto. split; [destruct u; reflexivity|]. intros Nd. destruct (A3 Nd) as [_ A4].
    assert (E : filter (fun kv => existsb (str_eqb (fst kv)) u) doc =
                filter (fun kv => negb (existsb (fun p => match json_key p with
                                                  | Some k => str_eqb (fst kv) k
                                                  | None => false
                                                  end) (w_props W c))) doc).
    { apply filter_ext_in. intros [k x] I. cbn [fst].
      assert (Ik : In k (map fst doc)) by (change k with (fst (k, x)); now apply in_map).
      assert (Fk : find_name k doc = Some x) by now apply in_find_name.
      destruct (existsb (fun p => match json_key p with Some k' => str_eqb k k' | None => false end) (w_props W c)) eqn:X; cbn [negb].
      - apply existsb_exists in X as (p & Ip & Kp). destruct (json_key p) as [k'|] eqn:K; [|discriminate].
        apply str_eqb_eq in Kp. subst k'.
        destruct (existsb (str_eqb k) u) eqn:Y; auto. apply existsb_exists in Y as (k' & I' & E').
        apply str_eqb_eq in E'. subst k'. apply A4 in I' as [_ I']. specialize (I' p Ip K). congruence.
      - apply existsb_exists. exists k. split; [|apply str_eqb_refl]. apply A4. split; auto.
        intros p Ip Kp. exfalso.
        assert (Z : existsb (fun p => match json_key p with Some k' => str_eqb k k' | None => false end) (w_props W c) = true).
        { apply existsb_exists. exists p. split; auto. rewrite Kp. apply str_eqb_refl. }
        congruence. }
    rewrite E.
    destruct u as [|k u].
    + assert (Z : filter (fun kv : str * pyv => existsb (str_eqb (fst kv)) []) doc = []).
      { clear. induction doc; auto. }
      rewrite Z in E. rewrite <- E. reflexivity.
    + assert (Z : filter (fun kv : str * pyv => existsb (str_eqb (fst kv)) (k :: u)) doc <> []).
      { intros Z. assert (I : In k (map fst doc)) by (apply (A4 k); simpl; auto).
        apply in_map_iff in I as ([k' x] & Ek & I). simpl in Ek. subst k'.
        assert (J : In (k, x) (filter (fun kv : str * pyv => existsb (str_eqb (fst kv)) (k :: u)) doc)).
        { apply filter_In. split; auto. simpl. now rewrite str_eqb_refl. }
        rewrite Z in J. destruct J. }
      rewrite <- E. destruct (filter _ doc); [congruence|reflexivity].
  - right. exists ps1, q, ps2, ys, k', x', path, e. rewrite A6. auto 7.
Qed.

Lemma reads_fine n doc ps ys : reads (call n) doc ps ys ->
  forall p k x, In p ps -> json_key p = Some k -> find_name k doc = Some x ->
  exists y, run n (Read p x) = Val y.
Proof.
  induction 1 as [|p ps ys H R IH|p ps ys k x y K F P R IH]; cbn [In]; [tauto| |].
  - intros q k x [<-|I] K F; [rewrite (H k K) in F; discriminate|eauto].
  - intros q k' x' [<-|I] K' F'; eauto.
    rewrite K in K'. injection K' as <-. rewrite F in F'. injection F' as <-. exists y. now rewrite run_read.
Qed.

Lemma fine_reads n doc ps :
  (forall p k x, In p ps -> json_key p = Some k -> find_name k doc = Some x ->
     exists y, run n (Read p x) = Val y) -> exists ys, reads (call n) doc ps ys.
Proof.
  induction ps as [|p ps IH]; intros H.
  - exists []. apply rd_nil.
  - destruct IH as [ys R]; [intros; eapply H; simpl; eauto|].
    destruct (json_key p) as [k|] eqn:K; [destruct (find_name k doc) as [x|] eqn:F|].
    + destruct (H p k x (or_introl eq_refl) K F) as [y Y]. rewrite run_read in Y.
      exists ((q_name p, y) :: ys). eapply rd_put; eauto.
    + exists ys. apply rd_skip; auto. congruence.
    + exists ys. apply rd_skip; auto. congruence.
Qed.

(** the first failing property is unique *)
Lemma reads_first rec doc ps1 ys1 : reads rec doc ps1 ys1 -> forall ps1' ys1' p ps2 p' ps2' k x path e k' x' path' e',
  reads rec doc ps1' ys1' ->
  ps1 ++ p :: ps2 = ps1' ++ p' :: ps2' ->
  json_key p = Some k -> find_name k doc = Some x -> prop_read W rec p x = Exc path e ->
  json_key p' = Some k' -> find_name k' doc = Some x' -> prop_read W rec p' x' = Exc path' e' ->
  k = k' /\ path = path' /\ e = e'.
Proof.
  induction 1 as [|q qs ys H R IH|q qs ys kq xq yq K F P R IH];
    intros ps1' ys1' p ps2 p' ps2' k x path e k' x' path' e' R' E K1 F1 P1 K2 F2 P2.
  - destruct ps1' as [|q' qs']; simpl in E.
    + injection E as -> ->. rewrite K1 in K2. injection K2 as <-. rewrite F1 in F2. injection F2 as <-.
      rewrite P1 in P2. injection P2 as <- <-. auto.
    + injection E as -> ->. inversion R'; subst.
      * rewrite (H1 _ K1) in F1. discriminate.
      * rewrite K1 in H1. injection H1 as <-. rewrite F1 in H2. injection H2 as <-. congruence.
  - destruct ps1' as [|q' qs']; simpl in E.
    + injection E as <- _. rewrite (H _ K2) in F2. discriminate.
    + injection E as <- E. inversion R'; eapply IH; eauto.
  - destruct ps1' as [|q' qs']; simpl in E.
    + injection E as <- _. rewrite K in K2. injection K2 as <-. rewrite F in F2. injection F2 as <-. congruence.
    + injection E as <- E. inversion R'; eapply IH; eauto.
Qed.

(** ** C39 *)

Lemma json_class_dec c : {json_class W c} + {~ json_class W c}.
Proof. unfold json_class. destruct (w_kind W c); auto. Qed.

Lemma is_json_iff c : is_json W c = true <-> json_class W c.
Proof. unfold is_json, is_json_kind, json_class. destruct (w_kind W c); split; auto; try discriminate; tauto. Qed.

Lemma item_exc n t i x path e : item_in W parse by_key (call n) t i x = Exc path e ->
  exists s path', item_task W t x s /\ path = i :: path' /\ run n s = Exc path' e.
Proof.
  unfold item_in. destruct t as [|isa co|c co]; try discriminate.
  destruct (isinstance W x (TCls c co)) eqn:I; [discriminate|].
  destruct (is_json W c) eqn:J.
  - destruct (call n c x) as [y|p1 e1] eqn:C; cbn [box]; [discriminate|].
    intros H; injection H as <- <-. exists (Load c x), p1. split; [apply it_json; auto; now apply is_json_iff|]. auto.
  - destruct (from_json W parse by_key (call n) c x) as [y|p1 e1] eqn:C; cbn [box]; [discriminate|].
    intros H; injection H as <- <-. exists (Doc c x), p1.
    split; [apply it_plain; auto; intros Q; apply is_json_iff in Q; congruence|]. auto.
Qed.

Lemma item_task_in n t i x s : item_task W t x s ->
  item_in W parse by_key (call n) t i x = box i (run n s).
Proof.
  intros [c co y J I|c co y J I]; unfold item_in; rewrite I.
  - apply is_json_iff in J. rewrite J. reflexivity.
  - destruct (is_json W c) eqn:K; [apply is_json_iff in K; tauto|reflexivity].
Qed.

Lemma item_fine_iff n t i x : item_fine W parse by_key n t x <->
  exists y, item_in W parse by_key (call n) t i x = Val y.
Proof.
  split.
  - intros F. destruct (item_in W parse by_key (call n) t i x) as [y|path e] eqn:E; [eauto|].
    destruct (item_exc _ _ _ _ _ _ E) as (s & p' & T & _ & R). destruct (F s T) as [y Y]. fold run in Y. congruence.
  - intros [y E] s T. rewrite (item_task_in n t i x s T) in E. fold run.
    destruct (run n s); [eauto|discriminate].
Qed.

Lemma number_split {A} (l : list A) : forall i l1 ix l2, number i l = l1 ++ ix :: l2 ->
  exists m1 x m2, l = m1 ++ x :: m2 /\ ix = (SIdx (i + length m1), x) /\ map snd l1 = m1 /\
    forall y, In y l1 -> In (snd y) m1.
Proof.
  induction l as [|a t IH]; intros i l1 ix l2 E; simpl in E.
  - destruct l1; discriminate.
  - destruct l1 as [|b l1]; simpl in E.
    + injection E as <- E. exists [], a, t. simpl. rewrite Nat.add_0_r. repeat split; auto; intros y [].
    + injection E as <- E. destruct (IH _ _ _ _ E) as (m1 & x & m2 & -> & -> & M & H).
      exists (a :: m1), x, m2. simpl. rewrite M. rewrite <- plus_n_Sm. repeat split; auto.
      * intros y [<-|I]; simpl; auto.
Qed.

Lemma number_app {A} (l l' : list A) : forall i, number i (l ++ l') = number i l ++ number (i + length l) l'.
Proof.
  induction l as [|a t IH]; intros i; simpl; [now rewrite Nat.add_0_r|].
  rewrite IH, <- plus_n_Sm. reflexivity.
Qed.
Lemma in_number {A} (l : list A) : forall i ix, In ix (number i l) -> In (snd ix) l.
Proof. induction l as [|a t IH]; simpl; [tauto|]. intros i ix [<-|I]; simpl; eauto. Qed.

Section Distinct.
Hypothesis D : forall c, distinct_props W c.

Definition located (n : nat) (t : task) (path : list step) (e : exn) : Prop :=
  exists p1 p2 n' t', path = p1 ++ p2 /\ reach W parse by_key n t p1 n' t' /\
    raised W parse by_key n' t' p2 e.

Definition located_load (n : nat) : Prop := forall c v path e,
  run n (Load c v) = Exc path e -> located n (Load c v) path e.

Lemma located_read n : located_load n -> forall p x path e,
  run n (Read p x) = Exc path e -> located n (Read p x) path e.
Proof.
  intros L p x path e E. unfold run, JsonPathSpec.run in E.
  destruct (match conv_in p with Some f => f x | None => Val x end) as [y|p1 e1] eqn:C.
  - assert (Q : match conv_in p with Some f => f x = Val y | None => y = x end).
    { destruct (conv_in p); [auto|]. now injection C. }
    destruct (q_type p) as [|isa co|c co] eqn:T; try discriminate.
    destruct (is_json W c) eqn:J; [|discriminate]. apply is_json_iff in J.
    destruct (L c y path e E) as (p1 & p2 & n' & t' & -> & R & A).
    exists p1, p2, n', t'. split; auto. split; auto. eapply r_value; eauto.
  - injection E as -> ->. exists [], path, n, (Read p x). split; auto. split; [apply r_here|].
    destruct (conv_in p) as [f|] eqn:CI; [|discriminate]. eapply ra_json_in; eauto.
Qed.

Lemma located_key n c doc path e : located_load n ->
  initkwargs W (call n) c (PDict doc) [] = Exc path e ->
  exists k path' p x, path = SKey k :: path' /\
    first_at W parse by_key n (w_props W c) doc p k x /\ located n (Read p x) path' e.
Proof.
  intros L E. destruct (initkwargs_spec (call n) c doc (D c)) as
    [(ys & kw & _ & A & _)|(ps1 & p & ps2 & ys & k & x & path' & e' & A1 & A2 & A3 & A4 & A5 & A6)];
    [congruence|].
  rewrite A6 in E. injection E as <- <-. exists k, path', p, x. split; auto. split.
  - exists ps1, ps2. split; auto. split; auto. split; auto.
    intros p' k' x' I K F. exact (reads_fine _ _ _ _ A2 p' k' x' I K F).
  - apply located_read; [exact L|rewrite run_read; exact A5].
Qed.

Lemma located_doc n : located_load n -> forall c v path e, ~ json_class W c ->
  run n (Doc c v) = Exc path e -> located n (Doc c v) path e.
Proof.
  intros L c v path e J E.
  assert (Own : path = [] -> located n (Doc c v) path e).
  { intros ->. exists [], [], n, (Doc c v). split; auto. split; [apply r_here|now apply ra_doc]. }
  pose proof E as E0. unfold run, JsonPathSpec.run, from_json in E.
  destruct (decode_spec v) as [(j & S & De)|(e' & De)]; rewrite De in E; cbn [obind] in E;
    [|injection E as <- <-; auto].
  destruct (is_json W c) eqn:K; [apply is_json_iff in K; tauto|].
  destruct (initkwargs W (JsonModel.call W parse by_key n) c j []) as [kw|p1 e1] eqn:I; cbn [obind] in E.
  - apply Own. unfold construct_kw in E.
    destruct (w_kind W c); first [eapply coll_init_path; exact E | eapply record_init_path; exact E].
  - injection E as -> ->. destruct j as [| | | | | |doc| | |]; try (injection I as <- <-; auto; fail).
    + (* None reads as the empty document *)
      change (initkwargs W (JsonModel.call W parse by_key n) c PNone [])
        with (initkwargs W (call n) c (PDict []) []) in I.
      destruct (located_key n c [] path e L I) as (k & path' & p & x & _ & (ps1 & ps2 & _ & _ & F & _) & _).
      discriminate.
    + destruct (located_key n c doc path e L I) as (k & path' & p & x & -> & F & p1 & p2 & n' & t' & -> & R & A).
      exists (SKey k :: p1), p2, n', t'. split; auto. split; auto. eapply r_doc; eauto.
Qed.

Lemma located_item n : located_load n -> forall t x s path e, item_task W t x s ->
  run n s = Exc path e -> located n s path e.
Proof. intros L t x s path e [c co y J I|c co y J I] E; [now apply L|now apply located_doc]. Qed.

Lemma path_sound n : located_load n.
Proof.
  induction n as [|n IH]; intros c v path e E.
  - exists [], [], 0, (Load c v). pose proof E as E0. unfold run in E. simpl in E. injection E as <- <-.
    split; auto. split; [apply r_here|now apply ra_load].
  - assert (Own : path = [] -> located (S n) (Load c v) path e).
    { intros ->. exists [], [], (S n), (Load c v). split; auto. split; [apply r_here|now apply ra_load]. }
    pose proof E as E0. unfold run, JsonPathSpec.run in E. cbn [JsonModel.call] in E. fold call in E.
    unfold call_class in E. destruct (w_kind W c) eqn:K.
    + apply Own.
      assert (A : forall e', Exc (A := pyv) [] e' = Exc path e -> path = []) by (intros e' Q; injection Q as <- <-; auto).
      destruct v as [|[]|z| |[|]|[|]|l|[|]| |]; try (eapply A; exact E); try (eapply record_init_path; exact E).
      destruct (Z.eqb z 0); [eapply record_init_path; exact E|eapply A; exact E].
    + destruct (decode_spec v) as [(j & S & De)|(e' & De)]; rewrite De in E; cbn [obind] in E;
        [|injection E as <- <-; auto].
      destruct (match j with PNone => true | _ => false end) eqn:NJ.
      { destruct j; try discriminate. apply Own. eapply record_init_path; exact E. }
      assert (E' : obind (decode parse j) (fun j' =>
                   let* kw := initkwargs W (call n) c j' [] in record_init W (call n) c [] kw) = Exc path e).
      { destruct j; try discriminate; exact E. }
      clear E. destruct (decode parse j) as [j'|p0 e'] eqn:De2; cbn [obind] in E'.
      2:{ apply Own. destruct (decode_spec j) as [(j2 & _ & De3)|(e2 & De3)]; [congruence|].
          injection E' as <- <-. congruence. }
      pose proof (decode_not_str v j S j' De2) as S2.
      destruct (initkwargs W (call n) c j' []) as [kw|p1 e1] eqn:I; cbn [obind] in E'.
      * apply Own. eapply record_init_path; exact E'.
      * injection E' as -> ->. destruct j' as [| | | | | |doc| | |]; try (injection I as <- <-; auto; fail).
        -- change (initkwargs W (call n) c PNone []) with (initkwargs W (call n) c (PDict []) []) in I.
           destruct (located_key n c [] path e IH I) as (k & path' & p & x & _ & (ps1 & ps2 & _ & _ & F & _) & _).
           discriminate.
        -- destruct (located_key n c doc path e IH I) as (k & path' & p & x & -> & F & p1 & p2 & n' & t' & -> & R & A).
           exists (SKey k :: p1), p2, n', t'. split; auto. split; auto. eapply r_record; eauto.
    + apply Own. eapply coll_init_path; exact E.
    + apply Own. eapply coll_init_path; exact E.
    + destruct (decode_spec v) as [(j & S & De)|(e' & De)]; rewrite De in E; cbn [obind] in E;
        [|injection E as <- <-; auto].
      destruct (match j with PNone => true | _ => false end) eqn:NJ.
      { destruct j; try discriminate. apply Own. eapply coll_init_path; exact E. }
      assert (E' : obind (list_values W parse by_key (call n) c j) (fun vs => coll_init W by_key (call n) c vs []) = Exc path e).
      { destruct j; try discriminate; exact E. }
      clear E. destruct (list_values W parse by_key (call n) c j) as [vs|p1 e1] eqn:LV; cbn [obind] in E'.
      { apply Own. eapply coll_init_path; exact E'. }
      injection E' as -> ->.
      assert (G : forall l, (j = PList l \/ j = PTuple l) ->
        omap (fun ix => item_in W parse by_key (call n) (w_item W c) (fst ix) (snd ix)) (number 0 l) = Exc path e ->
        located (Datatypes.S n) (Load c v) path e).
      { intros l JL O. apply omap_exc in O as (l1 & ix & l2 & O1 & O2 & O3).
        destruct (number_split _ _ _ _ _ O1) as (m1 & x & m2 & -> & -> & M & _). cbn [fst snd] in O2.
        destruct (item_exc _ _ _ _ _ _ O2) as (s & path' & T & -> & R).
        destruct (located_item n IH _ _ _ _ _ T R) as (p1 & p2 & n' & t' & -> & RR & A).
        exists (SIdx (length m1) :: p1), p2, n', t'. split; auto. split; auto.
        eapply r_list; eauto. intros y Iy. rewrite <- M in Iy. apply in_map_iff in Iy as (iy & <- & Iy).
        apply (item_fine_iff n _ (fst iy)). auto. }
      unfold list_values in LV. destruct j; try (injection LV as <- <-; auto; fail).
      * destruct (omap _ (number 0 l)) eqn:O; cbn [obind] in LV; [discriminate|].
        injection LV as -> ->. eapply G; eauto.
      * destruct (omap _ (number 0 l)) eqn:O; cbn [obind] in LV; [discriminate|].
        injection LV as -> ->. eapply G; eauto.
    + destruct (decode_spec v) as [(j & S & De)|(e' & De)]; rewrite De in E; cbn [obind] in E;
        [|injection E as <- <-; auto].
      destruct (match j with PNone => true | _ => false end) eqn:NJ.
      { destruct j; try discriminate. apply Own. eapply coll_init_path; exact E. }
      assert (E' : obind (dict_values W parse by_key (call n) c j) (fun vs => coll_init W by_key (call n) c vs []) = Exc path e).
      { destruct j; try discriminate; exact E. }
      clear E. destruct (dict_values W parse by_key (call n) c j) as [vs|p1 e1] eqn:LV; cbn [obind] in E'.
      { apply Own. eapply coll_init_path; exact E'. }
      injection E' as -> ->.
      unfold dict_values in LV. destruct j; try (injection LV as <- <-; auto; fail).
      destruct (omap _ l) eqn:O; cbn [obind] in LV; [discriminate|].
      injection LV as -> ->. apply omap_exc in O as (l1 & [k x] & l2 & -> & O2 & O3). cbn [fst snd] in O2.
      destruct (item_in W parse by_key (call n) (w_item W c) (SKey k) x) as [|p1 e1] eqn:O4; cbn [obind] in O2; [discriminate|].
      injection O2 as -> ->.
      destruct (item_exc _ _ _ _ _ _ O4) as (s & path' & T & -> & R).
      destruct (located_item n IH _ _ _ _ _ T R) as (p1 & p2 & n' & t' & -> & RR & A).
      exists (SKey k :: p1), p2, n', t'. split; auto. split; auto.
      eapply r_dict; eauto. intros k' y Iy.
      apply (item_fine_iff n _ (SKey k')). destruct (O3 _ Iy) as [z Z]. cbn [fst snd] in Z.
      destruct (item_in W parse by_key (call n) (w_item W c) (SKey k') y); [eauto|discriminate].
Qed.

Lemma key_fails n c doc p k x path e :
  first_at W parse by_key n (w_props W c) doc p k x -> run n (Read p x) = Exc path e ->
  initkwargs W (call n) c (PDict doc) [] = Exc (SKey k :: path) e.
Proof.
  intros (ps1 & ps2 & E & K & F & Fine) R.
  destruct (initkwargs_spec (call n) c doc (D c)) as
    [(ys & kw & A & _ & _)|(qs1 & q & qs2 & ys & k' & x' & path' & e' & A1 & A2 & A3 & A4 & A5 & A6)].
  - exfalso. destruct (reads_fine n _ _ _ A p k x) as [y Y]; auto.
    { rewrite E, in_app_iff. simpl; auto. }
    congruence.
  - destruct (fine_reads n doc ps1 Fine) as [ys1 R1]. rewrite run_read in R.
    destruct (reads_first (call n) doc ps1 ys1 R1 qs1 ys p ps2 q qs2 k x path e k' x' path' e' A2) as (-> & -> & ->);
      auto. congruence.
Qed.

Lemma path_complete n t p1 n' t' : reach W parse by_key n t p1 n' t' -> forall p2 e,
  raised W parse by_key n' t' p2 e -> run n t = Exc (p1 ++ p2) e.
Proof.
  induction 1 as [n t|n c v doc p k x path n' t' K S F R IH|n c v doc p k x path n' t' K S F R IH
    |n c v l l1 x l2 s path n' t' K S EL Fi T R IH|n c v l1 k x l2 s path n' t' K S Fi T R IH
    |n p x y c co path n' t' C T J R IH]; intros p2 e A.
  - cbn [app]. destruct A as [n p x f path e CI F|n c v e E|n c v e E]; auto.
    unfold run, JsonPathSpec.run. rewrite CI, F. reflexivity.
  - specialize (IH p2 e A). cbn [app]. unfold run, JsonPathSpec.run. cbn [JsonModel.call]. fold call.
    unfold call_class. rewrite K. destruct (stands2_decode v _ S) as (v' & -> & D2 & N). cbn [obind].
    assert (Q : obind (decode parse v') (fun j' => let* kw := initkwargs W (call n) c j' [] in
                record_init W (call n) c [] kw) = Exc (SKey k :: path ++ p2) e).
    { rewrite D2. cbn [obind]. rewrite (key_fails n c doc p k x _ _ F IH). reflexivity. }
    destruct v'; try exact Q. discriminate (N eq_refl).
  - specialize (IH p2 e A). cbn [app]. unfold run, JsonPathSpec.run, from_json.
    rewrite (stands_decode v _ S). cbn [obind].
    destruct (is_json W c) eqn:J; [apply is_json_iff in J; tauto|].
    fold call. rewrite (key_fails n c doc p k x _ _ F IH). reflexivity.
  - specialize (IH p2 e A). cbn [app]. unfold run, JsonPathSpec.run. cbn [JsonModel.call]. fold call.
    unfold call_class. rewrite K, (stands_decode v _ S). cbn [obind].
    assert (O : omap (fun ix => item_in W parse by_key (call n) (w_item W c) (fst ix) (snd ix))
                     (number 0 (l1 ++ x :: l2)) = Exc (SIdx (length l1) :: path ++ p2) e).
    { rewrite number_app. cbn [number]. apply omap_first.
      - intros [i y] I. cbn [fst snd]. apply item_fine_iff. apply Fi. exact (in_number _ _ _ I).
      - cbn [fst snd]. rewrite (item_task_in n _ _ _ _ T), IH. reflexivity. }
    destruct EL as [-> | ->]; unfold list_values; rewrite O; reflexivity.
  - specialize (IH p2 e A). cbn [app]. unfold run, JsonPathSpec.run. cbn [JsonModel.call]. fold call.
    unfold call_class. rewrite K, (stands_decode v _ S). cbn [obind]. unfold dict_values.
    rewrite (omap_first _ l1 (k, x) l2 (SKey k :: path ++ p2) e).
    + reflexivity.
    + intros [k' y] I. cbn [fst snd]. destruct (proj1 (item_fine_iff n _ (SKey k') y) (Fi k' y I)) as [z ->].
      cbn [obind]. eauto.
    + cbn [fst snd]. rewrite (item_task_in n _ _ _ _ T), IH. reflexivity.
  - specialize (IH p2 e A). unfold run, JsonPathSpec.run.
    assert (Q : match conv_in p with Some f => f x | None => Val x end = Val y).
    { destruct (conv_in p); [auto|now subst]. }
    rewrite Q, T. apply is_json_iff in J. rewrite J. exact IH.
Qed.
End Distinct.

(** positions lead to the values the tasks are about *)
Lemma reach_leads n t p1 n' t' : (forall c p, In p (w_props W c) -> conv_in p = None) ->
  (match t with Read p _ => conv_in p = None | _ => True end) ->
  reach W parse by_key n t p1 n' t' -> leads parse (task_value t) p1 (task_value t').
Proof.
  intros NC NR R. revert NR.
  assert (ST : forall v j path w, stands parse v j -> leads parse j path w -> leads parse v path w).
  { intros v j path w [u H|s u H] L; auto. eapply le_text; eauto. }
  assert (ST2 : forall v j path w, stands2 parse v j -> leads parse j path w -> leads parse v path w).
  { intros v j path w [u u' S H|u s u' S H] L; eapply ST; eauto. eapply le_text; eauto. }
  induction R as [n t|n c v doc p k x path n' t' K S F R IH|n c v doc p k x path n' t' K S F R IH
    |n c v l l1 x l2 s path n' t' K S EL Fi T R IH|n c v l1 k x l2 s path n' t' K S Fi T R IH
    |n p x y c co path n' t' C T J R IH]; intros NR.
  - apply le_here.
  - destruct F as (ps1 & ps2 & E & Kp & Fx & _). eapply ST2; eauto. eapply le_key.
    + apply find_name_in. exact Fx.
    + apply IH. apply (NC c). rewrite E, in_app_iff. simpl; auto.
  - destruct F as (ps1 & ps2 & E & Kp & Fx & _). eapply ST; eauto. eapply le_key.
    + apply find_name_in. exact Fx.
    + apply IH. apply (NC c). rewrite E, in_app_iff. simpl; auto.
  - assert (TV : task_value s = x /\ match s with Read p _ => conv_in p = None | _ => True end)
      by (destruct T; auto). destruct TV as [TV NS]. specialize (IH NS). rewrite TV in IH.
    assert (NE : nth_error (l1 ++ x :: l2) (length l1) = Some x).
    { rewrite nth_error_app2, Nat.sub_diag; auto. }
    cbn [task_value]. eapply ST; eauto. destruct EL as [-> | ->]; [eapply le_list|eapply le_tuple]; eauto.
  - assert (TV : task_value s = x /\ match s with Read p _ => conv_in p = None | _ => True end)
      by (destruct T; auto). destruct TV as [TV NS]. specialize (IH NS). rewrite TV in IH.
    cbn [task_value]. eapply ST; eauto. eapply le_key; eauto. rewrite in_app_iff; simpl; auto.
  - rewrite NR in C. subst y. exact (IH I).
Qed.
End Path.
