(** Equal values have equal identities and hashes. *)
From Coq Require Import List Arith NArith ZArith Bool Lia.
From Verif Require Import Prelude SelPathModel FSModel FSProofs PySeq MFSModel MFSProofs ValModel EqModel EqProofs.
Import ListNotations.

Section Hash.
Context {A C H : Type}.
Variable W : classes A C.
Variable aeqb : A -> A -> bool.
Variable same_item : C -> C -> bool.
Variable sort_items : list (elem * val A C) -> list (elem * val A C).
Variable alien_atom : C -> A -> res (list (elem * val A C)).
Variable a_hash : A -> bool.
Variable ahash : A -> res H.
Variables hnothing hnone : H.
Variable htext : str -> H.
Variable htuple : list H -> H.
Notation val := (val A C).
Notation prop := (prop A C).
Notation rid := (rid W sort_items alien_atom a_hash ahash hnothing hnone htext htuple).
Notation hash := (hash W sort_items alien_atom a_hash ahash hnothing hnone htext htuple).
Notation same := (same W aeqb same_item).

(** The names which take part in the identity of some class *)
Definition key_name (n : str) : Prop :=
  exists T p, p_name p = n /\ (In p (pkey W T) \/ (kind W T = KRec /\ In p (props W T) /\ p_extraneous p = false)).

Inductive samep : val -> val -> Prop :=
| sp_nothing : samep VNothing VNothing
| sp_none : samep VNone VNone
| sp_text s : samep (VText s) (VText s)
| sp_atom a b : aeqb a b = true -> samep (VAtom a) (VAtom b)
| sp_seq t l m : Forall2 samep l m -> samep (VSeq t l) (VSeq t m)
| sp_rec c sl sm : (forall n, key_name n -> opt2 samep (dict_get str_eqb sl n) (dict_get str_eqb sm n)) ->
    samep (VRec c sl) (VRec c sm)
| sp_lc c d sl sm l m : kind W c = KList -> kind W d = KList -> pkey W c = [] -> pkey W d = [] -> item W c = item W d ->
    (forall n, key_name n -> opt2 samep (dict_get str_eqb sl n) (dict_get str_eqb sm n)) ->
    Forall2 samep l m -> samep (VLC c sl l) (VLC d sm m).

Hypothesis ahash_ok : forall a b h h', aeqb a b = true -> ahash a = Ok h -> ahash b = Ok h' -> h = h'.
Hypothesis alien_ok : forall c a b l m, aeqb a b = true -> alien_atom c a = Ok l -> alien_atom c b = Ok m ->
  Forall2 (fun x y => samep (snd x) (snd y)) l m.

Lemma number_rel l m : Forall2 samep l m -> Forall2 (fun x y : elem * val => samep (snd x) (snd y)) (number l) (number m).
Proof.
  unfold number. intros F. pose proof (Forall2_len _ _ _ F) as L. rewrite <- L. clear L.
  assert (G : forall s n, n = length l -> Forall2 (fun x y : elem * val => samep (snd x) (snd y))
     (combine (map (fun n => EInt (Z.of_nat n)) (seq s n)) l) (combine (map (fun n => EInt (Z.of_nat n)) (seq s n)) m)).
  { induction F as [|x y l m S F IH]; intros s n ->; cbn; constructor; auto. }
  now apply G.
Qed.

Lemma slot_rel x y n : samep x y -> key_name n -> opt2 samep (slot x n) (slot y n).
Proof. intros [] K; cbn [slot]; try constructor; auto. Qed.

Lemma gen_rel T x y l m : samep x y ->
  match tuples x with Some l => Ok l | None => alien_tuples W sort_items alien_atom T x end = Ok l ->
  match tuples y with Some l => Ok l | None => alien_tuples W sort_items alien_atom T y end = Ok m ->
  Forall2 (fun x y => samep (snd x) (snd y)) l m.
Proof.
  intros S. destruct S; cbn [tuples]; unfold alien_tuples.
  - destruct (kind W T); try discriminate. intros [= <-] [= <-]; constructor.
  - destruct (kind W T); intros [= <-] [= <-]; constructor.
  - destruct (kind W T); discriminate.
  - destruct (kind W T); apply alien_ok; auto.
  - destruct (kind W T); intros [= <-] [= <-]; now apply number_rel.
  - destruct (kind W T); try discriminate. intros [= <-] [= <-]; constructor.
  - intros [= <-] [= <-]; now apply number_rel.
Qed.

Lemma mapM_rel {X Y} (R : X -> X -> Prop) (S : Y -> Y -> Prop) (f g : X -> res Y) l m ys zs :
  Forall2 R l m -> (forall x y u v, In x l -> In y m -> R x y -> f x = Ok u -> g y = Ok v -> S u v) ->
  mapM f l = Ok ys -> mapM g m = Ok zs -> Forall2 S ys zs.
Proof.
  intros F. revert ys zs. induction F as [|x y l m r F IH]; intros ys zs D; cbn [mapM].
  - intros [= <-] [= <-]; constructor.
  - destruct (f x) as [u|] eqn:Ef; cbn [bind]; [|discriminate].
    destruct (mapM f l) as [us|] eqn:Efs; cbn [bind]; [|discriminate].
    destruct (g y) as [v|] eqn:Eg; cbn [bind]; [|discriminate].
    destruct (mapM g m) as [vs|] eqn:Egs; cbn [bind]; [|discriminate].
    intros [= <-] [= <-]. constructor; [eapply D; eauto; cbn; auto|].
    apply IH; auto. intros; eapply D; eauto; cbn; auto.
Qed.

Lemma Forall2_diag {X} (R : X -> X -> Prop) (l : list X) : (forall x, In x l -> R x x) -> Forall2 R l l.
Proof. induction l; constructor; auto; [apply H0; cbn; auto|apply IHl; intros; apply H0; cbn; auto]. Qed.

Lemma insert_prop_in (p q : prop) l : In q (insert_prop p l) <-> q = p \/ In q l.
Proof.
  induction l as [|r t IH]; cbn; [intuition|]. destruct (str_ltb _ _); cbn; [intuition|]. rewrite IH. intuition.
Qed.
Lemma sorted_in T p : In p (sorted_properties W T) <-> In p (props W T) /\ p_extraneous p = false.
Proof.
  unfold sorted_properties.
  assert (G : forall l acc, In p (fold_left (fun acc p => insert_prop p acc) l acc) <-> In p l \/ In p acc).
  { induction l as [|q l IH]; intros acc; cbn; [intuition|]. rewrite IH, insert_prop_in. intuition. }
  rewrite G, filter_In, negb_true_iff. cbn. intuition.
Qed.

Lemma not_none_rel x y : samep x y -> not_none x = not_none y.
Proof. now intros []. Qed.
Lemma count_rel l m : Forall2 samep l m -> length (filter not_none l) = length (filter not_none m).
Proof. induction 1 as [|x y l m S F IH]; cbn; auto. rewrite (not_none_rel _ _ S). destruct (not_none y); cbn; auto. Qed.

Definition acc_rel (a b : res (list val * nat)) : Prop :=
  match a, b with Ok (l, k), Ok (m, j) => Forall2 samep l m /\ k = j | _, _ => True end.

Lemma fold_err {X Y} (f : res Y -> X -> res Y) l e : (forall e x, f (Err e) x = Err e) -> fold_left f l (Err e) = Err e.
Proof. intros F; induction l; cbn; auto. rewrite F; auto. Qed.

Definition field (n : nat) (x : val) (p : prop) : res val :=
  match p_valuetype p with
  | Some vts =>
      if is_same (normal None match slot x (p_name p) with Some u => u | None => VNone end p x) (normal None VNone p x)
      then Ok (normal None match slot x (p_name p) with Some u => u | None => VNone end p x)
      else
        do best <- fold_left (fun acc vt =>
            do (vp, cnt) <- acc;
            match vt with
            | None => Ok (vp, cnt)
            | Some d =>
                do i <- rid n None (RClass d) None (normal None match slot x (p_name p) with Some u => u | None => VNone end p x);
                match i with
                | VSeq _ l =>
                    let k := length (filter not_none l) in
                    if Nat.eqb (length vp) 0 || Nat.ltb cnt k then Ok (l, k) else Ok (vp, cnt)
                | _ => Err TypeErr
                end
            end) vts (Ok ([], 0));
        let i := match fst best with [] => normal None match slot x (p_name p) with Some u => u | None => VNone end p x | l => VSeq true l end in
        match hash n i with
        | Ok _ => Ok i
        | Err e => Err (if is_type_error e then KeyHashError else e)
        end
  | None => Ok (normal None match slot x (p_name p) with Some u => u | None => VNone end p x)
  end.
Lemma rid_class n T x : rid (S n) None (RClass T) None x =
  match pkey W T, kind W T with
  | [], KList | [], KDict =>
      do gen <- match tuples x with Some l => Ok l | None => alien_tuples W sort_items alien_atom T x end;
      do ids <- mapM (fun kv => rid n None (item_rtype W T) None (snd kv)) gen; Ok (VSeq true ids)
  | [], KRec => do ids <- mapM (field n x) (sorted_properties W T); Ok (VSeq true ids)
  | ps, _ => do ids <- mapM (field n x) ps; Ok (VSeq true ids)
  end.
Proof. cbn [EqModel.rid sel_true andb]. destruct (pkey W T), (kind W T); reflexivity. Qed.

Lemma hash_S n v : hash (S n) v =
  match v with
  | VNothing => Ok hnothing
  | VNone => Ok hnone
  | VText s => Ok (htext s)
  | VAtom a => if a_hash a then ahash a else Err TypeErr
  | VSeq true l => do hs <- mapM (hash n) l; Ok (htuple hs)
  | VRec c _ => do i <- rid n None (RClass c) None v; hash n i
  | VSeq false _ | VMap _ | VLC _ _ _ | VDC _ _ _ => Err TypeErr
  end.
Proof. reflexivity. Qed.

Lemma hash_rid : forall n,
  (forall m T x y i j, samep x y -> rid n None T None x = Ok i -> rid m None T None y = Ok j -> samep i j) /\
  (forall m x y h h', samep x y -> hash n x = Ok h -> hash m y = Ok h' -> h = h').
Proof.
  induction n as [|n [IHr IHh]]; [split; intros; discriminate|].
  split.
  - intros [|m] T x y i j S; [cbn; discriminate|].
    assert (Body : forall T,
      (rid (Datatypes.S n) None (RClass T) None x = Ok i) -> rid (Datatypes.S m) None (RClass T) None y = Ok j -> samep i j).
    { clear T; intros T. rewrite !rid_class.
      assert (Coll : forall (a b : res val), a = Ok i -> b = Ok j ->
         a = (do gen <- match tuples x with Some l => Ok l | None => alien_tuples W sort_items alien_atom T x end;
              do ids <- mapM (fun kv => rid n None (item_rtype W T) None (snd kv)) gen; Ok (VSeq true ids)) ->
         b = (do gen <- match tuples y with Some l => Ok l | None => alien_tuples W sort_items alien_atom T y end;
              do ids <- mapM (fun kv => rid m None (item_rtype W T) None (snd kv)) gen; Ok (VSeq true ids)) ->
         samep i j).
      { intros a b Ea Eb Da Db. rewrite Da in Ea. rewrite Db in Eb. clear Da Db a b.
        destruct (match tuples x with Some l => Ok l | None => alien_tuples W sort_items alien_atom T x end) as [gx|] eqn:Gx;
          cbn [bind] in Ea; [|discriminate].
        destruct (match tuples y with Some l => Ok l | None => alien_tuples W sort_items alien_atom T y end) as [gy|] eqn:Gy;
          cbn [bind] in Eb; [|discriminate].
        destruct (mapM _ gx) as [ix|] eqn:Mx; cbn [bind] in Ea; [|discriminate].
        destruct (mapM _ gy) as [iy|] eqn:My; cbn [bind] in Eb; [|discriminate].
        injection Ea as <-; injection Eb as <-. constructor.
        eapply mapM_rel; [eapply gen_rel; eauto| |exact Mx|exact My].
        cbn. intros u v iu iv _ _ Suv Eu Ev. eapply IHr; eauto. }
      assert (Key : forall ps, (forall p, In p ps -> key_name (p_name p)) ->
        forall ix iy, mapM (field n x) ps = Ok ix -> mapM (field m y) ps = Ok iy -> samep (VSeq true ix) (VSeq true iy)).
      { intros ps Kn ix iy Mx My. constructor.
        eapply (mapM_rel (fun p q => p = q /\ key_name (p_name p))); [|clear Mx My|exact Mx|exact My].
        { apply Forall2_diag. intros p I. split; auto. }
        intros p q u v _ _ [<- Kp]. unfold field, normal.
        set (ux := match slot x (p_name p) with Some u => u | None => VNone end).
        set (uy := match slot y (p_name p) with Some u => u | None => VNone end).
        assert (Su : samep ux uy).
        { unfold ux, uy. destruct (slot_rel _ _ _ S Kp); auto. constructor. }
        clearbody ux uy.
        destruct (p_valuetype p) as [vts|]; [|intros [= <-] [= <-]; auto].
        assert (Ei : is_same ux VNone = is_same uy VNone) by (destruct Su; reflexivity).
        rewrite <- Ei. destruct (is_same ux VNone); [intros [= <-] [= <-]; auto|].
        match goal with |- (do best <- fold_left ?f vts ?a; _) = _ -> (do best' <- fold_left ?g vts ?b; _) = _ -> _ =>
          assert (Fr : forall l a0 b0, acc_rel a0 b0 -> acc_rel (fold_left f l a0) (fold_left g l b0)) end.
        { induction l as [|vt l IHl]; intros a0 b0 R; cbn [fold_left]; auto.
          apply IHl. clear IHl. destruct a0 as [[vp cnt]|e]; cbn [bind]; [|now cbn].
          destruct b0 as [[vq cnt']|e]; cbn [bind].
          2: { destruct vt as [d|]; [|exact I]. destruct (rid n None (RClass d) None ux) as [k|]; cbn [bind]; [|exact I].
               destruct k; try exact I. cbv zeta. destruct (Nat.eqb (length vp) 0 || _); exact I. }
          cbn in R. destruct R as [R <-]. destruct vt as [d|]; [|cbn; auto].
          destruct (rid n None (RClass d) None ux) as [kx|] eqn:Ex; cbn [bind]; [|exact I].
          destruct (rid m None (RClass d) None uy) as [ky|] eqn:Ey; cbn [bind].
          2: { destruct kx; try exact I. cbv zeta. destruct (Nat.eqb (length vp) 0 || _); exact I. }
          assert (Sk : samep kx ky) by (eapply IHr; eauto).
          destruct Sk; try exact I. cbv zeta. rewrite (count_rel _ _ H0), (Forall2_len _ _ _ R).
          destruct (Nat.eqb _ 0 || _); cbn; auto. }
        specialize (Fr vts (Ok ([], 0)) (Ok ([], 0)) (conj (Forall2_nil _) eq_refl)).
        destruct (fold_left _ vts _) as [[vp cnt]|e]; cbn [bind]; [|discriminate].
        destruct (fold_left _ vts _) as [[vq cnt']|e]; cbn [bind]; [|discriminate].
        cbn in Fr. destruct Fr as [Fr _]. cbn [fst].
        assert (Sv : samep (match vp with [] => ux | l => VSeq true l end) (match vq with [] => uy | l => VSeq true l end)).
        { destruct Fr; auto. constructor. constructor; auto. }
        cbv zeta. intros Eu Ev. destruct vp, vq; try (inversion Fr; fail);
        (destruct (hash n _) in Eu; [|discriminate]; destruct (hash m _) in Ev; [|discriminate]; injection Eu as <-; injection Ev as <-; exact Sv). }
      assert (Wrap : forall ps, (forall p, In p ps -> key_name (p_name p)) ->
        (do ids <- mapM (field n x) ps; Ok (VSeq true ids)) = Ok i ->
        (do ids <- mapM (field m y) ps; Ok (VSeq true ids)) = Ok j -> samep i j).
      { intros ps Kn Ex Ey. destruct (mapM (field n x) ps) eqn:Mx; cbn [bind] in Ex; [|discriminate].
        destruct (mapM (field m y) ps) eqn:My; cbn [bind] in Ey; [|discriminate]. injection Ex as <-; injection Ey as <-.
        eapply Key; eauto. }
      clear Key.
      destruct (pkey W T) as [|p0 pks] eqn:Ep.
      - destruct (kind W T) eqn:Ek.
        + apply Wrap. intros p I. apply sorted_in in I as [I1 I2]. exists T, p. auto.
        + intros Ea Eb. eapply Coll; [exact Ea|exact Eb|reflexivity|reflexivity].
        + intros Ea Eb. eapply Coll; [exact Ea|exact Eb|reflexivity|reflexivity].
      - destruct (kind W T) eqn:Ek;
        (apply Wrap;
          intros p I; exists T, p; split; auto; left; rewrite Ep; auto). }
    destruct T as [|T|].
    + (* RAuto *)
      destruct (class_of x) as [c|] eqn:Cx.
      * assert (exists d, class_of y = Some d) as [d Cy] by (destruct S; inversion Cx; cbn; eauto).
        intros Ex Ey.
        assert (Ex' : rid (Datatypes.S n) None (RClass c) None x = Ok i) by (cbn [EqModel.rid] in *; rewrite Cx in Ex; exact Ex).
        assert (Ey' : rid (Datatypes.S m) None (RClass d) None y = Ok j) by (cbn [EqModel.rid] in *; rewrite Cy in Ey; exact Ey).
        clear Ex Ey. inversion S; subst x y; try discriminate; cbn in Cx, Cy; injection Cx as ->; injection Cy as ->.
        -- eapply Body; eauto.
        -- eapply (Body c); [exact Ex'|]. rewrite rid_class in Ey' |- *.
           match goal with E : item W c = item W d |- _ => unfold item_rtype in *; rewrite E end.
           repeat match goal with E : kind W _ = _ |- _ => rewrite E in * end.
           repeat match goal with E : pkey W _ = _ |- _ => rewrite E in * end. exact Ey'.
      * assert (class_of y = None) as Cy by (destruct S; inversion Cx; auto).
        cbn [EqModel.rid]. rewrite Cx, Cy. destruct (has_hash a_hash x); [|discriminate]. destruct (has_hash a_hash y); [|discriminate].
        intros [= <-] [= <-]; auto.
    + now apply Body.
    + cbn [EqModel.rid]. destruct (has_hash a_hash x); [|discriminate]. destruct (has_hash a_hash y); [|discriminate].
      intros [= <-] [= <-]; auto.
  - intros [|m] x y h h' S; [cbn; discriminate|]. rewrite !hash_S. inversion S; subst x y.
    + congruence.
    + congruence.
    + congruence.
    + destruct (a_hash a); [|discriminate]. destruct (a_hash b); [|discriminate]. now apply ahash_ok.
    + destruct t; [|discriminate].
      destruct (mapM (hash n) l) as [hx|] eqn:Mx; cbn [bind]; [|discriminate].
      destruct (mapM (hash m) m0) as [hy|] eqn:My; cbn [bind]; [|discriminate].
      intros [= <-] [= <-]. f_equal. assert (F : Forall2 eq hx hy).
      { eapply mapM_rel; [exact H0| |exact Mx|exact My]. intros; eapply IHh; eauto. }
      clear - F. induction F; congruence.
    + destruct (rid n None (RClass c) None (VRec c sl)) as [ix|] eqn:Ex; cbn [bind]; [|discriminate].
      destruct (rid m None (RClass c) None (VRec c sm)) as [iy|] eqn:Ey; cbn [bind]; [|discriminate].
      apply IHh. eapply IHr; eauto.
    + discriminate.
Qed.

(** No dicts or dict collections; a name which takes part in some identity is a property that
    is not extraneous wherever it occurs, and not an extra property of a collection; list
    collections have no primary key. *)
Inductive plain : val -> Prop :=
| plain_nothing : plain VNothing
| plain_none : plain VNone
| plain_text s : plain (VText s)
| plain_atom a : plain (VAtom a)
| plain_seq t l : Forall plain l -> plain (VSeq t l)
| plain_rec c sl : Forall (fun kv => plain (snd kv)) sl ->
    (forall n, In n (map fst sl) -> key_name n -> exists q, In q (props W c) /\ p_name q = n /\ p_extraneous q = false) ->
    plain (VRec c sl)
| plain_lc c sl l : kind W c = KList -> pkey W c = [] -> (forall n, In n (map fst sl) -> ~ key_name n) ->
    Forall plain l -> plain (VLC c sl l).

Lemma sget_none {V} (l : list (str * V)) k : ~ In k (map fst l) -> dict_get str_eqb l k = None.
Proof.
  induction l as [|[k' v] t IH]; cbn [dict_get map fst]; auto. intros N.
  destruct (str_eqb k' k) eqn:E; [|apply IH; intros I; apply N; right; auto].
  apply str_eqb_eq in E as ->. exfalso; apply N; left; auto.
Qed.
Lemma sget_some_in {V} (l : list (str * V)) k v : dict_get str_eqb l k = Some v -> In k (map fst l).
Proof. intros E. apply sget_in in E. now apply (in_map fst) in E. Qed.

Lemma plain_rec_inv c sl : plain (VRec c sl) -> Forall (fun kv => plain (snd kv)) sl /\
  (forall n, In n (map fst sl) -> key_name n -> exists q, In q (props W c) /\ p_name q = n /\ p_extraneous q = false).
Proof. intros P; inversion P; auto. Qed.
Lemma plain_lc_inv c sl l : plain (VLC c sl l) -> kind W c = KList /\ pkey W c = [] /\
  (forall n, In n (map fst sl) -> ~ key_name n) /\ Forall plain l.
Proof. intros P; inversion P; auto. Qed.
Lemma disc_rec_inv st it b c (sl : list (str * val)) : disc st it b (VRec c sl) ->
  Forall (fun kv => disc st it (st c (fst kv)) (snd kv)) sl.
Proof. intros D; inversion D; auto. Qed.
Lemma disc_lc_inv st it b c sl (l : list val) : disc st it b (VLC c sl l) -> Forall (disc st it (it c)) l.
Proof. intros D; inversion D; auto. Qed.

Lemma same_samep st it : (forall c d, same_item c d = true -> item W c = item W d) ->
  (forall c d, same_item c d = true -> it c = it d) ->
  forall x y, same x y -> forall b, disc st it b x -> disc st it b y -> plain x -> plain y -> samep x y.
Proof.
  intros SI IT. apply (same_ind' W aeqb same_item (fun x y =>
    forall b, disc st it b x -> disc st it b y -> plain x -> plain y -> samep x y));
    try (intros; constructor; auto; fail).
  - intros t l m F b D1 D2 P1 P2. constructor. inversion P1; inversion P2; subst.
    assert (Dl : Forall (disc st it false) l) by (inversion D1; auto).
    assert (Dm : Forall (disc st it false) m) by (inversion D2; auto).
    clear - F Dl Dm H1 H4. induction F as [|x y l m [_ S] F IH]; constructor; inversion Dl; inversion Dm; inversion H1; inversion H4; subst; eauto.
  - intros l m F b D1 D2 P1. inversion P1.
  - intros c sl sm F b D1 D2 P1 P2. constructor. intros n K.
    apply disc_rec_inv in D1, D2. apply plain_rec_inv in P1 as [P1 K1], P2 as [P2 K2].
    destruct (in_dec str_eq_dec n (map fst sl)) as [I|N].
    + destruct (K1 _ I K) as (q & Iq & En & Eq). subst n. specialize (F q Iq Eq).
      destruct (dict_get str_eqb sl (p_name q)) as [u|] eqn:G1, (dict_get str_eqb sm (p_name q)) as [v|] eqn:G2;
        inversion F as [|u' v' [_ S]]; subst; constructor. apply sget_in in G1, G2.
      apply (S (st c (p_name q))).
      * apply (F_in (fun kv => disc st it (st c (fst kv)) (snd kv)) sl (p_name q, u)); auto.
      * apply (F_in (fun kv => disc st it (st c (fst kv)) (snd kv)) sm (p_name q, v)); auto.
      * apply (F_in (fun kv => plain (snd kv)) sl (p_name q, u)); auto.
      * apply (F_in (fun kv => plain (snd kv)) sm (p_name q, v)); auto.
    + rewrite (sget_none _ _ N). destruct (dict_get str_eqb sm n) as [v|] eqn:G2; [|constructor]. exfalso.
      destruct (K2 _ (sget_some_in _ _ _ G2) K) as (q & Iq & En & Eq). subst n. specialize (F q Iq Eq).
      rewrite (sget_none _ _ N), G2 in F. inversion F.
  - intros c d sl sm l m E F b D1 D2 P1 P2. apply plain_lc_inv in P1 as (Kc & Pc & N1 & P1), P2 as (Kd & Pd & N2 & P2).
    constructor; auto.
    + intros n K. rewrite !sget_none; [constructor|intros I; eapply N2; eauto|intros I; eapply N1; eauto].
    + apply disc_lc_inv in D1, D2. apply IT in E. rewrite <- E in D2.
      assert (G : forall l m, Forall2 (fun x y => same x y /\ (forall b, disc st it b x -> disc st it b y -> plain x -> plain y -> samep x y)) l m ->
                Forall plain l -> Forall plain m -> Forall (disc st it (it c)) l -> Forall (disc st it (it c)) m -> Forall2 samep l m).
      { clear. induction 1 as [|x y l m [_ S] F IH]; intros P1 P2 D1 D2; constructor;
          inversion D1; inversion D2; inversion P1; inversion P2; subst; eauto. }
      apply G; auto.
  - intros c d sl sm l m E F b D1 D2 P1. inversion P1.
  - intros c sl l m m' G F b D1 D2. inversion D1; inversion D2; subst; discriminate.
  - intros c sl l m m' G F b D1 D2. inversion D1; inversion D2; subst; discriminate.
  - intros c sl l m m' G F b D1 D2. inversion D1; inversion D2; subst; discriminate.
  - intros c sl l m m' G F b D1 D2. inversion D1; inversion D2; subst; discriminate.
Qed.

End Hash.
