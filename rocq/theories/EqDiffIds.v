(** The identities by which records are compared: equal records have equal ones. *)
From Coq Require Import List Arith NArith ZArith Bool Lia.
From Verif Require Import Prelude SelPathModel FSModel FSProofs PySeq MFSModel MFSProofs ValModel EqModel EqProofs HashProofs
  SeqDiffModel FuzzyModel DiffModel DiffExact.
Import ListNotations.

Section Ids.
Context {A C H : Type}.
Variable W : classes A C.
Variable aeqb : A -> A -> bool.
Variable same_item : C -> C -> bool.
Variable sort_items : list (elem * val A C) -> list (elem * val A C).
Variable alien_atom : C -> A -> res (list (elem * val A C)).
Variable a_hash : A -> bool.
Variable ahash : A -> res H.
Variables hnothing hnone : H.
Variable htext : str -> H.
Variable htuple : list H -> H.
Notation val := (val A C).
Notation prop := (prop A C).
Notation rid := (rid W sort_items alien_atom a_hash ahash hnothing hnone htext htuple).
Notation hash := (hash W sort_items alien_atom a_hash ahash hnothing hnone htext htuple).
Notation samep := (samep W aeqb).
Notation key_name := (key_name W).
Notation acc_rel := (acc_rel W aeqb).
Hypothesis alien_ok : forall c a b l m, aeqb a b = true -> alien_atom c a = Ok l -> alien_atom c b = Ok m ->
  Forall2 (fun x y => samep (snd x) (snd y)) l m.
Variable f : normalizer (A := A) (C := C).
Hypothesis f_ok : forall T p x y u v, In p (pkey W T) \/ In p (props W T) -> samep x y -> samep u v -> samep (normal f u p x) (normal f v p y).

Definition fieldf (n : nat) (x : val) (p : prop) : res val :=
  match p_valuetype p with
  | Some vts =>
      if is_same (normal f match slot x (p_name p) with Some u => u | None => VNone end p x) (normal f VNone p x)
      then Ok (normal f match slot x (p_name p) with Some u => u | None => VNone end p x)
      else
        do best <- fold_left (fun acc vt =>
            do (vp, cnt) <- acc;
            match vt with
            | None => Ok (vp, cnt)
            | Some d =>
                do i <- rid n f (RClass d) None (normal f match slot x (p_name p) with Some u => u | None => VNone end p x);
                match i with
                | VSeq _ l =>
                    let k := length (filter not_none l) in
                    if Nat.eqb (length vp) 0 || Nat.ltb cnt k then Ok (l, k) else Ok (vp, cnt)
                | _ => Err TypeErr
                end
            end) vts (Ok ([], 0));
        let i := match fst best with [] => normal f match slot x (p_name p) with Some u => u | None => VNone end p x | l => VSeq true l end in
        match hash n i with
        | Ok _ => Ok i
        | Err e => Err (if is_type_error e then KeyHashError else e)
        end
  | None => Ok (normal f match slot x (p_name p) with Some u => u | None => VNone end p x)
  end.
Lemma rid_classf n T x : rid (S n) f (RClass T) None x =
  match pkey W T, kind W T with
  | [], KList | [], KDict =>
      do gen <- match tuples x with Some l => Ok l | None => alien_tuples W sort_items alien_atom T x end;
      do ids <- mapM (fun kv => rid n f (item_rtype W T) None (snd kv)) gen; Ok (VSeq true ids)
  | [], KRec => do ids <- mapM (fieldf n x) (sorted_properties W T); Ok (VSeq true ids)
  | ps, _ => do ids <- mapM (fieldf n x) ps; Ok (VSeq true ids)
  end.
Proof. cbn [EqModel.rid sel_true andb]. destruct (pkey W T), (kind W T); reflexivity. Qed.
Lemma rid_norm : forall n m T x y i j, samep x y -> rid n f T None x = Ok i -> rid m f T None y = Ok j -> samep i j.
Proof.
  induction n as [|n IHr]; [intros; discriminate|].
  intros [|m] T x y i j S; [cbn; discriminate|].
    assert (Body : forall T,
      (rid (Datatypes.S n) f (RClass T) None x = Ok i) -> rid (Datatypes.S m) f (RClass T) None y = Ok j -> samep i j).
    { clear T; intros T. rewrite !rid_classf.
      assert (Coll : forall (a b : res val), a = Ok i -> b = Ok j ->
         a = (do gen <- match tuples x with Some l => Ok l | None => alien_tuples W sort_items alien_atom T x end;
              do ids <- mapM (fun kv => rid n f (item_rtype W T) None (snd kv)) gen; Ok (VSeq true ids)) ->
         b = (do gen <- match tuples y with Some l => Ok l | None => alien_tuples W sort_items alien_atom T y end;
              do ids <- mapM (fun kv => rid m f (item_rtype W T) None (snd kv)) gen; Ok (VSeq true ids)) ->
         samep i j).
      { intros a b Ea Eb Da Db. rewrite Da in Ea. rewrite Db in Eb. clear Da Db a b.
        destruct (match tuples x with Some l => Ok l | None => alien_tuples W sort_items alien_atom T x end) as [gx|] eqn:Gx;
          cbn [bind] in Ea; [|discriminate].
        destruct (match tuples y with Some l => Ok l | None => alien_tuples W sort_items alien_atom T y end) as [gy|] eqn:Gy;
          cbn [bind] in Eb; [|discriminate].
        destruct (mapM _ gx) as [ix|] eqn:Mx; cbn [bind] in Ea; [|discriminate].
        destruct (mapM _ gy) as [iy|] eqn:My; cbn [bind] in Eb; [|discriminate].
        injection Ea as <-; injection Eb as <-. constructor.
        eapply mapM_rel; [eapply (gen_rel W aeqb sort_items alien_atom alien_ok); eauto| |exact Mx|exact My].
        cbn. intros u v iu iv _ _ Suv Eu Ev. eapply IHr; eauto. }
      assert (Key : forall ps, (forall p, In p ps -> key_name (p_name p) /\ (In p (pkey W T) \/ In p (props W T))) ->
        forall ix iy, mapM (fieldf n x) ps = Ok ix -> mapM (fieldf m y) ps = Ok iy -> samep (VSeq true ix) (VSeq true iy)).
      { intros ps Kn ix iy Mx My. constructor.
        eapply (mapM_rel (fun p q => p = q /\ key_name (p_name p) /\ (In p (pkey W T) \/ In p (props W T)))); [|clear Mx My|exact Mx|exact My].
        { apply Forall2_diag. intros p I. split; auto. }
        intros p q u v _ _ (<- & Kp & Mp). unfold fieldf.
        set (ux := normal f match slot x (p_name p) with Some u => u | None => VNone end p x).
        set (uy := normal f match slot y (p_name p) with Some u => u | None => VNone end p y).
        assert (Su : samep ux uy).
        { unfold ux, uy. apply (f_ok T); auto. destruct (slot_rel W aeqb _ _ _ S Kp); auto. constructor. }
        set (zx := normal f VNone p x). set (zy := normal f VNone p y).
        assert (Sz : samep zx zy) by (apply (f_ok T); auto; constructor).
        clearbody ux uy zx zy.
        destruct (p_valuetype p) as [vts|]; [|intros [= <-] [= <-]; auto].
        assert (Ei : is_same ux zx = is_same uy zy) by (destruct Su, Sz; reflexivity).
        rewrite <- Ei. destruct (is_same ux zx); [intros [= <-] [= <-]; auto|].
        match goal with |- (do best <- fold_left ?f vts ?a; _) = _ -> (do best' <- fold_left ?g vts ?b; _) = _ -> _ =>
          assert (Fr : forall l a0 b0, acc_rel a0 b0 -> acc_rel (fold_left f l a0) (fold_left g l b0)) end.
        { induction l as [|vt l IHl]; intros a0 b0 R; cbn [fold_left]; auto.
          apply IHl. clear IHl. destruct a0 as [[vp cnt]|e]; cbn [bind]; [|now cbn].
          destruct b0 as [[vq cnt']|e]; cbn [bind].
          2: { destruct vt as [d|]; [|exact I]. destruct (rid n f (RClass d) None ux) as [k|]; cbn [bind]; [|exact I].
               destruct k; try exact I. cbv zeta. destruct (Nat.eqb (length vp) 0 || _); exact I. }
          cbn in R. destruct R as [R <-]. destruct vt as [d|]; [|cbn; auto].
          destruct (rid n f (RClass d) None ux) as [kx|] eqn:Ex; cbn [bind]; [|exact I].
          destruct (rid m f (RClass d) None uy) as [ky|] eqn:Ey; cbn [bind].
          2: { destruct kx; try exact I. cbv zeta. destruct (Nat.eqb (length vp) 0 || _); exact I. }
          assert (Sk : samep kx ky) by exact (IHr m (RClass d) ux uy kx ky Su Ex Ey).
          destruct Sk; try exact I. cbv zeta. rewrite (count_rel W aeqb _ _ H0), (Forall2_len _ _ _ R).
          destruct (Nat.eqb _ 0 || _); cbn; auto. }
        specialize (Fr vts (Ok ([], 0)) (Ok ([], 0)) (conj (Forall2_nil _) eq_refl)).
        destruct (fold_left _ vts _) as [[vp cnt]|e]; cbn [bind]; [|discriminate].
        destruct (fold_left _ vts _) as [[vq cnt']|e]; cbn [bind]; [|discriminate].
        cbn in Fr. destruct Fr as [Fr _]. cbn [fst].
        assert (Sv : samep (match vp with [] => ux | l => VSeq true l end) (match vq with [] => uy | l => VSeq true l end)).
        { destruct Fr; auto. constructor. constructor; auto. }
        cbv zeta. intros Eu Ev. destruct vp, vq; try (inversion Fr; fail);
        (destruct (hash n _) in Eu; [|discriminate]; destruct (hash m _) in Ev; [|discriminate]; injection Eu as <-; injection Ev as <-; exact Sv). }
      assert (Wrap : forall ps, (forall p, In p ps -> key_name (p_name p) /\ (In p (pkey W T) \/ In p (props W T))) ->
        (do ids <- mapM (fieldf n x) ps; Ok (VSeq true ids)) = Ok i ->
        (do ids <- mapM (fieldf m y) ps; Ok (VSeq true ids)) = Ok j -> samep i j).
      { intros ps Kn Ex Ey. destruct (mapM (fieldf n x) ps) eqn:Mx; cbn [bind] in Ex; [|discriminate].
        destruct (mapM (fieldf m y) ps) eqn:My; cbn [bind] in Ey; [|discriminate]. injection Ex as <-; injection Ey as <-.
        eapply Key; eauto. }
      clear Key.
      destruct (pkey W T) as [|p0 pks] eqn:Ep.
      - destruct (kind W T) eqn:Ek.
        + apply Wrap. intros p I. apply (sorted_in W same_item) in I as [I1 I2]. split; auto. exists T, p. auto.
        + intros Ea Eb. eapply Coll; [exact Ea|exact Eb|reflexivity|reflexivity].
        + intros Ea Eb. eapply Coll; [exact Ea|exact Eb|reflexivity|reflexivity].
      - destruct (kind W T) eqn:Ek;
        (apply Wrap;
          intros p I; split; [exists T, p; split; auto; left; rewrite Ep; auto|auto]). }
    destruct T as [|T|].
    + (* RAuto *)
      destruct (class_of x) as [c|] eqn:Cx.
      * assert (exists d, class_of y = Some d) as [d Cy] by (destruct S; inversion Cx; cbn; eauto).
        intros Ex Ey.
        assert (Ex' : rid (Datatypes.S n) f (RClass c) None x = Ok i) by (cbn [EqModel.rid] in *; rewrite Cx in Ex; exact Ex).
        assert (Ey' : rid (Datatypes.S m) f (RClass d) None y = Ok j) by (cbn [EqModel.rid] in *; rewrite Cy in Ey; exact Ey).
        clear Ex Ey. inversion S; subst x y; try discriminate; cbn in Cx, Cy; injection Cx as ->; injection Cy as ->.
        -- eapply Body; eauto.
        -- eapply (Body c); [exact Ex'|]. rewrite rid_classf in Ey' |- *.
           match goal with E : ValModel.item W c = ValModel.item W d |- _ => unfold item_rtype in *; rewrite E end.
           repeat match goal with E : kind W _ = _ |- _ => rewrite E in * end.
           repeat match goal with E : pkey W _ = _ |- _ => rewrite E in * end. exact Ey'.
      * assert (class_of y = None) as Cy by (destruct S; inversion Cx; auto).
        cbn [EqModel.rid]. rewrite Cx, Cy. destruct (has_hash a_hash x); [|discriminate]. destruct (has_hash a_hash y); [|discriminate].
        intros [= <-] [= <-]; auto.
    + now apply Body.
    + cbn [EqModel.rid]. destruct (has_hash a_hash x); [|discriminate]. destruct (has_hash a_hash y); [|discriminate].
      intros [= <-] [= <-]; auto.
Qed.
End Ids.

Section Norm.
Context {A C H : Type}.
Variable W : classes A C.
Variable aeqb : A -> A -> bool.
Variable opt : options.
Notation val := (val A C).
Notation samep := (samep W aeqb).

Lemma norm_ok : (forall T p f o o' u v, In p (pkey W T) \/ In p (props W T) -> p_compare_as p = Some f -> samep o o' -> samep u v -> samep (f o u) (f o' v)) ->
  forall T p x y u v, In p (pkey W T) \/ In p (props W T) -> samep x y -> samep u v ->
    samep (normal (Some (fun v p o => normalize_slot (A := A) (C := C) opt v p o)) u p x)
          (normal (Some (fun v p o => normalize_slot (A := A) (C := C) opt v p o)) v p y).
Proof.
  intros F T0 p x y u v Mp Sx Su. cbn [normal]. unfold normalize_slot.
  assert (T : forall u v, samep u v -> samep (normalize_val opt u) (normalize_val opt v)).
  { intros u0 v0 S. unfold normalize_val. destruct (o_empty_slots opt); cbn [andb]; destruct S; cbv zeta iota;
    try (destruct (o_text opt s)); econstructor; eauto. }
  apply T. destruct (p_compare_as p) as [f|] eqn:E; auto.
  assert (N : is_nothing u = is_nothing v) by (destruct Su; reflexivity). rewrite <- N.
  destruct (is_nothing u); auto. eapply F; eauto.
Qed.

(** made of text, None and atoms only *)
Inductive flat : val -> Prop :=
| flat_nothing : flat VNothing
| flat_none : flat VNone
| flat_text s : flat (VText s)
| flat_atom a : flat (VAtom a)
| flat_tuple l : Forall flat l -> flat (VSeq true l).

Variable veqb : val -> val -> bool.
Hypothesis vrefl : forall v, veqb v v = true.
Hypothesis vatom : forall a b, aeqb a b = true -> veqb (VAtom a) (VAtom b) = true.

Lemma key_rel : forall i j, samep i j -> flat i -> kveqb veqb (key_of i) (key_of j) = true.
Proof.
  induction i as [| |s|a|t l IH|l IH|c sl IH|c sl IH l IHl|c sl IH l IHl] using val_ind'; intros j S F; inversion F; subst; inversion S; subst; cbn [key_of kveqb]; auto.
  rename H1 into Fl, H4 into Fm.
  revert m Fm S. induction IH as [|x l Hx _ IH']; intros m Fm S; inversion Fm as [|? y ? m' Sxy Fm']; subst; cbn [map]; auto.
  inversion Fl; subst. rewrite Hx by auto. cbn [andb]. apply IH'; auto; constructor; auto.
Qed.
End Norm.
