(** Identities of records without primary keys. *)
From Coq Require Import List Arith NArith ZArith Bool Lia.
From Verif Require Import Prelude SelPathModel FSModel FSProofs PySeq MFSModel MFSProofs ValModel EqModel EqProofs HashProofs
  IdSpec.
Import ListNotations.

Section Id.
Context {A C H : Type}.
Variable W : classes A C.
Variable aeqb : A -> A -> bool.
Variable same_item : C -> C -> bool.
Variable sort_items : list (elem * val A C) -> list (elem * val A C).
Variable alien_atom : C -> A -> res (list (elem * val A C)).
Variable a_hash : A -> bool.
Variable ahash : A -> res H.
Variables hnothing hnone : H.
Variable htext : str -> H.
Variable htuple : list H -> H.
Notation val := (val A C).
Notation prop := (prop A C).
Notation rid := (rid W sort_items alien_atom a_hash ahash hnothing hnone htext htuple).
Notation hash := (hash W sort_items alien_atom a_hash ahash hnothing hnone htext htuple).
Notation field := (field W sort_items alien_atom a_hash ahash hnothing hnone htext htuple).
Notation same := (same W aeqb same_item).
Notation fits := (fits W).
Hypothesis item_refl : forall c, same_item c c = true.

Lemma mapM_ok {X Y} (f : X -> res Y) l ys : mapM f l = Ok ys -> Forall2 (fun x y => f x = Ok y) l ys.
Proof.
  revert ys. induction l as [|x l IH]; cbn; intros ys; [intros [= <-]; constructor|].
  destruct (f x) eqn:E; cbn; [|discriminate]. destruct (mapM f l); cbn; [|discriminate]. intros [= <-]. constructor; auto.
Qed.

(** what the loop over the declared types finds when they are all the same *)
Definition step n (u : val) (acc : res (list val * nat)) (vt : option C) : res (list val * nat) :=
  do (vp, cnt) <- acc;
  match vt with
  | None => Ok (vp, cnt)
  | Some d =>
      do i <- rid n None (RClass d) None u;
      match i with
      | VSeq _ l =>
          let k := length (filter not_none l) in
          if Nat.eqb (length vp) 0 || Nat.ltb cnt k then Ok (l, k) else Ok (vp, cnt)
      | _ => Err TypeErr
      end
  end.
Lemma step_err n u e vts : fold_left (step n u) vts (Err e) = Err e.
Proof. induction vts; auto. Qed.
Lemma step_none n u vts a : (forall d, ~ In (Some d) vts) -> fold_left (step n u) vts (Ok a) = Ok a.
Proof.
  intros N. induction vts as [|[d|] vts IH]; cbn; auto.
  - destruct (N d). left; auto.
  - destruct a. apply IH. intros d I. apply (N d). right; auto.
Qed.
Lemma step_all n u d vts : (forall d', In (Some d') vts -> d' = d) -> forall b a k r,
  fold_left (step n u) vts (Ok (a, k)) = Ok r -> rid n None (RClass d) None u = Ok (VSeq b a) -> k = length (filter not_none a) ->
  r = (a, k).
Proof.
  intros N. induction vts as [|[d'|] vts IH]; cbn [fold_left]; intros b a k r E R K; [now injection E as <-| |].
  - rewrite (N d') in E by (left; auto). cbn [step bind] in E. rewrite R in E. cbn [bind] in E. cbv zeta in E. rewrite <- K in E.
    replace (if _ || _ then _ else _) with (@Ok (list val * nat) (a, k)) in E by now destruct (_ || _).
    eapply IH; eauto. intros d0 I. apply N. right; auto.
  - cbn [step bind] in E. eapply IH; eauto. intros d0 I. apply N. right; auto.
Qed.
Lemma step_some n u d vts : (forall d', In (Some d') vts -> d' = d) -> In (Some d) vts -> forall r,
  fold_left (step n u) vts (Ok ([], 0)) = Ok r -> exists b l, rid n None (RClass d) None u = Ok (VSeq b l) /\ fst r = l.
Proof.
  intros N I. induction vts as [|[d'|] vts IH]; intros r; [easy| |].
  - rewrite (N d') by (left; auto). cbn [fold_left step bind].
    destruct (rid n None (RClass d) None u) as [[]|] eqn:R; cbn [bind]; try (rewrite step_err; discriminate).
    cbv zeta. cbn [length Nat.eqb orb]. intros E. exists tup, l. split; auto.
    rewrite (step_all n u d vts) with (b := tup) (a := l) (k := length (filter not_none l)) (r := r); auto.
    intros d0 I0. apply N. right; auto.
  - cbn [fold_left step bind]. apply IH.
    + intros d0 I0. apply N. right; auto.
    + destruct I as [[=]|I]; auto.
Qed.

Lemma fits_class d u : fits d u -> class_of u = Some d.
Proof. intros []; reflexivity. Qed.

(** the entry for one property *)
Lemma field_unset n x p i : slot x (p_name p) = None -> field n x p = Ok i -> i = VNone.
Proof. intros E. unfold HashProofs.field. rewrite E. cbn [normal]. destruct (p_valuetype p); cbn [is_same]; now intros [= <-]. Qed.
Lemma field_plain n x p u i : slot x (p_name p) = Some u -> (forall vts d, p_valuetype p = Some vts -> ~ In (Some d) vts) ->
  field n x p = Ok i -> i = u.
Proof.
  intros E N. unfold HashProofs.field. rewrite E. cbn [normal]. destruct (p_valuetype p) as [vts|]; [|now intros [= <-]].
  destruct (is_same u VNone); [now intros [= <-]|].
  change (fold_left _ vts _) with (fold_left (step n u) vts (Ok ([], 0))).
  rewrite step_none by (intros d; apply (N vts); auto). cbn [bind fst]. cbv zeta.
  destruct (hash n u); [now intros [= <-]|discriminate].
Qed.
Lemma field_rec n x p u vts d i : slot x (p_name p) = Some u -> u <> VNone -> p_valuetype p = Some vts -> In (Some d) vts ->
  (forall d', In (Some d') vts -> fits d' u) -> field n x p = Ok i ->
  exists b l, rid n None (RClass d) None u = Ok (VSeq b l) /\
    ((l = [] /\ i = u /\ (exists h, hash n u = Ok h)) \/ (l <> [] /\ i = VSeq true l)).
Proof.
  intros E NN V I F. unfold HashProofs.field. rewrite E, V. cbn [normal].
  replace (is_same u VNone) with false by (destruct u; auto; congruence).
  change (fold_left _ vts _) with (fold_left (step n u) vts (Ok ([], 0))).
  destruct (fold_left (step n u) vts (Ok ([], 0))) as [r|] eqn:Fo; [|discriminate]. cbn [bind]. cbv zeta.
  destruct (step_some n u d vts) with (r := r) as (b & l & R & <-); auto.
  { intros d' I'. pose proof (fits_class _ _ (F _ I)). pose proof (fits_class _ _ (F _ I')). congruence. }
  intros Hh. exists b, (fst r). split; auto. destruct (fst r) as [|a t].
  - left. destruct (hash n u) eqn:Eh; [|discriminate]. injection Hh as <-. eauto.
  - right. split; [discriminate|]. destruct (hash n (VSeq true (a :: t))); [now injection Hh as <-|discriminate].
Qed.

Lemma some_class_dec (vts : list (option C)) : (exists d, In (Some d) vts) \/ (forall d, ~ In (Some d) vts).
Proof.
  induction vts as [|[d|] vts IH]; [right; auto|left; exists d; left; auto|].
  destruct IH as [[d I]|N]; [left; exists d; right; auto|right]. intros d [[=]|I]. eapply N; eauto.
Qed.

Lemma declared_dec (p : prop) : (exists vts d, p_valuetype p = Some vts /\ In (Some d) vts) \/
  (forall vts d, p_valuetype p = Some vts -> ~ In (Some d) vts).
Proof.
  destruct (p_valuetype p) as [vts|]; [|right; discriminate].
  destruct (some_class_dec vts) as [[d I]|N]; [left; eauto|right]. intros ? d [= <-]. apply N.
Qed.

Lemma class_tuple n d u i : rid n None (RClass d) None u = Ok i -> exists l, i = VSeq true l.
Proof.
  destruct n as [|n]; [discriminate|]. rewrite rid_class.
  destruct (pkey W d) as [|p0 ps], (kind W d);
    try (destruct (mapM (field n u) _); cbn [bind]; [intros [= <-]; eauto|discriminate]);
    (destruct (match tuples u with Some l => Ok l | None => alien_tuples W sort_items alien_atom d u end); cbn [bind]; [|discriminate];
     destruct (mapM _ a); cbn [bind]; [intros [= <-]; eauto|discriminate]).
Qed.

Section Step.
Variables (n m : nat).
Hypothesis IH : forall T x y i j, fits T x -> fits T y -> rid n None (RClass T) None x = Ok i -> rid m None (RClass T) None y = Ok j ->
  (same i j <-> same x y).
Definition fit1 (p : prop) (x : val) : Prop :=
  slot x (p_name p) <> Some VNone /\
  forall u vts d, slot x (p_name p) = Some u -> p_valuetype p = Some vts -> In (Some d) vts -> fits d u.
Lemma seq_nil (l k : list val) : same (VSeq true l) (VSeq true k) -> (l = [] <-> k = []).
Proof. intros S. inversion S as [ | | | |t l0 m0 F| | | | | | | | ]; subst. destruct F; split; congruence. Qed.
Lemma field_same p x y i j : fit1 p x -> fit1 p y -> field n x p = Ok i -> field m y p = Ok j ->
  (same i j <-> opt2 same (slot x (p_name p)) (slot y (p_name p))).
Proof.
  intros [Nx Fx] [Ny Fy] Ei Ej.
  destruct (slot x (p_name p)) as [u|] eqn:Sx, (slot y (p_name p)) as [v|] eqn:Sy.
  - destruct (declared_dec p) as [(vts & d & V & I)|N].
    + assert (Un : u <> VNone) by congruence. assert (Vn : v <> VNone) by congruence.
      assert (Fu : fits d u) by (eapply Fx; eauto). assert (Fv : fits d v) by (eapply Fy; eauto).
      destruct (field_rec n x p u vts d i) as (bx & lx & Rx & Ox); eauto.
      destruct (field_rec m y p v vts d j) as (by_ & ly & Ry & Oy); eauto.
      pose proof (IH d u v _ _ Fu Fv Rx Ry) as Q.
      destruct (class_tuple _ _ _ _ Rx) as [? [= ->]]. intros; subst.
      destruct (class_tuple _ _ _ _ Ry) as [? [= ->]]. intros; subst.
      transitivity (same u v); [|split; [constructor; auto|now inversion 1]].
      destruct Ox as [(-> & -> & _)|[Lx ->]], Oy as [(-> & -> & _)|[Ly ->]]; try tauto.
      * split; intros S.
        -- destruct Fu; inversion S.
        -- exfalso. apply Q in S. apply seq_nil in S. tauto.
      * split; intros S.
        -- destruct Fv; inversion S.
        -- exfalso. apply Q in S. apply seq_nil in S. tauto.
    + rewrite (field_plain n x p u i Sx N Ei), (field_plain m y p v j Sy N Ej). split; [constructor; auto|now inversion 1].
  - rewrite (field_unset m y p j Sy Ej). split; [|inversion 1]. intros S. exfalso.
    destruct (declared_dec p) as [(vts & d & V & I)|N].
    + assert (Un : u <> VNone) by congruence.
      destruct (field_rec n x p u vts d i) as (bx & lx & Rx & Ox); eauto.
      destruct Ox as [(-> & -> & _)|[Lx ->]]; inversion S; congruence.
    + rewrite (field_plain n x p u i Sx N Ei) in S. inversion S; congruence.
  - rewrite (field_unset n x p i Sx Ei). split; [|inversion 1]. intros S. exfalso.
    destruct (declared_dec p) as [(vts & d & V & I)|N].
    + assert (Un : v <> VNone) by congruence.
      destruct (field_rec m y p v vts d j) as (bx & lx & Rx & Ox); eauto.
      destruct Ox as [(-> & -> & _)|[Lx ->]]; inversion S; congruence.
    + rewrite (field_plain m y p v j Sy N Ej) in S. inversion S; congruence.
  - rewrite (field_unset n x p i Sx Ei), (field_unset m y p j Sy Ej). split; constructor.
Qed.
Lemma fields_same ps x y ix iy : (forall p, In p ps -> fit1 p x) -> (forall p, In p ps -> fit1 p y) ->
  mapM (field n x) ps = Ok ix -> mapM (field m y) ps = Ok iy ->
  (same (VSeq true ix) (VSeq true iy) <-> forall p, In p ps -> opt2 same (slot x (p_name p)) (slot y (p_name p))).
Proof.
  intros Fx Fy Mx My. apply mapM_ok in Mx. apply mapM_ok in My.
  transitivity (Forall2 same ix iy). { split; [intros S; now inversion S|now constructor]. }
  revert iy My. induction Mx as [|p i ps ix E Mx IHl]; intros iy My; inversion My as [|? j ? iy' E' My']; subst.
  - split; [intros _ p []|constructor].
  - specialize (IHl (fun q I => Fx q (or_intror I)) (fun q I => Fy q (or_intror I)) _ My').
    pose proof (field_same p x y i j (Fx p (or_introl eq_refl)) (Fy p (or_introl eq_refl)) E E') as Q.
    split.
    + intros S. inversion S; subst. intros q [<-|I]; [apply Q; auto|apply IHl; auto].
    + intros S. constructor; [apply Q, S; left; auto|]. apply IHl. intros q I. apply S. right; auto.
Qed.
End Step.

Lemma number_snd (l : list val) : map snd (number l) = l.
Proof. unfold number. generalize 0. induction l as [|x l IHl]; intros k; cbn; auto. now rewrite IHl. Qed.
Lemma mapM_number {Y} (f : val -> res Y) l : mapM (fun kv => f (snd kv)) (number l) = mapM f l.
Proof.
  rewrite <- (number_snd l) at 2. generalize (number l). induction l0 as [|x l0 IHl]; cbn; auto. now rewrite IHl.
Qed.

Theorem id_same : forall n m T x y i j, fits T x -> fits T y ->
  rid n None (RClass T) None x = Ok i -> rid m None (RClass T) None y = Ok j -> (same i j <-> same x y).
Proof.
  induction n as [|n IHn]; [discriminate|]. intros [|m] T x y i j Fx Fy; [discriminate|].
  rewrite !rid_class. destruct Fx as [c sl K P N F|c sl l K P I F]; rewrite P, K; intros Ei Ej.
  - destruct (mapM (field n _) _) as [ix|] eqn:Mx in Ei; cbn [bind] in Ei; [|discriminate].
    destruct (mapM (field m _) _) as [iy|] eqn:My in Ej; cbn [bind] in Ej; [|discriminate].
    injection Ei as <-. injection Ej as <-.
    inversion Fy as [c' sm K' P' N' F'|]; subst; [|congruence].
    rewrite (fields_same n m (fun T x y i j => IHn m T x y i j) (sorted_properties W c) (VRec c sl) (VRec c sm) ix iy); auto.
    + split.
      * intros S. constructor. intros p Ip Xp. apply (S p). now apply (sorted_in W same_item).
      * intros S p Ip. apply (sorted_in W same_item) in Ip as [Ip Xp]. cbn [slot]. inversion S; subst; auto.
    + intros p Ip. apply (sorted_in W same_item) in Ip as [Ip Xp]. split; [now apply N|]. intros u vts d. now apply F.
    + intros p Ip. apply (sorted_in W same_item) in Ip as [Ip Xp]. split; [now apply N'|]. intros u vts d. now apply F'.
  - inversion Fy as [|c' sm k K' P' I' F']; subst; [congruence|]. cbn [tuples bind] in Ei, Ej.
    rewrite mapM_number in Ei, Ej.
    destruct (mapM _ l) as [ix|] eqn:Mx in Ei; cbn [bind] in Ei; [|discriminate].
    destruct (mapM _ k) as [iy|] eqn:My in Ej; cbn [bind] in Ej; [|discriminate].
    injection Ei as <-. injection Ej as <-.
    transitivity (Forall2 same ix iy). { split; [intros S; now inversion S|now constructor]. }
    transitivity (Forall2 same l k). 2: { split; [constructor; auto|intros S; now inversion S]. }
    apply mapM_ok in Mx. apply mapM_ok in My. clear Fy. 
    assert (Q : forall u v a b, In u l -> In v k -> rid n None (item_rtype W c) None u = Ok a -> rid m None (item_rtype W c) None v = Ok b ->
                (same a b <-> same u v)).
    { intros u v a b Iu Iv. unfold item_rtype. destruct (item W c) as [|d|] eqn:Ic; [congruence| |].
      - apply IHn; auto.
      - destruct n as [|n']; [discriminate|]. destruct m as [|m']; [discriminate|]. cbn [EqModel.rid].
        destruct (has_hash a_hash u); [|discriminate]. destruct (has_hash a_hash v); [|discriminate].
        intros [= <-] [= <-]. reflexivity. }
    clear - Mx My Q. revert k iy My Q.
    induction Mx as [|u a l ix E Mx IHl]; intros k iy My Q; inversion My as [|v b k' iy' E' My']; subst.
    + split; constructor.
    + split; intros S; inversion S.
    + split; intros S; inversion S.
    + assert (Q' : same a b <-> same u v) by (apply Q; auto; left; auto).
      specialize (IHl k' iy' My' (fun u v a b I J => Q u v a b (or_intror I) (or_intror J))).
      split; intros S; inversion S; subst; constructor; try (apply Q'; auto); apply IHl; auto.
Qed.

Theorem key_same n m T x y i j p0 ps : pkey W T = p0 :: ps -> fit_key W (pkey W T) x -> fit_key W (pkey W T) y ->
  rid n None (RClass T) None x = Ok i -> rid m None (RClass T) None y = Ok j ->
  (same i j <-> forall p, In p (pkey W T) -> opt2 same (slot x (p_name p)) (slot y (p_name p))).
Proof.
  destruct n as [|n]; [discriminate|]. destruct m as [|m]; [discriminate|]. intros P Fx Fy. rewrite !rid_class, P. rewrite P in Fx, Fy.
  intros Ei Ej.
  assert (Ei' : (do ids <- mapM (field n x) (p0 :: ps); Ok (VSeq true ids)) = Ok i) by (destruct (kind W T); exact Ei).
  assert (Ej' : (do ids <- mapM (field m y) (p0 :: ps); Ok (VSeq true ids)) = Ok j) by (destruct (kind W T); exact Ej).
  clear Ei Ej. destruct (mapM (field n x) _) as [ix|] eqn:Mx; cbn [bind] in Ei'; [|discriminate].
  destruct (mapM (field m y) _) as [iy|] eqn:My; cbn [bind] in Ej'; [|discriminate].
  injection Ei' as <-. injection Ej' as <-.
  apply (fields_same n m (fun T x y i j => id_same n m T x y i j)); auto.
Qed.

(** identities are as good values as the records *)
Lemma id_wf : forall n T x i, fits T x -> wf x -> rid n None (RClass T) None x = Ok i -> wf i.
Proof.
  induction n as [|n IHn]; [discriminate|]. intros T x i Fx Wx. rewrite rid_class.
  destruct Fx as [c sl K P N F|c sl l K P I F]; rewrite P, K; intros Ei.
  - destruct (mapM (field n _) _) as [ix|] eqn:Mx in Ei; cbn [bind] in Ei; [|discriminate]. injection Ei as <-.
    constructor. apply mapM_ok in Mx.
    assert (Q : forall p, In p (sorted_properties W c) -> forall i, field n (VRec c sl) p = Ok i -> wf i).
    { intros p Ip i Ei. apply (sorted_in W same_item) in Ip as [Ip Xp].
      destruct (slot (VRec c sl) (p_name p)) as [u|] eqn:S.
      2: { rewrite (field_unset _ _ _ _ S Ei). constructor. }
      assert (Wu : wf u) by (eapply slot_wf; eauto; exact Logic.I).
      destruct (declared_dec p) as [(vts & d & V & Id)|Nd].
      + destruct (field_rec n _ p u vts d i S) as (b & k & R & O); auto.
        { intros ->. now apply (N p). } { intros d' I'. eapply F; eauto. }
        destruct O as [(_ & -> & _)|(_ & ->)]; auto.
        assert (Wk : wf (VSeq b k)) by (eapply IHn; eauto). inversion Wk; subst. now constructor.
      + rewrite (field_plain n _ p u i S); auto. }
    clear - Mx Q. induction Mx; constructor.
    + eapply Q; [left; auto|eauto].
    + apply IHMx. intros p Ip. apply Q. right; auto.
  - cbn [tuples bind] in Ei. rewrite mapM_number in Ei.
    destruct (mapM _ l) as [ix|] eqn:Mx in Ei; cbn [bind] in Ei; [|discriminate]. injection Ei as <-.
    constructor. apply mapM_ok in Mx.
    assert (Wl : Forall wf l) by now inversion Wx.
    assert (Q : forall u, In u l -> forall i, rid n None (item_rtype W c) None u = Ok i -> wf i).
    { intros u Iu i. rewrite Forall_forall in Wl. unfold item_rtype. destruct (item W c) as [|d|] eqn:Ic; [congruence| |].
      - apply IHn; auto.
      - destruct n as [|n']; [discriminate|]. cbn [EqModel.rid]. destruct (has_hash a_hash u); [|discriminate].
        intros [= <-]. auto. }
    clear - Mx Q. induction Mx; constructor.
    + eapply Q; [left; auto|eauto].
    + apply IHMx. intros p Ip. apply Q. right; auto.
Qed.
End Id.
