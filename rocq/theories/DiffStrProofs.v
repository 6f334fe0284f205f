(** Proofs about the reports of differences. *)
From Coq Require Import String List Arith NArith ZArith Bool Lia Permutation.
From Verif Require Import Prelude Regex SelPathModel SelPathProofs FSModel FSProofs SelProps MFSModel MFSProofs MFSText MFSProps
  PySeq ValModel EqModel EqProofs SeqDiffModel SeqDiffProofs FuzzyModel FuzzyProps DiffModel DiffProofs DiffSwap AutoModel DiffStrModel DiffStrSpec.
Import ListNotations.

(** ** The dictionary of headings *)

Definition got (k : str) (d : state) : list (list elem) :=
  flat_map (fun g => if str_eqb k (fst g) then snd g else []) d.

Lemma got_append k p k' d x : In x (got k' (append k p d)) <-> In x (got k' d) \/ (k = k' /\ x = p).
Proof.
  induction d as [|[j ps] t IH]; cbn [append got flat_map fst snd].
  - rewrite app_nil_r. destruct (str_eqb k' k) eqn:E.
    + apply str_eqb_eq in E. subst. cbn. intuition.
    + apply str_eqb_neq in E. cbn. intuition congruence.
  - destruct (str_eqb k j) eqn:E; cbn [got flat_map fst snd]; rewrite !in_app_iff.
    + apply str_eqb_eq in E. subst j. destruct (str_eqb k' k) eqn:E'.
      * apply str_eqb_eq in E'. subst k'. rewrite in_app_iff. cbn. intuition.
      * apply str_eqb_neq in E'. intuition congruence.
    + fold (got k' (append k p t)). rewrite IH. fold (got k' t). tauto.
Qed.

Lemma append_keys k p d j : In j (map fst (append k p d)) <-> j = k \/ In j (map fst d).
Proof.
  induction d as [|[i ps] t IH]; cbn [append map fst].
  - cbn. intuition.
  - destruct (str_eqb k i) eqn:E; cbn [map fst In].
    + apply str_eqb_eq in E. subst. intuition.
    + rewrite IH. intuition.
Qed.

Definition good_state (d : state) : Prop := NoDup (map fst d) /\ forall k ps, In (k, ps) d -> ps <> [].

Lemma append_good k p d : good_state d -> good_state (append k p d).
Proof.
  intros [N G]. split.
  - clear G. induction d as [|[i ps] t IH]; cbn [append map fst].
    + constructor; [intros []|constructor].
    + cbn [map fst] in N. inversion N as [|x y N1 N2]; subst. destruct (str_eqb k i) eqn:E; cbn [map fst].
      * constructor; auto.
      * constructor; auto. rewrite append_keys. intros [->|H]; [|auto]. rewrite str_eqb_refl in E. discriminate.
  - clear N. induction d as [|[i ps] t IH]; cbn [append]; intros j qs H.
    + destruct H as [H|[]]. inversion H. discriminate.
    + destruct (str_eqb k i).
      * destruct H as [H|H]; [inversion H; destruct ps; discriminate|]. apply (G j). now right.
      * destruct H as [H|H]; [inversion H; subst; apply (G j); now left|].
        apply (IH (fun a b c => G a b (or_intror c)) j qs H).
Qed.

Lemma got_in k ps d : NoDup (map fst d) -> In (k, ps) d -> got k d = ps.
Proof.
  induction d as [|[i qs] t IH]; intros N H; [destruct H|]. cbn [map fst] in N. inversion N as [|x y N1 N2]; subst.
  cbn [got flat_map fst snd]. destruct H as [H|H].
  - inversion H; subst. rewrite str_eqb_refl. replace (flat_map _ t) with (@nil (list elem)); [apply app_nil_r|].
    symmetry. clear -N1. induction t as [|[j rs] t IH]; auto. cbn [flat_map fst snd]. cbn [map fst In] in N1.
    destruct (str_eqb k j) eqn:E; [apply str_eqb_eq in E; subst; exfalso; auto|]. apply IH. auto.
  - destruct (str_eqb k i) eqn:E.
    + apply str_eqb_eq in E. subst. exfalso. apply N1. apply in_map_iff. now exists (i, ps).
    + cbn. now apply IH.
Qed.

Lemma got_key k x d : In x (got k d) -> In k (map fst d).
Proof.
  unfold got. rewrite in_flat_map. intros ([j ps]&H&I). cbn [fst snd] in I. destruct (str_eqb k j) eqn:E; [|destruct I].
  apply str_eqb_eq in E. subst. apply in_map_iff. now exists (j, ps).
Qed.

Section Text.
Variable uword : char -> bool.
Notation path := (fs_path uword).
Notation put := (put uword).
Notation collect := (collect uword).

Definition clear_paths (l : list dentry) : Prop :=
  forall t p q e, In (t, p, q) l -> In e p \/ In e q -> faithful uword e.

Lemma path_inj p q : (forall e, In e p \/ In e q -> faithful uword e) -> str_eqb (path p) (path q) = true <-> p = q.
Proof.
  intros F. rewrite str_eqb_eq. split; [|now intros ->]. intros E.
  rewrite <- (C01_fs_path_round_trip uword (fun _ => None) p) by auto.
  rewrite <- (C01_fs_path_round_trip uword (fun _ => None) q) by auto. now rewrite E.
Qed.

Lemma put_good d e : good_state d -> good_state (put d e).
Proof.
  intros H. destruct e as [[t p] q]. unfold DiffStrModel.put. destruct t; auto using append_good.
  destruct (str_eqb _ _); auto using append_good.
Qed.

Lemma put_got d t p q k x : (forall e, In e p \/ In e q -> faithful uword e) ->
  In x (got k (put d (t, p, q))) <-> In x (got k d) \/ shows t p q k x.
Proof.
  intros F. unfold DiffStrModel.put. destruct t.
  - rewrite got_append. split; (intros [H|H]; [now left|right]).
    + destruct H as [<- ->]. constructor.
    + inversion H; auto.
  - rewrite got_append. split; (intros [H|H]; [now left|right]).
    + destruct H as [<- ->]. constructor.
    + inversion H; auto.
  - rewrite got_append. split; (intros [H|H]; [now left|right]).
    + destruct H as [<- ->]. constructor.
    + inversion H; auto.
  - destruct (str_eqb (path p) (path q)) eqn:E.
    + apply path_inj in E; auto. subst q. rewrite got_append. split; (intros [H|H]; [now left|right]).
      * destruct H as [<- ->]. constructor.
      * inversion H; subst; auto; congruence.
    + assert (N : p <> q) by (intros X; apply (proj2 (path_inj p q F)) in X; congruence).
      rewrite !got_append. split.
      * intros [[H|[<- ->]]|[<- ->]]; [now left|right; now constructor|right; now constructor].
      * intros [H|H]; [auto|]. inversion H; subst; auto; congruence.
  - split; [auto|]. intros [H|H]; auto. inversion H.
Qed.

Lemma collect_good l : good_state (collect l).
Proof.
  unfold DiffStrModel.collect. assert (G : good_state []) by (split; [constructor|intros k ps []]).
  revert G. generalize (@nil (str * list (list elem))). induction l as [|e t IH]; intros d G; cbn; auto using put_good.
Qed.

Lemma collect_got l k x : clear_paths l ->
  In x (got k (collect l)) <-> exists t p q, In (t, p, q) l /\ shows t p q k x.
Proof.
  unfold DiffStrModel.collect. intros F.
  assert (G : forall d, In x (got k (fold_left put l d)) <-> In x (got k d) \/ exists t p q, In (t, p, q) l /\ shows t p q k x).
  { induction l as [|[[t p] q] l IH]; intros d; cbn [fold_left].
    - split; auto. intros [H|(t&p&q&[]&_)]. exact H.
    - rewrite IH by (intros a b c e H; apply (F a b c e); now right).
      rewrite put_got by (intros e; apply (F t p q e); now left). split.
      + intros [[H|H]|(a&b&c&H&S)]; auto.
        * right. exists t, p, q. split; [now left|auto].
        * right. exists a, b, c. split; [now right|auto].
      + intros [H|(a&b&c&[H|H]&S)]; auto.
        * inversion H; subst. auto.
        * right. exists a, b, c. auto. }
  rewrite G. cbn. tauto.
Qed.

(** ** Selectors of a heading *)

Section Sel.
Variable ord : list arg -> list arg.
Hypothesis Ho : set_order ord.

Lemma afs_ok ps : args_ok (map AFS ps).
Proof. intros m H. apply in_map_iff in H as (p&E&_). discriminate. Qed.

Lemma afs_paths ps : paths (map AFS ps) = map norm ps.
Proof. unfold paths. f_equal. induction ps; cbn; congruence. Qed.

(** the elements of the paths iterated are those of the paths given, or wildcards *)
Lemma iter_elems : forall n args m, Forall good_arg args -> build ord n args = Ok m ->
  forall p e, In p (iter m) -> In e p -> e = ENone \/ exists p', In p' (paths args) /\ In e p'.
Proof.
  induction n as [|n IH]; intros args m G H; [discriminate|]. cbn [build] in H.
  apply bind_ok in H as (hs&H1&H2). destruct (bad_level (map fst hs)); [discriminate|]. inversion H2; subst m. clear H2.
  intros p e Hp He. cbn [iter] in Hp. apply in_flat_map in Hp as ([k o]&Hk&Hp).
  pose proof (proj1 (mapM_ok _ _ _) H1) as F.
  assert (X : exists k0, In k0 (keys_of (entries args)) /\
    (if existsb (fun o => match o with None => true | Some _ => false end) (tails_of k0 (entries args))
     then Ok (k0, None) else do m <- build ord n (ord (somes (tails_of k0 (entries args)))); Ok (k0, Some m)) = Ok (k, o)).
  { clear -F Hk. induction F as [|x y l l' Hxy F IH]; [destruct Hk|]. destruct Hk as [->|Hk].
    - exists x. split; [now left|auto].
    - destruct (IH Hk) as (k0&I0&E0). exists k0. split; [now right|auto]. }
  destruct X as (k0&I0&E0).
  assert (K : In k0 (map fst (entries args))) by (now apply keys_of_in).
  assert (Kp : exists t, In (k0 :: t) (paths args)) by (now apply key_paths).
  destruct (existsb _ _) eqn:Ex.
  - inversion E0; subst. cbn [snd fst] in Hp. destruct Hp as [<-|[]]. destruct He as [<-|[]].
    right. destruct Kp as (t&Ht). exists (k :: t). split; auto. now left.
  - apply bind_ok in E0 as (m1&E1&E2). inversion E2; subst. cbn [snd fst] in Hp. apply in_map_iff in Hp as (p1&<-&Hp1).
    destruct He as [<-|He].
    + right. destruct Kp as (t&Ht). exists (k :: t). split; auto. now left.
    + assert (GS : Forall good_arg (sub_args ord args k)) by (now apply sub_args_good).
      destruct (IH _ _ GS E1 p1 e Hp1 He) as [->|(p'&Hp'&He')]; auto.
      right. exists (k :: p'). split; [|now right]. apply (sub_args_paths ord Ho) in Hp'; auto.
Qed.
End Sel.

(** The text of a heading reads back as a selector of exactly its fields. *)
Lemma paths_text_ok udigit ord ord' ps text : set_order ord -> set_order ord' -> ps <> [] ->
  (forall p e, In p ps -> In e p -> faithful uword e) ->
  paths_text uword ord ps = Ok text ->
  exists m, mfs_from_path uword udigit ord' text = Ok m /\
    forall f, contains m f = true <-> exists p, In p ps /\ covers p f.
Proof.
  intros Ho Ho' Hn F H. unfold paths_text in H. apply bind_ok in H as (m&Hm&H). inversion H; subst text. clear H.
  assert (Cm : constructible m) by (eapply constructed; [exact Ho|apply afs_ok|exact Hm]).
  assert (D : forall f, contains m f = true <-> exists p, In p ps /\ covers p f).
  { intros f. rewrite (C08_denotes_union ord _ m Ho (afs_ok ps) Hm f). split.
    - intros (a&Ha&Hc). apply in_map_iff in Ha as (p&<-&Hp). exists p. auto.
    - intros (p&Hp&Hc). exists (AFS p). split; [now apply in_map|exact Hc]. }
  assert (Hh : heads m <> []).
  { intros E. destruct ps as [|p ps]; [congruence|]. assert (X : contains m p = true).
    { apply D. exists p. split; [now left|]. clear. induction p; constructor; auto. }
    destruct m as [hs]. cbn in E. subst hs. destruct p; discriminate X. }
  destruct (C10_mfs_path_round_trip uword udigit ord' m Ho' Cm Hh) as (m'&Hm'&E').
  - intros p e Hp He. destruct (iter_elems ord Ho _ _ _ (args_ok_good _ (afs_ok ps)) Hm p e Hp He) as [->|(p'&Hp'&He')]; [exact I|].
    rewrite afs_paths in Hp'. apply in_map_iff in Hp' as (p0&<-&Hp0). destruct p0 as [|x p0].
    + destruct He' as [<-|[]]. exact I.
    + apply (F (x :: p0)); auto.
  - exists m'. split; auto. intros f. now rewrite E', D.
Qed.

Lemma paths_text_err ord ps : set_order ord ->
  (clash (map norm ps) -> paths_text uword ord ps = Err ValueErr) /\
  (~ clash (map norm ps) -> exists text, paths_text uword ord ps = Ok text).
Proof.
  intros Ho. destruct (C08_value_error_exactly_on_mixed_level ord (map AFS ps) Ho (afs_ok ps)) as [H1 H2].
  rewrite afs_paths in H1, H2. unfold paths_text. split; intros H.
  - now rewrite (H1 H).
  - destruct (H2 H) as (m&Hm). rewrite Hm. cbn. eauto.
Qed.

Lemma paths_text_clash ord ps : set_order ord -> clash (map norm ps) \/ ~ clash (map norm ps).
Proof.
  intros Ho. destruct (make_total ord Ho (map AFS ps) (args_ok_good _ (afs_ok ps))) as [(m&_&H)|(_&H)];
    rewrite afs_paths in H; auto.
Qed.

Lemma join_listing t ts : listing (t :: ts) (join (s2l "; ") (t :: ts)).
Proof.
  revert t. induction ts as [|u ts IH]; intros t; cbn [join]; [constructor|]. constructor. apply IH.
Qed.

Lemma report_ok udigit ord1 ord2 ord3 bt ot l s :
  set_order ord1 -> set_order ord2 -> set_order ord3 -> clear_paths l ->
  report uword ord1 ord2 (Some bt) (Some ot) l = Ok s ->
  exists gs, framed bt ot (fmt_N (N.of_nat (length l))) gs s /\ NoDup (map fst gs) /\
    (forall k, In k (map fst gs) <-> exists t p q f, In (t, p, q) l /\ shows t p q k f) /\
    (forall k text, In (k, text) gs -> exists m, mfs_from_path uword udigit ord3 text = Ok m /\
       forall f, contains m f = true <-> exists t p q g, In (t, p, q) l /\ shows t p q k g /\ covers g f).
Proof.
  intros H1 H2 H3 F H. unfold report in H. apply bind_ok in H as (x1&_&H). apply bind_ok in H as (ts&Hts&H).
  inversion H; subst s. clear H x1.
  pose proof (collect_good l) as [N G]. pose proof (fun k x => collect_got l k x F) as K.
  remember (collect l) as d eqn:Ed. clear Ed.
  pose proof (proj1 (mapM_ok _ _ _) Hts) as Fa. clear Hts.
  assert (X : exists gs, map fst gs = map fst d /\ ts = map (fun g => fst g ++ s2l "(" ++ snd g ++ s2l ")") gs /\
    forall k text, In (k, text) gs -> exists ps, In (k, ps) d /\ paths_text uword ord2 ps = Ok text).
  { clear -Fa. induction Fa as [|[k ps] t d ts Ht Fa IH].
    - exists []. repeat split; auto. intros k text [].
    - destruct IH as (gs&E1&E2&E3). unfold group_text in Ht. cbn [fst snd] in Ht. apply bind_ok in Ht as (text&Ht&E).
      inversion E; subst t. exists ((k, text) :: gs). cbn [map fst snd]. rewrite E1, E2. repeat split.
      intros k' text' [E'|I].
      + inversion E'; subst. exists ps. split; [now left|auto].
      + destruct (E3 k' text' I) as (ps'&I'&E''). exists ps'. split; [now right|auto]. }
  destruct X as (gs&E1&E2&E3). exists gs. split; [|split; [now rewrite E1|split]].
  - destruct d as [|g d].
    + destruct gs; [|discriminate]. cbn [app]. apply fr_none.
      * intros ->. now rewrite str_eqb_refl.
      * intros X. apply str_eqb_neq in X. now rewrite X.
    + destruct gs as [|g' gs]; [discriminate|]. rewrite E2.
      apply (fr_some bt ot (fmt_N (N.of_nat (length l))) (if str_eqb bt ot then bt else bt ++ s2l " vs " ++ ot) (g' :: gs)
        (join (s2l "; ") (map (fun g => fst g ++ s2l "(" ++ snd g ++ s2l ")") (g' :: gs)))).
      * intros ->. now rewrite str_eqb_refl.
      * intros X. apply str_eqb_neq in X. now rewrite X.
      * apply join_listing.
  - intros k. rewrite E1. split.
    + intros I. apply in_map_iff in I as ([k' ps]&E&I). cbn in E. subst k'. pose proof (G k ps I) as Np.
      destruct ps as [|f ps]; [congruence|]. assert (X : In f (got k d)) by (rewrite (got_in k _ d N I); now left).
      apply K in X as (t&p&q&Hi&Hs). eauto 6.
    + intros (t&p&q&f&Hi&Hs). apply (got_key k f). apply K. eauto.
  - intros k text I. destruct (E3 k text I) as (ps&Ip&Hp).
    assert (X : forall f, In f ps <-> exists t p q, In (t, p, q) l /\ shows t p q k f).
    { intros f. rewrite <- K. now rewrite (got_in k ps d N Ip). }
    destruct (paths_text_ok udigit ord2 ord3 ps text H2 H3 (G k ps Ip)) as (m&Hm&Hc); auto.
    + intros f e Hf He. apply X in Hf as (t&p&q&Hi&Hs). apply (F t p q e Hi). inversion Hs; subst; auto.
    + exists m. split; auto. intros f. rewrite Hc. split.
      * intros (g&Hg&Cg). apply X in Hg as (t&p&q&Hi&Hs). eauto 8.
      * intros (t&p&q&g&Hi&Hs&Cg). exists g. split; auto. apply X. eauto.
Qed.

Lemma mapM_total {X Y} (f : X -> res Y) l : (forall x, In x l -> exists y, f x = Ok y) -> exists ys, mapM f l = Ok ys.
Proof.
  induction l as [|x t IH]; intros H; cbn [mapM]; [eauto|]. destruct (H x (or_introl eq_refl)) as (y&->). cbn.
  destruct IH as (ys&->); [intros z I; apply H; now right|]. cbn. eauto.
Qed.

Lemma mapM_error {X Y} (f : X -> res Y) l e : (forall x e', In x l -> f x = Err e' -> e' = e) ->
  (exists x, In x l /\ f x = Err e) -> mapM f l = Err e.
Proof.
  induction l as [|x t IH]; intros H (y&I&E); [destruct I|]. cbn [mapM]. destruct (f x) as [z|e'] eqn:Ex; cbn [bind].
  - destruct I as [->|I]; [congruence|]. rewrite IH; [reflexivity| |eauto]. intros w e' Iw. apply H. now right.
  - f_equal. apply (H x); auto. now left.
Qed.

Lemma report_err ord1 ord2 bt ot l : set_order ord1 -> set_order ord2 -> clear_paths l ->
  let field k f := exists t p q, In (t, p, q) l /\ shows t p q k f in
  let bad := exists k P, (forall f, In f P -> exists g, field k g /\ f = norm g) /\ (forall g, field k g -> In (norm g) P) /\ clash P in
  (bad -> report uword ord1 ord2 (Some bt) (Some ot) l = Err ValueErr) /\
  (~ bad -> exists s, report uword ord1 ord2 (Some bt) (Some ot) l = Ok s).
Proof.
  intros H1 H2 F field bad. unfold report. pose proof (collect_good l) as [N G]. pose proof (fun k x => collect_got l k x F) as K.
  remember (collect l) as d eqn:Ed. clear Ed.
  assert (X : forall k ps, In (k, ps) d -> forall f, In f ps <-> field k f).
  { intros k ps Ip f. unfold field. rewrite <- K. now rewrite (got_in k ps d N Ip). }
  assert (Er : forall ord, set_order ord -> forall g e, In g d -> group_text uword ord g = Err e -> e = ValueErr).
  { intros ord Ho [k ps] e _ E. unfold group_text in E. cbn [fst snd] in E. destruct (paths_text uword ord ps) as [t|e'] eqn:Et; [discriminate|].
    cbn in E. inversion E; subst. destruct (paths_text_err ord ps Ho) as [Y1 Y2].
    destruct (paths_text_clash ord ps Ho) as [Y|Y]; [rewrite (Y1 Y) in Et; congruence|]. destruct (Y2 Y) as (t&Y3). congruence. }
  split.
  - intros (k&P&P1&P2&Cl). assert (Cl' := Cl). destruct Cl' as (pre&u&x&v&I1&_).
    destruct (P1 _ I1) as (g&(t&p&q&Hi&Hs)&_).
    assert (Kd : In k (map fst d)) by (apply (got_key k g); apply K; eauto).
    apply in_map_iff in Kd as ([k' ps]&E&I). cbn in E. subst k'.
    assert (C2 : clash (map norm ps)).
    { destruct Cl as (pre'&u'&x'&v'&J1&J2&J3&J4). exists pre', u', x', v'.
      assert (Q : forall f, In f P <-> In f (map norm ps)).
      { intros f. rewrite in_map_iff. split.
        - intros If. destruct (P1 f If) as (g0&Fg&->). exists g0. split; auto. now apply (X k ps I).
        - intros (g0&<-&Ig). apply P2. now apply (X k ps I). }
      repeat split; auto; try (now apply Q). intros p0 Ip0. apply J4. now apply Q. }
    rewrite (mapM_error (group_text uword ord1) d ValueErr); [reflexivity|apply Er; auto|].
    exists (k, ps). split; auto. unfold group_text. cbn [fst snd]. destruct (paths_text_err ord1 ps H1) as [Y1 _]. now rewrite (Y1 C2).
  - intros NB. assert (T : forall ord, set_order ord -> exists ys, mapM (group_text uword ord) d = Ok ys).
    { intros ord Ho. apply mapM_total. intros [k ps] I. unfold group_text. cbn [fst snd].
      destruct (paths_text_err ord ps Ho) as [_ Y2]. destruct Y2 as (t&->); [|cbn; eauto].
      intros C. apply NB. exists k, (map norm ps). repeat split; auto.
      - intros f If. apply in_map_iff in If as (g&<-&Ig). exists g. split; auto. now apply (X k ps I).
      - intros g Fg. apply in_map. now apply (X k ps I). }
    destruct (T ord1 H1) as (y1&->). destruct (T ord2 H2) as (y2&->). cbn. eauto.
Qed.

(** ** One entry *)

Lemma ltb_starts p q : Nat.ltb (length q) (length p) = true ->
  (fs_startswith q p = Ok true /\ exists u, p = q ++ u) \/ (fs_startswith q p = Ok false /\ ~ exists u, p = q ++ u).
Proof.
  intros L. apply Nat.ltb_lt in L. revert p L. induction q as [|x q IH]; intros p L; cbn [fs_startswith].
  - left. split; auto. now exists p.
  - destruct p as [|y p]; [cbn in L; lia|]. cbn in L. destruct (elem_eqb x y) eqn:E.
    + apply elem_eqb_iff in E. subst y. destruct (IH p) as [[-> (u&->)]|[-> Hn]]; [lia| |].
      * left. split; auto. now exists u.
      * right. split; auto. intros (u&Hu). apply Hn. exists u. cbn in Hu. congruence.
    + right. split; auto. intros (u&Hu). cbn in Hu. inversion Hu. subst y. rewrite elem_eqb_refl in E. discriminate.
Qed.
End Text.
