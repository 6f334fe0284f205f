(** Approximate matching does not depend on which side comes first. *)
From Coq Require Import List ZArith Arith Bool Lia Permutation Sorted.
From Verif Require Import Prelude SeqDiffModel SeqDiffProofs FuzzyModel FuzzyProps.
Import ListNotations.

(** ** Order of elements in a list *)
Section Before.
Context {X : Type}.

Fixpoint before (l : list X) (a b : X) : Prop :=
  match l with
  | [] => False
  | x :: t => (x = a /\ In b t) \/ before t a b
  end.

Lemma before_in l a b : before l a b -> In a l /\ In b l.
Proof.
  induction l as [|x t IH]; cbn [before]; [intros []|]. intros [[-> I]|H]; [split; [now left|now right]|].
  apply IH in H as [? ?]. split; now right.
Qed.

Lemma before_app l m a b : before (l ++ m) a b <-> before l a b \/ before m a b \/ (In a l /\ In b m).
Proof.
  induction l as [|x t IH]; cbn [before app].
  - cbn. tauto.
  - rewrite IH, in_app_iff. cbn [In]. intuition (subst; auto).
Qed.

Lemma before_irrefl l a : NoDup l -> ~ before l a a.
Proof.
  induction 1 as [|x t Hx D IH]; cbn [before]; [tauto|]. intros [[-> H]|H]; tauto.
Qed.

Lemma before_asym l a b : NoDup l -> before l a b -> ~ before l b a.
Proof.
  induction 1 as [|x t Hx D IH]; cbn [before]; [tauto|].
  intros [[-> H]|H] [[-> H']|H']; try tauto.
  - apply before_in in H' as [_ H']. tauto.
  - apply before_in in H as [_ H]. tauto.
Qed.

Lemma before_total l a b : In a l -> In b l -> a = b \/ before l a b \/ before l b a.
Proof.
  induction l as [|x t IH]; cbn [In before]; [tauto|].
  intros [->|Ha] [->|Hb]; auto. destruct (IH Ha Hb) as [|[|]]; auto.
Qed.

Lemma before_split l a b : before l a b <-> exists l1 l2, l = l1 ++ b :: l2 /\ In a l1.
Proof.
  induction l as [|x t IH]; cbn [before].
  - split; [intros []|]. intros (l1&l2&E&_). destruct l1; discriminate.
  - split.
    + intros [[-> I]|H].
      * apply in_split in I as (l1&l2&->). exists (a :: l1), l2. split; auto. now left.
      * apply IH in H as (l1&l2&->&I). exists (x :: l1), l2. split; auto. now right.
    + intros (l1&l2&E&I). destruct l1 as [|y l1]; [destruct I|]. cbn [app] in E. inversion E; subst.
      destruct I as [->|I]; [left; split; auto; apply in_or_app; right; now left|]. right. apply IH. eauto.
Qed.
End Before.

Lemma before_map {X Y} (f : X -> Y) l a b : (forall x y, f x = f y -> x = y) -> before (map f l) (f a) (f b) <-> before l a b.
Proof.
  intros Inj. induction l as [|x t IH]; cbn [before map]; [tauto|]. rewrite IH, in_map_iff. split.
  - intros [[E (y&E2&I)]|H]; auto. left. apply Inj in E, E2. subst. auto.
  - intros [[-> I]|H]; auto. left. split; auto. exists b. auto.
Qed.

(** every element yields at most one *)
Lemma before_flat {X Y} (f : X -> list Y) (g : Y -> X) l a b :
  (forall x y, In y (f x) -> f x = [y] /\ g y = x) ->
  before (flat_map f l) a b <-> before l (g a) (g b) /\ In a (f (g a)) /\ In b (f (g b)).
Proof.
  intros F. induction l as [|x t IH]; cbn [flat_map before]; [tauto|].
  rewrite before_app, IH, in_flat_map. split.
  - intros [H|[(H&H1&H2)|(H1&y&Iy&H2)]].
    + exfalso. destruct (before_in _ _ _ H) as [Ha Hb]. destruct (F x a Ha) as [E _]. rewrite E in H. cbn in H. tauto.
    + auto.
    + destruct (F x a H1) as [_ Ea]. destruct (F y b H2) as [_ Eb]. rewrite Ea, Eb. auto.
  - intros ([[E I]|H]&Ha&Hb); auto. right. right. rewrite E. split; auto. exists (g b). auto.
Qed.

Lemma before_prod {X Y} (l : list X) (m : list Y) x y x' y' : NoDup l -> NoDup m -> In x l -> In x' l -> In y m -> In y' m ->
  (before (list_prod l m) (x, y) (x', y') <-> before l x x' \/ (x = x' /\ before m y y')).
Proof.
  intros Dl Dm Hx Hx' Hy Hy'. induction Dl as [|u t Hu Dt IH]; [destruct Hx|]. cbn [list_prod before].
  rewrite before_app. rewrite in_map_iff, in_prod_iff.
  assert (B1 : before (map (fun y => (u, y)) m) (x, y) (x', y') <-> u = x /\ u = x' /\ before m y y').
  { split.
    - intros H. pose proof (before_in _ _ _ H) as [I1 I2]. apply in_map_iff in I1 as (z&E&_), I2 as (z'&E'&_).
      inversion E; inversion E'; subst. repeat split; auto. rewrite <- (before_map (fun y => (x', y))); [exact H|]. intros a b Eq. now inversion Eq.
    - intros (<-&<-&H). rewrite (before_map (fun y => (u, y))); auto. intros a b Eq. now inversion Eq. }
  rewrite B1.
  split.
  - intros [(<-&<-&H)|[H|((z&E&_)&I&_)]].
    + auto.
    + pose proof (before_in _ _ _ H) as [I1 I2]. apply in_prod_iff in I1 as [I1 _], I2 as [I2 _].
      apply IH in H; auto. destruct H as [H|H]; auto.
    + inversion E; subst. auto.
  - intros [[[-> I]|H]|[-> H]].
    + right. right. split; [exists y; auto|]. auto.
    + right. left. pose proof (before_in _ _ _ H) as [I1 I2]. apply IH; auto.
    + destruct Hx as [->|I]; auto. right. left. apply IH; auto.
Qed.

(** ** Greedy choice *)
Section Greedy.
Context {X : Type}.
Variable clash : X -> X -> Prop.

(** An element is chosen iff nothing chosen earlier clashes with it. *)
Definition greedy (l : list X) (M : X -> Prop) : Prop :=
  forall e, In e l -> (M e <-> forall e', before l e' e -> clash e' e -> ~ M e').

Lemma greedy_unique l l' M M' : NoDup l -> (forall e, In e l <-> In e l') ->
  (forall e e', In e l -> In e' l -> clash e' e -> (before l e' e <-> before l' e' e)) ->
  greedy l M -> greedy l' M' -> forall e, In e l -> (M e <-> M' e).
Proof.
  intros D Same Ord G G'.
  assert (S : forall l1 l2, l = l1 ++ l2 -> forall e, In e l1 -> (M e <-> M' e)).
  { induction l1 as [|x l1 IH] using rev_ind; intros l2 E e I; [destruct I|].
    apply in_app_or in I as [I|I].
    - rewrite <- app_assoc in E. eapply IH; eauto.
    - destruct I as [->|[]]. rewrite <- app_assoc in E. cbn [app] in E. specialize (IH _ E).
      assert (Ie : In e l) by (rewrite E; apply in_or_app; right; now left).
      assert (B : forall e', before l e' e -> In e' l1).
      { intros e' B. apply before_split in B as (m1&m2&E2&I'). rewrite E in E2.
        assert (m1 = l1); [|congruence]. rewrite E in D. clear - D E2.
        revert m1 E2 D. induction l1 as [|a l1 IH]; intros [|b m1] E2 D; cbn [app] in *; auto; inversion E2; subst.
        - inversion D as [|? ? N _]. exfalso. apply N. apply in_or_app. right. now left.
        - inversion D as [|? ? N _]. exfalso. apply N. apply in_or_app. right. now left.
        - f_equal. inversion D; auto. }
      rewrite (G e Ie). rewrite (G' e) by now apply Same. split.
      + intros H e' B' Cl Me'. assert (Ie' : In e' l) by (apply Same; now apply before_in in B').
        assert (B2 : before l e' e) by now apply Ord. apply (H e'); auto. apply IH; auto.
      + intros H e' B' Cl Me'. assert (Ie' : In e' l) by now apply before_in in B'.
        apply (H e'); auto; [now apply Ord|]. apply IH; auto. }
  intros e I. apply (S l []); auto. now rewrite app_nil_r.
Qed.
End Greedy.

Section Flip.
Context {A : Type}.
Variable aeqb : A -> A -> bool.
Variable afalsy : A -> bool.
Hypothesis OK : atoms_ok aeqb afalsy.

Notation score := (score aeqb afalsy).
Notation pick := (pick aeqb).
Notation edge := (tagged A * tagged A)%type.

Definition flip {X Y} (p : X * Y) : Y * X := (snd p, fst p).

Lemma score_sym x : forall y, score x y = score y x.
Proof.
  induction x as [|u x IH]; intros [|v y]; auto.
  - rewrite !score_cons, IH.
    assert (E : kveqb aeqb u v = kveqb aeqb v u).
    { destruct (kveqb aeqb u v) eqn:E1, (kveqb aeqb v u) eqn:E2; auto; apply (kveqb_sym aeqb afalsy OK) in E1 || apply (kveqb_sym aeqb afalsy OK) in E2; congruence. }
    rewrite E. destruct (kveqb aeqb v u) eqn:E2; auto. now rewrite (nested_falsy_eq aeqb afalsy OK v u).
Qed.

(** stable sorting *)
Lemma before_insert (s : scored A) l a b : StronglySorted better l -> ~ In s l ->
  (before (insert s l) a b <-> before l a b \/ (b = s /\ In a l /\ (weight s <= weight a)%Z) \/ (a = s /\ In b l /\ (weight b < weight s)%Z)).
Proof.
  intros Hs. induction Hs as [|u t Hs IH F]; intros N; cbn [insert before In].
  - cbn. tauto.
  - rewrite Forall_forall in F. unfold better in F. destruct (Z.ltb_spec (weight u) (weight s)) as [L|L].
    + cbn [before In]. split.
      * intros [[-> [->|I]]|H]; auto.
        -- right. right. auto.
        -- right. right. repeat split; auto. specialize (F _ I). lia.
      * intros [H|[(->&[<-|I]&Hw)|(->&[<-|I]&Hw)]]; auto; try lia. specialize (F _ I). lia.
    + cbn [before In]. rewrite IH by (intros I; apply N; now right).
      assert (Is : forall x, In x (insert s t) <-> x = s \/ In x t).
      { intros x. split; intros I.
        - apply (Permutation_in _ (insert_perm s t)) in I. destruct I; auto.
        - apply (Permutation_in _ (Permutation_sym (insert_perm s t))). destruct I as [->|I]; [now left|now right]. }
      rewrite Is. split.
      * intros [[-> [->|I]]|[H|[(->&I&Hw)|(->&I&Hw)]]]; auto 6.
      * intros [[[-> I]|H]|[(->&[<-|I]&Hw)|(->&[<-|I]&Hw)]]; auto 7. lia.
Qed.

Lemma sorted_rev_snoc (l : list (scored A)) s : sorted_rev (l ++ [s]) = insert s (sorted_rev l).
Proof. unfold sorted_rev. now rewrite fold_left_app. Qed.

Lemma before_sorted (l : list (scored A)) a b : NoDup l ->
  (before (sorted_rev l) a b <-> In a l /\ In b l /\ ((weight b < weight a)%Z \/ (weight a = weight b /\ before l a b))).
Proof.
  induction l as [|s l IH] using rev_ind; intros D.
  - cbn. tauto.
  - assert (D' : NoDup l /\ ~ In s l).
    { apply NoDup_remove in D. now rewrite app_nil_r in D. }
    destruct D' as [D1 D2]. rewrite sorted_rev_snoc, before_insert, IH; auto.
    + rewrite before_app, !in_app_iff. cbn [In before].
      assert (Sr : forall x, In x (sorted_rev l) <-> In x l).
      { intros x. split; apply Permutation_in; [|apply Permutation_sym]; apply sorted_rev_perm. }
      rewrite !Sr. split.
      * intros [(I1&I2&[H|[E H]])|[(->&I&H)|(->&I&H)]].
        -- auto 7.
        -- auto 8.
        -- repeat split; auto. destruct (Z.eq_dec (weight a) (weight s)); [right; auto 8|left; lia].
        -- repeat split; auto.
      * intros ([Ia|[<-|[]]]&[Ib|[<-|[]]]&H).
        -- left. repeat split; auto. destruct H as [H|[E [H|[[[_ []]|[]]|[_ [<-|[]]]]]]]; auto. tauto.
        -- right. left. repeat split; auto. destruct H as [H|[H _]]; lia.
        -- right. right. repeat split; auto. destruct H as [H|[E [H|[[[_ []]|[]]|[H _]]]]]; auto; try tauto.
           apply before_in in H. tauto.
        -- exfalso. destruct H as [H|[E [H|[[[_ []]|[]]|[H _]]]]]; try lia; try tauto. apply before_in in H. tauto.
    + apply sorted_rev_sorted.
    + intros I. apply D2. eapply Permutation_in; [apply sorted_rev_perm|exact I].
Qed.

(** what pick does *)
Definition clash (e e' : scored A) : Prop :=
  fst (snd e) = fst (snd e') \/ snd (snd e) = snd (snd e').

Section Sets.
Variables SA SB : list (tagged A).
Hypothesis UA : is_set aeqb SA.
Hypothesis UB : is_set aeqb SB.

Definition plain_pick (l : list (scored A)) : list (tagged A) -> list (tagged A) -> list edge :=
  pick l.

Lemma pick_nil_l l rb : pick l [] rb = [].
Proof. induction l as [|[s [x y]] t IH]; cbn [FuzzyModel.pick tgmem existsb andb app]; auto. Qed.
Lemma pick_nil_r l ra : pick l ra [] = [].
Proof. induction l as [|[s [x y]] t IH]; cbn [FuzzyModel.pick tgmem existsb]; auto. rewrite andb_false_r. cbn [app]. now destruct ra. Qed.

Lemma pick_cons s x y (t : list (scored A)) ra rb : from_sets SA SB (@cons (scored A) (s, (x, y)) t) -> incl ra SA -> incl rb SB ->
  exists ra' rb', incl ra' SA /\ incl rb' SB /\
  ((In x ra /\ In y rb /\ pick (@cons (scored A) (s, (x, y)) t) ra rb = (x, y) :: pick t ra' rb' /\
     (forall z, In z ra' <-> In z ra /\ z <> x) /\ (forall z, In z rb' <-> In z rb /\ z <> y)) \/
   (~ (In x ra /\ In y rb) /\ pick (@cons (scored A) (s, (x, y)) t) ra rb = pick t ra' rb' /\ ra' = ra /\ rb' = rb)).
Proof.
  intros Hf Ha Hb. destruct (Hf s x y (or_introl eq_refl)) as [Fx Fy]. cbn [FuzzyModel.pick].
  assert (Mx := tgmem_in aeqb afalsy OK SA x ra UA Fx Ha). assert (My := tgmem_in aeqb afalsy OK SB y rb UB Fy Hb).
  destruct (tgmem aeqb x ra && tgmem aeqb y rb) eqn:E.
  - apply andb_true_iff in E as [E1 E2]. exists (tgremove aeqb x ra), (tgremove aeqb y rb).
    split; [now apply tgremove_incl|]. split; [now apply tgremove_incl|]. left.
    split; [now apply Mx|]. split; [now apply My|]. split.
    + cbn [app]. f_equal. destruct (tgremove aeqb x ra) eqn:R; [now rewrite pick_nil_l|].
      destruct (tgremove aeqb y rb) eqn:R2; [now rewrite pick_nil_r|]. reflexivity.
    + split; intros z; [apply (tgremove_in aeqb afalsy OK SA)|apply (tgremove_in aeqb afalsy OK SB)]; auto.
  - exists ra, rb. split; auto. split; auto. right. split; [|split; [|auto]].
    + intros [I1 I2]. apply Mx in I1. apply My in I2. rewrite I1, I2 in E. discriminate.
    + cbn [app]. destruct ra; [now rewrite pick_nil_l|]. destruct rb; [now rewrite pick_nil_r|]. reflexivity.
Qed.

Lemma pick_greedy l : forall ra rb, from_sets SA SB l -> incl ra SA -> incl rb SB -> NoDup (map snd l) ->
  forall e, In e l -> (In (snd e) (pick l ra rb) <->
    In (fst (snd e)) ra /\ In (snd (snd e)) rb /\ forall e', before l e' e -> clash e' e -> ~ In (snd e') (pick l ra rb)).
Proof.
  induction l as [|[s [x y]] t IH]; intros ra rb Hf Ha Hb D e I; [destruct I|].
  assert (Hf' : from_sets SA SB t) by (intros s' a b H; eapply Hf; right; eauto).
  cbn [map snd] in D. inversion_clear D as [|? ? N D'].
  destruct (pick_cons s x y t ra rb Hf Ha Hb) as (ra'&rb'&Ha'&Hb'&Hp).
  assert (Nt : ~ In (x, y) (pick t ra' rb')).
  { intros H. apply (pick_in aeqb afalsy OK SA SB UA UB) in H as (_&_&s'&H); auto. apply N. apply in_map_iff. exists (s', (x, y)). auto. }
  assert (Et : forall e', In e' t -> snd e' <> (x, y)).
  { intros e' I' E. apply N. rewrite <- E. now apply in_map. }
  destruct I as [<-|I].
  - cbn [snd fst before]. split.
    + intros H. assert (B : forall e', (((s, (x, y)) = e' /\ In (s, (x, y)) t) \/ before t e' (s, (x, y))) -> False).
      { intros e' [[_ B]|B]; [|apply before_in in B as [_ B]]; apply Et in B; cbn in B; congruence. }
      destruct Hp as [(I1&I2&_)|(_&Hp&_)].
      * repeat split; auto. intros e' B'. destruct (B e' B').
      * rewrite Hp in H. tauto.
    + intros (I1&I2&_). destruct Hp as [(_&_&->&_)|(Hn&_)]; [now left|tauto].
  - assert (Ne : snd e <> (x, y)) by now apply Et.
    specialize (IH ra' rb' Hf' Ha' Hb' D' e I).
    destruct Hp as [(I1&I2&Hp&Ra&Rb)|(Hn&Hp&->&->)]; rewrite Hp.
    + cbn [In before]. split.
      * intros [H|H]; [congruence|]. apply IH in H as (J1&J2&J3). apply Ra in J1 as [J1 K1]. apply Rb in J2 as [J2 K2].
        repeat split; auto. intros e' [[<- _]|B] Cl.
        -- destruct Cl as [Cl|Cl]; cbn in Cl; congruence.
        -- intros [E|H]; [apply before_in in B as [B _]; apply Et in B; congruence|]. apply (J3 e'); auto.
      * intros (J1&J2&J3). right. apply IH. repeat split.
        -- apply Ra. split; auto. intros E. apply (J3 (s, (x, y))); [auto|left; cbn; auto|now left].
        -- apply Rb. split; auto. intros E. apply (J3 (s, (x, y))); [auto|right; cbn; auto|now left].
        -- intros e' B Cl H. apply (J3 e'); auto.
    + rewrite IH. cbn [before]. split.
      * intros (J1&J2&J3). repeat split; auto. intros e' [[<- _]|B] Cl; [cbn [snd]; auto|]. now apply J3.
      * intros (J1&J2&J3). repeat split; auto.
Qed.

Definition base : list (scored A) := flat_map (entry_of aeqb afalsy) (list_prod SA SB).

Lemma fm_base : fuzzy_match aeqb afalsy SA SB = pick (sorted_rev base) SA SB.
Proof. unfold fuzzy_match. rewrite (collect_spec aeqb afalsy OK) by (intros ? ? ? []). reflexivity. Qed.

Lemma entry_one z e : In e (entry_of aeqb afalsy z) -> entry_of aeqb afalsy z = [e] /\ snd e = z.
Proof. unfold entry_of. destruct (Nat.eqb _ 0); [intros []|]. intros [<-|[]]. auto. Qed.

Lemma list_prod_nodup {X Y} (l : list X) (m : list Y) : NoDup l -> NoDup m -> NoDup (list_prod l m).
Proof.
  intros Dl Dm. induction Dl as [|x t Hx D IH]; cbn [list_prod]; [constructor|].
  apply NoDup_app_intro; auto.
  - apply FinFun.Injective_map_NoDup; auto. intros a b E. now inversion E.
  - intros [u v] H1 H2. apply in_map_iff in H1 as (z&E&_). apply in_prod_iff in H2 as [H2 _]. inversion E; subst. auto.
Qed.

Lemma base_snd : NoDup (map snd base) /\ NoDup base.
Proof.
  assert (D : NoDup (list_prod SA SB)) by (apply list_prod_nodup; [apply UA|apply UB]).
  assert (G : NoDup (map snd base)).
  { unfold base. induction D as [|z t Hz D IH]; cbn [flat_map map]; [constructor|].
    rewrite map_app. apply NoDup_app_intro; auto.
    - unfold entry_of. destruct (Nat.eqb _ 0); repeat constructor; auto.
    - intros e H1 H2. apply in_map_iff in H1 as (u&<-&H1), H2 as (v&E&H2). apply entry_one in H1 as [_ E1].
      apply in_flat_map in H2 as (z'&I&H2). apply entry_one in H2 as [_ E2]. apply Hz. congruence. }
  split; auto. now apply NoDup_map_inv in G.
Qed.

Lemma base_in e : In e base <-> In (fst (snd e)) SA /\ In (snd (snd e)) SB /\ In e (entry_of aeqb afalsy (snd e)).
Proof.
  unfold base. rewrite in_flat_map. split.
  - intros ([x y]&I&H). pose proof (entry_one _ _ H) as [_ E]. apply in_prod_iff in I. rewrite E. cbn [fst snd]. tauto.
  - intros (I1&I2&H). exists (snd e). split; auto. destruct e as [s [x y]]. now apply in_prod_iff.
Qed.

Lemma base_before e e' : In e base -> In e' base ->
  (before base e e' <-> before SA (fst (snd e)) (fst (snd e')) \/ (fst (snd e) = fst (snd e') /\ before SB (snd (snd e)) (snd (snd e')))).
Proof.
  intros I I'. unfold base. rewrite (before_flat (entry_of aeqb afalsy) snd _ e e' (entry_one)).
  apply base_in in I as (I1&I2&I3), I' as (J1&J2&J3). destruct e as [s [x y]], e' as [s' [x' y']]. cbn [fst snd] in *.
  rewrite before_prod by (apply UA || apply UB || auto). tauto.
Qed.

Lemma picked_greedy : greedy clash (sorted_rev base) (fun e => In (snd e) (fuzzy_match aeqb afalsy SA SB)).
Proof.
  intros e I. rewrite fm_base.
  assert (P := sorted_rev_perm base).
  assert (F : from_sets SA SB (sorted_rev base)).
  { intros s x y H. apply (Permutation_in _ P) in H. apply base_in in H as (H1&H2&_). auto. }
  rewrite (pick_greedy (sorted_rev base) SA SB F (incl_refl _) (incl_refl _)); auto.
  - destruct e as [s [x y]]. destruct (F s x y I). cbn [fst snd]. tauto.
  - eapply Permutation_NoDup; [apply Permutation_map, Permutation_sym, P|]. apply base_snd.
Qed.
End Sets.

Definition flips (e : scored A) : scored A := (fst e, flip (snd e)).
Lemma flips_inj x y : flips x = flips y -> x = y.
Proof. destruct x as [s [a b]], y as [s' [a' b']]. unfold flips, flip. cbn. congruence. Qed.

Lemma entry_flip z e : In e (entry_of aeqb afalsy z) <-> In (flips e) (entry_of aeqb afalsy (flip z)).
Proof.
  destruct z as [x y]. unfold entry_of, flip. cbn [fst snd]. rewrite (score_sym (fst y) (fst x)).
  destruct (Nat.eqb _ 0); cbn [In]; [tauto|]. destruct e as [s [u v]]. unfold flips, flip. cbn [fst snd].
  split; intros [E|[]]; left; inversion E; subst; auto.
Qed.

Theorem fuzzy_flip SA SB : is_set aeqb SA -> is_set aeqb SB ->
  Permutation (fuzzy_match aeqb afalsy SB SA) (map flip (fuzzy_match aeqb afalsy SA SB)).
Proof.
  intros UA UB.
  assert (Nd : forall SA SB, is_set aeqb SA -> is_set aeqb SB -> NoDup (fuzzy_match aeqb afalsy SA SB)).
  { intros S T US UT. rewrite fm_base. eapply NoDup_map_inv.
    apply (pick_once aeqb afalsy OK S T US UT); try apply incl_refl.
    intros s x y H. apply (Permutation_in _ (sorted_rev_perm _)) in H. apply base_in in H as (H1&H2&_). auto. }
  assert (In_base : forall SA SB, is_set aeqb SA -> is_set aeqb SB -> forall p, In p (fuzzy_match aeqb afalsy SA SB) -> exists e, In e (base SA SB) /\ snd e = p).
  { intros S T US UT [x y] H. rewrite fm_base in H. apply (pick_in aeqb afalsy OK S T US UT) in H as (_&_&s&H); try apply incl_refl.
    - apply (Permutation_in _ (sorted_rev_perm _)) in H. exists (s, (x, y)). auto.
    - intros s a b H'. apply (Permutation_in _ (sorted_rev_perm _)) in H'. apply base_in in H' as (H1&H2&_). auto. }
  assert (Bf : forall e, In e (base SA SB) <-> In (flips e) (base SB SA)).
  { intros e. rewrite !base_in. rewrite (entry_flip (snd e) e). unfold flips. cbn [fst snd flip]. tauto. }
  assert (Sr : forall S T e, In e (sorted_rev (base S T)) <-> In e (base S T)).
  { intros S T e. split; apply Permutation_in; [|apply Permutation_sym]; apply sorted_rev_perm. }
  assert (FF : forall p : edge, flip (flip p) = p) by (intros [? ?]; reflexivity).
  assert (FS : forall e, flips (flips e) = e) by (intros [? [? ?]]; reflexivity).
  assert (Key : forall e, In e (base SA SB) -> (In (snd e) (fuzzy_match aeqb afalsy SA SB) <-> In (flip (snd e)) (fuzzy_match aeqb afalsy SB SA))).
  { intros e I. pose proof (base_snd SA SB UA UB) as [_ D]. pose proof (base_snd SB SA UB UA) as [_ D2].
    apply (greedy_unique clash (sorted_rev (base SA SB)) (map flips (sorted_rev (base SB SA)))
             (fun e => In (snd e) (fuzzy_match aeqb afalsy SA SB)) (fun e => In (flip (snd e)) (fuzzy_match aeqb afalsy SB SA))).
    - eapply Permutation_NoDup; [apply Permutation_sym, sorted_rev_perm|exact D].
    - intros u. rewrite Sr, in_map_iff. split.
      + intros H. exists (flips u). split; auto. apply Sr. now apply Bf.
      + intros (v&<-&H). apply Sr in H. apply Bf. now rewrite FS.
    - intros u v Iu Iv Cl. apply Sr in Iu, Iv. rewrite <- (FS u), <- (FS v) at 2. rewrite (before_map flips) by apply flips_inj.
      rewrite !before_sorted by auto.
      assert (Wf : forall e, weight (flips e) = weight e) by (intros [? ?]; reflexivity). rewrite !Wf.
      pose proof (proj1 (Bf u) Iu) as Iu'. pose proof (proj1 (Bf v) Iv) as Iv'.
      rewrite (base_before SA SB UA UB v u), (base_before SB SA UB UA (flips v) (flips u)) by auto.
      destruct u as [s [x y]], v as [s' [x' y']]. unfold flips, flip, clash in *. cbn [fst snd] in *.
      assert (Nx : ~ before SA x x) by (apply before_irrefl, UA). assert (Ny : ~ before SB y y) by (apply before_irrefl, UB).
      destruct Cl as [->| ->]; tauto.
    - now apply picked_greedy.
    - intros u Iu. apply in_map_iff in Iu as (v&<-&Iv). unfold flips at 1. cbn [snd]. rewrite FF.
      pose proof (picked_greedy SB SA UB UA v Iv) as G. cbv beta in G. rewrite G. split.
      + intros H e' B Cl. pose proof (before_in _ _ _ B) as [Ie' _]. apply in_map_iff in Ie' as (z&<-&Iz).
        rewrite (before_map flips) in B by apply flips_inj. unfold flips at 1. cbn [snd]. rewrite FF. apply H; auto.
        unfold clash, flips, flip in *. cbn [fst snd] in *. tauto.
      + intros H e' B Cl M. apply (H (flips e')).
        * rewrite (before_map flips) by apply flips_inj. exact B.
        * unfold clash, flips, flip in *. cbn [fst snd] in *. tauto.
        * unfold flips. cbn [snd]. now rewrite FF.
    - now apply Sr. }
  apply NoDup_Permutation; auto.
  - apply FinFun.Injective_map_NoDup; auto. intros [a b] [c d] E. unfold flip in E. cbn in E. congruence.
  - intros p. rewrite in_map_iff. split.
    + intros H. destruct (In_base SB SA UB UA p H) as (e&Ie&<-). exists (flip (snd e)). split; [apply FF|].
      assert (Ie' : In (flips e) (base SA SB)) by (apply Bf; now rewrite FS).
      pose proof (Key (flips e) Ie') as K. unfold flips in K. cbn [snd] in K. rewrite FF in K. now apply K.
    + intros (q&<-&H). destruct (In_base SA SB UA UB q H) as (e&Ie&<-). now apply Key.
Qed.
End Flip.
