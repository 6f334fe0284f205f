(** Proofs about classes and their attributes. *)
From Coq Require Import String List NArith Bool Arith Lia.
Import ListNotations.
From Verif Require Import Prelude TraitModel TraitProofs MetaModel MetaProofs MetaProps ClassModel ClassSpec.
Local Open Scope list_scope.

(** ** Linearisation keeps the order of the bases' classes *)
Lemma good_head_first h : forall cands ls, good_head cands ls = Some h -> in_tails h ls = false.
Proof.
  induction cands as [|[|x l] cands IH]; intros ls; simpl; [discriminate|auto|].
  destruct (in_tails x ls) eqn:e; [auto|]. intros E; injection E as <-. auto.
Qed.
Lemma nmem_in n l : nmem n l = true <-> In n l.
Proof.
  unfold nmem. rewrite existsb_exists. split.
  - intros (m & i & e). apply Nat.eqb_eq in e. now subst.
  - intros i. exists n. split; auto. apply Nat.eqb_refl.
Qed.
Lemma c3_merge_order fuel : forall ls r, c3_merge fuel ls = Some r ->
  forall l pre x post, In l ls -> l = pre ++ x :: post -> 
  exists pre' post', r = pre' ++ x :: post' /\ incl pre pre' /\ ~ In x pre'.
Proof.
  induction fuel as [|n IH]; simpl; [discriminate|]. intros ls r.
  destruct (forallb _ ls) eqn:e.
  { intros _ l pre x post i ->. rewrite forallb_forall in e. specialize (e _ i). destruct pre; discriminate. }
  destruct (good_head ls ls) as [h|] eqn:eh; [|discriminate].
  destruct (c3_merge n (map (drop_head h) ls)) as [r'|] eqn:em; [|discriminate].
  intros E l pre x post i el. injection E as <-.
  apply good_head_first in eh.
  assert (nt : ~ In h (tl l)).
  { intros j. rewrite <- not_true_iff_false in eh. apply eh. unfold in_tails. apply existsb_exists. exists l.
    split; auto. now apply nmem_in. }
  destruct (Nat.eq_dec x h) as [->|ne].
  - destruct pre as [|y pre]; [|exfalso; apply nt; rewrite el; simpl; apply in_or_app; right; simpl; auto].
    exists [], r'. split; auto. split; [intros ? []|intros []].
  - assert (id : In (drop_head h l) (map (drop_head h) ls)) by (now apply in_map).
    destruct pre as [|y pre].
    + assert (ed : drop_head h l = [] ++ x :: post).
      { rewrite el. simpl. destruct (Nat.eqb_spec x h); [contradiction|auto]. }
      destruct (IH _ _ em _ _ _ _ id ed) as (pre' & post' & -> & _ & nx). exists (h :: pre'), post'.
      split; auto. split; [intros ? []|]. intros [?|?]; [congruence|auto].
    + destruct (Nat.eq_dec y h) as [->|ny].
      * assert (ed : drop_head h l = pre ++ x :: post) by (rewrite el; simpl; now rewrite Nat.eqb_refl).
        destruct (IH _ _ em _ _ _ _ id ed) as (pre' & post' & -> & inc & nx). exists (h :: pre'), post'.
        split; auto. split; [intros z [<-|j]; [left; auto|right; auto]|]. intros [?|?]; [congruence|auto].
      * assert (ed : drop_head h l = (y :: pre) ++ x :: post).
        { rewrite el. simpl. destruct (Nat.eqb_spec y h); [contradiction|auto]. }
        destruct (IH _ _ em _ _ _ _ id ed) as (pre' & post' & -> & inc & nx). exists (h :: pre'), post'.
        split; auto. split; [intros z j; right; auto|]. intros [?|?]; [congruence|auto].
Qed.

(** ** The first class that has a name *)
Lemma firstm_some {A B} (f : A -> option B) l v : firstm f l = Some v ->
  exists pre x post, l = pre ++ x :: post /\ f x = Some v /\ forall y, In y pre -> f y = None.
Proof.
  induction l as [|a l IH]; simpl; [discriminate|]. destruct (f a) as [b|] eqn:e.
  - intros E; injection E as ->. exists [], a, l. split; auto. split; auto. intros ? [].
  - intros E. destruct (IH E) as (pre & x & post & -> & h1 & h2). exists (a :: pre), x, post.
    split; auto. split; auto. intros y [<-|i]; auto.
Qed.
Lemma firstm_none_all {A B} (f : A -> option B) l : firstm f l = None <-> forall x, In x l -> f x = None.
Proof.
  induction l as [|a l IH]; simpl; [split; auto; intros _ ? []|]. destruct (f a) eqn:e; split.
  - discriminate. - intros h. assert (f a = None) by (apply h; auto). congruence.
  - intros h x [<-|i]; auto. now apply IH. - intros h. apply IH. auto.
Qed.
Lemma firstm_here {A B} (f : A -> option B) pre x post v : f x = Some v -> (forall y, In y pre -> f y = None) ->
  firstm f (pre ++ x :: post) = Some v.
Proof. intros e. induction pre as [|a pre IH]; simpl; intros h; [now rewrite e|]. rewrite (h a) by auto. apply IH; auto. Qed.

Lemma dget_dupdate_other {X} n (e : list (str * X)) : forall d, ~ In n (map fst e) -> dget n (dupdate d e) = dget n d.
Proof.
  induction e as [|[m x] e IH]; simpl; intros d h; auto. unfold dupdate in *. simpl. rewrite IH by tauto.
  rewrite dget_dset. destruct (str_eqb n m) eqn:em; auto. apply str_eqb_eq in em. subst. tauto.
Qed.
Lemma dget_dupdate_in {X} n (e : list (str * X)) : forall d v, dget n (dupdate d e) = Some v ->
  dget n d = Some v \/ In (n, v) e.
Proof.
  induction e as [|[m x] e IH]; simpl; intros d v h; auto. destruct (IH _ _ h) as [h1|h1]; auto.
  rewrite dget_dset in h1. destruct (str_eqb n m) eqn:em; auto. apply str_eqb_eq in em. subst. injection h1 as ->. auto.
Qed.
Lemma dget_dupdate_some {X} n (e : list (str * X)) : forall d, dget n d <> None -> dget n (dupdate d e) <> None.
Proof.
  induction e as [|[m x] e IH]; simpl; intros d h; auto. apply IH. rewrite dget_dset. destruct (str_eqb n m); auto. discriminate.
Qed.

(** ** One class statement *)
Section Step.
Variable w : list klass.
Variable bases : list klass.

Lemma linearise_spec self mro : linearise self bases = Some mro ->
  exists r, mro = self :: r /\
    (forall x, In x r <-> (exists b, In b bases /\ In x (k_mro b)) \/ exists b, In b bases /\ k_id b = x) /\
    (forall b pre x post, In b bases -> k_mro b = pre ++ x :: post ->
       exists pre' post', r = pre' ++ x :: post' /\ incl pre pre' /\ ~ In x pre').
Proof.
  unfold linearise. destruct (c3_merge _ _) as [r|] eqn:e; [|discriminate]. intros E; injection E as <-.
  exists r. split; auto. split.
  - intros x. rewrite (c3_merge_in _ _ _ e). split.
    + intros (l & i & j). apply in_app_or in i as [i|[<-|[]]].
      * apply in_map_iff in i as (b & <- & i). left; eauto.
      * apply in_map_iff in j as (b & <- & i). right; eauto.
    + intros [(b & i & j)|(b & i & <-)].
      * exists (k_mro b). split; auto. apply in_or_app. left. now apply in_map.
      * exists (map k_id bases). split; [apply in_or_app; right; simpl; auto|now apply in_map].
  - intros b pre x post i eb. eapply (c3_merge_order _ _ _ e (k_mro b)); eauto.
    apply in_or_app. left. now apply in_map.
Qed.
End Step.

(** ** The invariant *)
Record sound (w : list klass) : Prop := {
  s_id : forall k, In k w -> k_id k < length w /\ class_no w (k_id k) = Some k;
  s_mro : forall k, In k w -> exists r, k_mro k = k_id k :: r /\ forall i, In i r -> i < k_id k /\ exists e, In e w /\ k_id e = i;
  s_dict : forall k ps, In k w -> k_props k = Some ps -> NoDup (map fst ps);
  s_attrs : forall k, In k w -> NoDup (map fst (k_attrs k));
  (* names of properties are inherited *)
  s_down : forall k e, In k w -> In e w -> In (k_id e) (k_mro k) -> forall n p, property_of e n p -> exists q, property_of k n q;
  (* a property in a class's dict is the one in its [properties] *)
  s_own : forall k n p, In k w -> k_props k <> None -> In (n, AProp p) (k_attrs k) -> property_of k n p;
  (* some class has each *)
  s_held : forall k n p, In k w -> property_of k n p -> lookup_attr w k n <> None;
  (* and what is found is right *)
  s_found : only_in_records w -> forall k n p, In k w -> lookup_attr w k n = Some (AProp p) -> property_of k n p
}.

Lemma class_no_new k w i : k_id k = length w -> (forall e, In e w -> k_id e < length w) ->
  class_no (k :: w) i = if Nat.eqb (length w) i then Some k else class_no w i.
Proof. intros e _. unfold class_no. simpl. now rewrite e. Qed.

Lemma class_no_in w i k : class_no w i = Some k -> In k w /\ k_id k = i.
Proof. intros h. apply find_some in h as [h1 h2]. apply Nat.eqb_eq in h2. auto. Qed.

Lemma lookup_old k w c n : sound w -> k_id k = length w -> In c w -> lookup_attr (k :: w) c n = lookup_attr w c n.
Proof.
  intros s e i. unfold lookup_attr. apply firstm_ext. intros x j.
  assert (l : x < length w).
  { destruct (s_mro _ s _ i) as (r & er & hr). rewrite er in j. destruct j as [<-|j]; [apply (s_id _ s _ i)|].
    apply hr in j as [h _]. pose proof (proj1 (s_id _ s _ i)). lia. }
  unfold own. rewrite class_no_new; auto; [|intros; now apply (s_id _ s)].
  destruct (Nat.eqb_spec (length w) x); [lia|reflexivity].
Qed.

(** a new class, of which is known: *)
Section New.
Variable w : list klass.
Hypothesis s : sound w.
Variable bases : list klass.
Hypothesis hb : incl bases w.
Variable k : klass.
Hypothesis hid : k_id k = length w.
Hypothesis hm : linearise (length w) bases = Some (k_mro k).
Hypothesis hattrs : NoDup (map fst (k_attrs k)).
Hypothesis hdict : forall ps, k_props k = Some ps -> NoDup (map fst ps).
(* its properties: those in its own dict, else those of one base *)
Hypothesis hown : forall n p, k_props k <> None -> In (n, AProp p) (k_attrs k) -> property_of k n p.
Hypothesis hinh : forall b n p, In b bases -> property_of b n p -> 
  exists q, property_of k n q /\ (dget n (k_attrs k) = None -> q = p).
Hypothesis hsrc : forall n p, property_of k n p -> dget n (k_attrs k) <> None \/ exists b, In b bases /\ property_of b n p.

Lemma bases_mro b : In b bases -> In (k_id b) (k_mro b).
Proof. intros i. destruct (s_mro _ s _ (hb _ i)) as (r & -> & _). simpl; auto. Qed.

Lemma new_mro : exists r, k_mro k = length w :: r /\
  (forall x, In x r <-> exists b, In b bases /\ In x (k_mro b)) /\
  (forall b pre x post, In b bases -> k_mro b = pre ++ x :: post ->
       exists pre' post', r = pre' ++ x :: post' /\ incl pre pre' /\ ~ In x pre').
Proof.
  destruct (linearise_spec _ _ _ hm) as (r & e & h1 & h2). exists r. split; auto. split; auto.
  intros x. rewrite h1. split; [|eauto]. intros [h|(b & i & <-)]; auto. exists b. split; auto. now apply bases_mro.
Qed.
Lemma rest_old r x : k_mro k = length w :: r -> In x r -> exists e, In e w /\ k_id e = x.
Proof.
  intros e i. destruct new_mro as (r' & e' & h & _). rewrite e in e'. injection e' as <-. apply h in i as (b & ib & j).
  destruct (s_mro _ s _ (hb _ ib)) as (q & eq & hq). rewrite eq in j. destruct j as [<-|j]; [exists b; auto|].
  now apply hq in j as [_ j].
Qed.
Lemma own_old n x : (exists e, In e w /\ k_id e = x) -> own (k :: w) n x = own w n x.
Proof.
  intros (e & i & <-). unfold own. rewrite class_no_new; auto; [|intros; now apply (s_id _ s)].
  destruct (s_id _ s _ i) as [l _]. destruct (Nat.eqb_spec (length w) (k_id e)); [lia|reflexivity].
Qed.
Lemma own_new n : own (k :: w) n (length w) = dget n (k_attrs k).
Proof. unfold own. rewrite class_no_new; auto; [|intros; now apply (s_id _ s)]. now rewrite Nat.eqb_refl. Qed.

Lemma old_in_new e : In e w -> class_no (k :: w) (k_id e) = Some e.
Proof.
  intros i. rewrite class_no_new; auto; [|intros; now apply (s_id _ s)]. destruct (s_id _ s _ i) as [l h].
  destruct (Nat.eqb_spec (length w) (k_id e)); [lia|auto].
Qed.

Lemma new_sound : sound (k :: w).
Proof.
  destruct new_mro as (r & er & hr & ho).
  split.
  - intros c [<-|i].
    + split; [simpl; lia|]. rewrite class_no_new; auto; [|intros; now apply (s_id _ s)]. now rewrite hid, Nat.eqb_refl.
    + split; [simpl; pose proof (proj1 (s_id _ s _ i)); lia|now apply old_in_new].
  - intros c [<-|i].
    + exists r. rewrite hid. split; auto. intros x j. destruct (rest_old r x er j) as (e & ie & <-).
      split; [apply (s_id _ s _ ie)|exists e; simpl; auto].
    + destruct (s_mro _ s _ i) as (q & eq & hq). exists q. split; auto. intros x j. destruct (hq _ j) as (l & e & ie & <-).
      split; auto. exists e. simpl; auto.
  - intros c ps [<-|i]; auto. now apply (s_dict _ s).
  - intros c [<-|i]; auto. now apply (s_attrs _ s).
  - intros c e ic ie j n p hp. destruct ic as [<-|ic].
    + rewrite er in j. destruct ie as [<-|ie]; [eauto|]. destruct j as [j|j]; [pose proof (proj1 (s_id _ s _ ie)); lia|].
      apply hr in j as (b & ib & j). destruct (s_down _ s _ _ (hb _ ib) ie j n p hp) as [q hq].
      destruct (hinh b n q ib hq) as (q' & h & _). eauto.
    + destruct ie as [<-|ie]; [|exact (s_down _ s c e ic ie j n p hp)]. exfalso. rewrite hid in j.
      destruct (s_mro _ s _ ic) as (q & eq & hq). rewrite eq in j. pose proof (proj1 (s_id _ s _ ic)).
      destruct j as [j|j]; [lia|]. apply hq in j as [l _]. lia.
  - intros c n p [<-|i]; auto. now apply (s_own _ s).
  - intros c n p [<-|i] hp.
    + unfold lookup_attr. rewrite er. cbn [firstm]. rewrite own_new. destruct (dget n (k_attrs k)) eqn:e; [discriminate|].
      destruct (hsrc n p hp) as [h|(b & ib & hp')]; [congruence|].
      pose proof (s_held _ s b n p (hb _ ib) hp') as h. intros h2. apply h. unfold lookup_attr.
      apply firstm_none_all. intros x j. rewrite firstm_none_all in h2.
      assert (jr : In x r) by (apply hr; eauto). specialize (h2 x jr). rewrite own_old in h2; auto. exact (rest_old r x er jr).
    + rewrite (lookup_old k); auto. now apply (s_held _ s) with p.
  - intros ho' c n p ic hl.
    assert (how : only_in_records w) by (intros e m q ie; apply ho'; simpl; auto).
    destruct ic as [<-|i].
    2:{ rewrite (lookup_old k) in hl; auto. apply (s_found _ s how); auto. }
    unfold lookup_attr in hl. rewrite er in hl. cbn [firstm] in hl. rewrite own_new in hl.
    destruct (dget n (k_attrs k)) as [v|] eqn:ed.
    + injection hl as ->. apply dget_in in ed. destruct (k_props k) as [ps|] eqn:ek.
      * apply hown; auto. congruence.
      * exfalso. exact (ho' k n p (or_introl eq_refl) ek ed).
    + destruct (firstm_some _ _ _ hl) as (pre & x & post & e1 & e2 & e3).
      assert (jr : In x r) by (rewrite e1; apply in_or_app; right; simpl; auto).
      rewrite own_old in e2 by exact (rest_old r x er jr).
      pose proof jr as jb. apply hr in jb as (b & ib & jb).
      assert (hlb : lookup_attr w b n = Some (AProp p)).
      { apply in_split in jb as (p1 & p2 & eb). 
        assert (first : exists q1 q2, k_mro b = q1 ++ x :: q2 /\ ~ In x q1).
        { clear -eb. revert eb. generalize (k_mro b) as l. intros l. revert p1. induction l as [|a l IH]; intros p1 eb.
          - destruct p1; discriminate.
          - destruct (Nat.eq_dec a x) as [->|ne]; [exists [], l; split; auto|].
            destruct p1 as [|a' p1]; simpl in eb; injection eb as -> eb; [congruence|].
            destruct (IH _ eb) as (q1 & q2 & -> & h). exists (a' :: q1), q2. split; auto. intros [?|?]; auto. }
        destruct first as (q1 & q2 & eq & nq). unfold lookup_attr. rewrite eq. apply firstm_here; auto.
        intros y iy. destruct (ho b q1 x q2 ib eq) as (pre' & post' & e4 & inc & nx).
        assert (epre : pre' = pre \/ In x pre).
        { destruct (in_dec Nat.eq_dec x pre) as [i|i]; [right; exact i|left].
          rewrite e1 in e4. clear -e4 i nx. revert pre i e4. induction pre' as [|a pre' IH]; intros pre i e4.
          - destruct pre as [|b pre]; auto. simpl in e4. injection e4 as -> _. exfalso. apply i. simpl; auto.
          - destruct pre as [|b pre]; simpl in e4; injection e4 as e e4; [subst; exfalso; apply nx; simpl; auto|].
            subst b. f_equal. apply IH; auto; intros j; [apply nx|apply i]; simpl; auto. }
        destruct epre as [->|ix].
        - apply inc in iy. rewrite <- own_old; [now apply e3|]. apply (rest_old r y er). rewrite e1. apply in_or_app; auto.
        - exfalso. apply e3 in ix. rewrite own_old in ix by exact (rest_old r x er jr). congruence. }
      apply (s_found _ s how) in hlb; auto. destruct (hinh b n p ib hlb) as (q & hq & e4). now rewrite e4 in hq.
Qed.
End New.

(** ** All programs *)
Lemma new_record_struct w h bases attrs pk k : sound w -> incl bases w -> dict attrs ->
  new_record w h bases attrs pk = Some k ->
  exists ps c h', k_props k = Some ps /\ declare_type h (length w) (map k_props bases) attrs pk = (h', MOk c) /\ c_props c = ps /\
    sane (map k_props bases) attrs /\
    k_id k = length w /\ linearise (length w) bases = Some (k_mro k) /\
    k_attrs k = dupdate (c_attrs c) (map (fun n => (n, AOther)) specials).
Proof.
  intros s hb hd. unfold new_record. destruct (declare_type _ _ _ _ _) as [h' [c|]] eqn:e; [|discriminate].
  destruct (linearise _ _) as [mro|] eqn:el; [|discriminate]. intros E; injection E as <-. simpl.
  exists (c_props c), c, h'. repeat split; auto. intros ps i. apply in_map_iff in i as (b & eb & i). apply (s_dict _ s b); auto.
Qed.

Lemma specials_dict : NoDup specials.
Proof. unfold specials. simpl. repeat (constructor; [intros h; repeat (destruct h as [h|h]; [discriminate|]); exact h|]). constructor. Qed.

Lemma record_sound w h bases attrs pk k : sound w -> incl bases w -> dict attrs ->
  new_record w h bases attrs pk = Some k -> sound (k :: w).
Proof.
  intros s hb hd hk. destruct (new_record_struct _ _ _ _ _ _ s hb hd hk) as (ps & c & h' & ep & ed & <- & hs & ei & em & ea).
  destruct (C34_properties _ _ _ _ _ _ _ hs ed) as [nd hp]. pose proof hs as [ha hbs].
  destruct (declare_struct _ _ _ _ _ _ _ hbs ha ed) as (_ & _ & _ & _ & _ & _ & _ & _ & eca).
  destruct (C34_accepted h (length w) (map k_props bases) attrs pk hs) as [ac _]. destruct ac as (noclash & _ & _); [eauto|].
  assert (kept : forall n v, In (n, v) attrs -> dget n (k_attrs k) <> None).
  { intros n v i. rewrite ea. apply dget_dupdate_some. rewrite eca. apply dget_dupdate_some. rewrite (in_dget _ _ _ ha i). discriminate. }
  assert (isp : forall n p, In (n, AProp p) (k_attrs k) -> In (n, AProp p) attrs).
  { assert (ndk : NoDup (map fst (k_attrs k))) by (rewrite ea; apply dupdate_nodup; rewrite eca; apply dupdate_nodup, ha).
    intros n p i. apply in_dget in i; auto. rewrite ea in i. apply dget_dupdate_in in i as [i|i].
    - rewrite eca in i. apply dget_dupdate_in in i as [i|i]; [now apply dget_in|]. apply in_map_iff in i as (x & e & _). discriminate.
    - apply in_map_iff in i as (x & e & _). discriminate. }
  assert (prop : forall n p, property_of k n p <-> has_prop (map k_props bases) attrs n p).
  { intros n p. rewrite <- hp. unfold property_of. rewrite ep. split; [intros (q & e & i); now injection e as <-|eauto]. }
  apply (new_sound w s bases hb k); auto.
  - rewrite ea. apply dupdate_nodup. rewrite eca. apply dupdate_nodup, ha.
  - rewrite ep. intros q e. injection e as <-. exact nd.
  - intros n p _ i. apply prop. left. auto.
  - intros b n p ib hbp.
    destruct (dget n attrs) as [[q| |]|] eqn:eg.
    1:{ exists q. split; [apply prop; left; now apply dget_in|]. intros e. apply dget_in in eg. now apply kept in eg. }
    all: exists p; split; auto; apply prop; right; split;
      [intros q i; rewrite (in_dget _ _ _ ha i) in eg; discriminate|];
      destruct hbp as (ps & e & i); exists ps; split; auto; apply in_map_iff; eauto.
  - intros n p h0. apply prop in h0 as [i|[_ (ps & i & j)]].
    + left. eapply kept; eauto.
    + right. apply in_map_iff in i as (b & e & i). exists b. split; auto. exists ps. auto.
Qed.

Lemma plain_sound w bases attrs k : sound w -> incl bases w -> dict attrs ->
  new_plain w bases attrs = Some k -> sound (k :: w).
Proof.
  intros s hb hd. unfold new_plain. destruct (existsb is_record bases) eqn:er; [discriminate|].
  destruct (linearise _ _) as [mro|] eqn:el; [|discriminate]. intros E; injection E as <-.
  assert (nr : forall b, In b bases -> k_props b = None).
  { intros b i. destruct (k_props b) eqn:e; auto. exfalso. rewrite <- not_true_iff_false in er. apply er.
    apply existsb_exists. exists b. split; auto. unfold is_record. now rewrite e. }
  apply (new_sound w s bases hb (Klass (length w) mro None attrs)); auto; simpl; try discriminate.
  - intros n p h. exfalso. apply h. reflexivity.
  - intros b n p ib (ps & e & _). rewrite (nr b ib) in e. discriminate.
  - intros n p (ps & e & _). discriminate.
Qed.

Lemma object_sound attrs : dict attrs -> sound [Klass 0 [0] None attrs].
Proof.
  intros hd. split; simpl.
  - intros k [<-|[]]. simpl. split; auto.
  - intros k [<-|[]]. exists []. split; auto. intros ? [].
  - intros k ps [<-|[]]. discriminate.
  - intros k [<-|[]]. exact hd.
  - intros k e [<-|[]] [<-|[]] _ n p (ps & h & _). discriminate.
  - intros k n p [<-|[]] h. exfalso. apply h. reflexivity.
  - intros k n p [<-|[]] (ps & h & _). discriminate.
  - intros ho k n p [<-|[]] h. exfalso. unfold lookup_attr, own, class_no in h. simpl in h. destruct (dget n attrs) eqn:e; [|discriminate].
    injection h as ->. apply dget_in in e. exact (ho (Klass 0 [0] None attrs) n p (or_introl eq_refl) eq_refl e).
Qed.

Lemma program_sound w : program w -> sound w.
Proof.
  induction 1 as [attrs hd|w h bases attrs pk k hp IH hb hd hk|w bases attrs k hp IH hb hd hk].
  - now apply object_sound. - eapply record_sound; eauto. - eapply plain_sound; eauto.
Qed.
