(** Lemmas about the composition of property types. *)
From Coq Require Import String List NArith Bool Lia Arith Sorting.Sorted.
Import ListNotations.
From Verif Require Import Prelude TraitModel.

(** ** Order of trait names, canonical tuples *)
Lemma str_cmp_eq a b : str_cmp a b = Eq <-> a = b.
Proof.
  revert b; induction a as [|x a IH]; intros [|y b]; simpl; try (split; congruence).
  destruct (N.compare_spec x y) as [->|h|h].
  - rewrite IH. split; congruence.
  - split; [discriminate|]. intros E; injection E as -> ->. lia.
  - split; [discriminate|]. intros E; injection E as -> ->. lia.
Qed.
Lemma str_cmp_anti a b : str_cmp b a = CompOpp (str_cmp a b).
Proof.
  revert b; induction a as [|x a IH]; intros [|y b]; simpl; auto.
  rewrite (N.compare_antisym x y). destruct (N.compare x y); simpl; auto.
Qed.
Lemma str_cmp_trans a b c : str_cmp a b = Lt -> str_cmp b c = Lt -> str_cmp a c = Lt.
Proof.
  revert b c; induction a as [|x a IH]; intros [|y b] [|z c]; simpl; try congruence.
  destruct (N.compare_spec x y) as [->|h|h]; try congruence.
  - destruct (N.compare_spec y z) as [->|h|h]; try congruence. apply IH.
  - intros _. destruct (N.compare_spec y z) as [->|k|k]; try congruence; intros _.
    + apply N.compare_lt_iff in h. now rewrite h.
    + assert (e : N.compare x z = Lt) by (apply N.compare_lt_iff; lia). now rewrite e.
Qed.
Definition slt (a b : str) : Prop := str_cmp a b = Lt.
Lemma slt_irrefl a : ~ slt a a.
Proof. unfold slt. assert (e : str_cmp a a = Eq) by now apply str_cmp_eq. congruence. Qed.

(** Trait tuples as [sorted] gives them: strictly increasing. *)
Definition canonical (k : list str) : Prop := StronglySorted slt k.

Lemma ins_in s x l : In x (ins s l) <-> x = s \/ In x l.
Proof.
  induction l as [|y l IH]; simpl; [intuition|].
  destruct (str_cmp s y) eqn:e; simpl.
  - apply str_cmp_eq in e as ->. intuition.
  - intuition.
  - rewrite IH. intuition.
Qed.
Lemma ins_canonical s l : canonical l -> canonical (ins s l).
Proof.
  unfold canonical. induction l as [|y l IH]; intros h; simpl.
  - repeat constructor.
  - inversion_clear h as [|? ? hs hf].
    destruct (str_cmp s y) eqn:e.
    + constructor; auto.
    + constructor; [constructor; auto|]. constructor; auto.
      eapply Forall_impl; [|apply hf]. intros z hz. eapply str_cmp_trans; eauto.
    + constructor; auto. apply Forall_forall. intros z hz. apply ins_in in hz as [->|hz].
      * unfold slt. rewrite str_cmp_anti, e. reflexivity.
      * eapply Forall_forall in hf; eauto.
Qed.
Lemma key_of_in s l : In s (key_of l) <-> In s l.
Proof. induction l as [|x l IH]; simpl; [intuition|]. rewrite ins_in, IH. intuition. Qed.
Lemma key_of_canonical l : canonical (key_of l).
Proof. induction l; simpl; [constructor|now apply ins_canonical]. Qed.

Lemma canonical_ext a b : canonical a -> canonical b -> (forall s, In s a <-> In s b) -> a = b.
Proof.
  unfold canonical. revert b; induction a as [|x a IH]; intros b ha hb h.
  - destruct b as [|y b]; auto. destruct (proj2 (h y)); simpl; auto.
  - destruct b as [|y b]; [destruct (proj1 (h x)); simpl; auto|].
    inversion_clear ha as [|? ? ha' fa]. inversion_clear hb as [|? ? hb' fb].
    rewrite Forall_forall in fa, fb.
    assert (x = y) as ->.
    { destruct (proj1 (h x)) as [e|i]; simpl; auto.
      destruct (proj2 (h y)) as [e|j]; simpl; auto.
      exfalso. apply (slt_irrefl x). eapply str_cmp_trans; [apply fa, j|apply fb, i]. }
    f_equal. apply IH; auto. intros s. split; intros i.
    + destruct (proj1 (h s)) as [e|j]; simpl; auto. subst s. exfalso. apply (slt_irrefl y), fa, i.
    + destruct (proj2 (h s)) as [e|j]; simpl; auto. subst s. exfalso. apply (slt_irrefl y), fb, i.
Qed.
Lemma canonical_nodup a : canonical a -> NoDup a.
Proof.
  unfold canonical. induction a as [|x a IH]; intros h; constructor; inversion_clear h as [|? ? h' f]; auto.
  intros i. rewrite Forall_forall in f. apply (slt_irrefl x), f, i.
Qed.

Lemma smem_in s l : smem s l = true <-> In s l.
Proof.
  unfold smem. rewrite existsb_exists. split.
  - intros [x [i e]]. apply str_eqb_eq in e. now subst.
  - intros i. exists s. split; auto. apply str_eqb_refl.
Qed.
Lemma smem_not s l : smem s l = false <-> ~ In s l.
Proof. rewrite <- smem_in. destruct (smem s l); split; congruence. Qed.
Lemma subset_incl a b : subset a b = true <-> incl a b.
Proof.
  unfold subset. rewrite forallb_forall. split; intros h s i.
  - apply smem_in; auto.
  - apply smem_in; auto.
Qed.
Lemma key_eqb_eq a b : key_eqb a b = true <-> a = b.
Proof. unfold key_eqb. destruct (key_eq_dec a b); split; congruence. Qed.

Lemma kins_in k x l : In x (kins k l) <-> x = k \/ In x l.
Proof.
  induction l as [|y l IH]; simpl; [intuition|].
  destruct (key_cmp k y); simpl; rewrite ?IH; intuition.
Qed.
Lemma ksort_in x l : In x (ksort l) <-> In x l.
Proof. induction l as [|y l IH]; simpl; [intuition|]. rewrite kins_in, IH. intuition. Qed.

(** Sub-tuples of a tuple: at most [2 ^ n]. *)
Fixpoint subs (l : list str) : list (list str) :=
  match l with
  | [] => [[]]
  | x :: l => subs l ++ map (cons x) (subs l)
  end.
Lemma subs_length l : length (subs l) = 2 ^ length l.
Proof. induction l; simpl; auto. rewrite app_length, map_length. lia. Qed.
Lemma subs_in w : canonical w -> forall k, canonical k -> incl k w -> In k (subs w).
Proof.
  unfold canonical. induction w as [|x w IH]; intros hw k hk hi; simpl.
  - destruct k as [|y k]; auto. destruct (hi y); simpl; auto.
  - inversion_clear hw as [|? ? hw' fw]. rewrite Forall_forall in fw. apply in_or_app.
    destruct k as [|y k].
    + left. apply IH; [exact hw'|exact hk|intros z []].
    + inversion hk as [|? ? hk' fk]; subst. rewrite Forall_forall in fk.
      destruct (str_eq_dec y x) as [->|ne].
      * right. apply in_map. apply IH; auto. intros z i. destruct (hi z) as [e|j]; simpl; auto.
        subst z. exfalso. apply (slt_irrefl x), fk, i.
      * left. apply IH; auto. intros z i. destruct (hi z) as [e|j]; simpl; auto. subst z.
        exfalso. destruct i as [e|i]; [congruence|].
        destruct (hi y) as [e|j]; simpl; auto.
        apply (slt_irrefl x). eapply str_cmp_trans; [apply fw, j|apply fk, i].
Qed.

(** ** Registries *)
Lemma assoc_in {X} k (l : list (list str * X)) x : assoc k l = Some x -> In (k, x) l.
Proof.
  induction l as [|[k' y] l IH]; simpl; [discriminate|].
  destruct (key_eqb k k') eqn:e.
  - intros E; injection E as ->. apply key_eqb_eq in e as ->. auto.
  - auto.
Qed.
Lemma assoc_nodup {X} k (l : list (list str * X)) x : NoDup (map fst l) -> In (k, x) l -> assoc k l = Some x.
Proof.
  induction l as [|[k' y] l IH]; simpl; [intros _ []|].
  intros hn [E|i].
  - injection E as -> ->. assert (e : key_eqb k k = true) by now apply key_eqb_eq. now rewrite e.
  - inversion_clear hn as [|? ? hni hn']. destruct (key_eqb k k') eqn:e.
    + exfalso. apply key_eqb_eq in e as ->. apply hni. change k' with (fst (k', x)). now apply in_map.
    + auto.
Qed.
Lemma assoc_none {X} k (l : list (list str * X)) : assoc k l = None <-> ~ In k (map fst l).
Proof.
  induction l as [|[k' y] l IH]; simpl; [intuition|].
  destruct (key_eqb k k') eqn:e.
  - apply key_eqb_eq in e as ->. split; [discriminate|]. intros h; exfalso; auto.
  - rewrite IH. assert (k <> k') by (intros E; apply key_eqb_eq in E; congruence).
    split; [intros h [E|i]|]; intuition.
Qed.
Lemma assoc_app {X} k (l m : list (list str * X)) x : assoc k l = Some x -> assoc k (l ++ m) = Some x.
Proof. induction l as [|[k' y] l IH]; simpl; [discriminate|]. destruct (key_eqb k k'); auto. Qed.
Lemma registered_keys R k : registered R k = true <-> In k (keys R).
Proof.
  unfold registered, lookup, keys. destruct (assoc k (r_types R)) eqn:e.
  - split; auto. intros _. apply assoc_in in e. change k with (fst (k, p)). now apply in_map.
  - apply assoc_none in e. split; [discriminate|]. intros; contradiction.
Qed.

(** [t] is a class of the registry; [i] is the number of the class [c]. *)
Definition known (R : reg) (t : ptype) : Prop := In (p_traits t, t) (r_types R).
Definition own_of (R : reg) (i : nat) (s : str) : Prop :=
  exists c, known R c /\ p_id c = i /\ p_own c = Some s.

(** Registries as they come about. *)
Record good (R : reg) : Prop := {
  g_keys : NoDup (keys R);
  g_traits : forall k t, In (k, t) (r_types R) -> p_traits t = k /\ canonical k;
  g_ids : map (fun kt => p_id (snd kt)) (r_types R) = seq 0 (length (r_types R));
  g_mro : forall t, known R t ->
    (exists l, p_mro t = p_id t :: l) /\ In 0 (p_mro t) /\
    (forall i, In i (p_mro t) -> exists c, known R c /\ p_id c = i);
  g_root : exists t, lookup R [] = Some t /\ p_id t = 0 /\ p_mro t = [0];
  g_own : forall t s, known R t -> (In s (p_traits t) <-> exists i, In i (p_mro t) /\ own_of R i s);
  g_ducks : forall a k t, In (a, (k, t)) (r_ducks R) -> In (k, t) (r_types R)
}.

Lemma lookup_known R k t : good R -> lookup R k = Some t -> known R t /\ p_traits t = k.
Proof.
  intros g h. apply assoc_in in h. destruct (g_traits _ g _ _ h) as [e _]. unfold known. rewrite e. auto.
Qed.
Lemma known_lookup R t : good R -> known R t -> lookup R (p_traits t) = Some t.
Proof. intros g h. apply assoc_nodup; auto. apply (g_keys _ g). Qed.

Lemma ids_inj {X} (l : list X) (f : X -> nat) n x y :
  map f l = seq n (length l) -> In x l -> In y l -> f x = f y -> x = y.
Proof.
  revert n; induction l as [|z l IH]; simpl; intros n e ix iy ef; [contradiction|].
  injection e as e0 e. destruct ix as [->|ix], iy as [->|iy]; auto.
  - exfalso. assert (i : In (f y) (map f l)) by now apply in_map. rewrite e in i. apply in_seq in i. lia.
  - exfalso. assert (i : In (f x) (map f l)) by now apply in_map. rewrite e in i. apply in_seq in i. lia.
  - eapply IH; eauto.
Qed.
Lemma known_inj R t u : good R -> known R t -> known R u -> p_id t = p_id u -> t = u.
Proof.
  intros g ht hu e.
  assert (E : (p_traits t, t) = (p_traits u, u)).
  { eapply (ids_inj (r_types R) (fun kt => p_id (snd kt)) 0); eauto. apply (g_ids _ g). }
  congruence.
Qed.
Lemma class_of_known R i t : good R -> class_of R i = Some t <-> known R t /\ p_id t = i.
Proof.
  intros g. unfold class_of. split.
  - destruct (find _ (r_types R)) as [[k u]|] eqn:e; [|discriminate]. intros E; injection E as ->.
    apply find_some in e as [i1 e]. simpl in e. apply Nat.eqb_eq in e.
    destruct (g_traits _ g _ _ i1) as [<- _]. auto.
  - intros [h e]. destruct (find _ (r_types R)) as [[k u]|] eqn:f.
    + apply find_some in f as [i1 f]. simpl in f. apply Nat.eqb_eq in f.
      destruct (g_traits _ g _ _ i1) as [ek _]. subst k.
      f_equal. eapply known_inj; eauto. congruence.
    + exfalso. apply find_none with (x := (p_traits t, t)) in f; auto. simpl in f.
      apply Nat.eqb_neq in f. auto.
Qed.

(** ** The linearisation contains exactly the classes of the bases *)
Lemma nmem_in n l : nmem n l = true <-> In n l.
Proof.
  unfold nmem. rewrite existsb_exists. split.
  - intros [x [i e]]. apply Nat.eqb_eq in e. now subst.
  - intros i. exists n. split; auto. apply Nat.eqb_refl.
Qed.
Lemma good_head_in cands ls h : good_head cands ls = Some h -> exists l, In (h :: l) cands.
Proof.
  induction cands as [|[|x l] cands IH]; simpl; [discriminate| |].
  - intros e. destruct (IH e) as [l i]. eauto.
  - destruct (in_tails x ls).
    + intros e. destruct (IH e) as [m i]. eauto.
    + intros e; injection e as ->. eauto.
Qed.
Lemma c3_merge_in fuel : forall ls r, c3_merge fuel ls = Some r -> forall x, In x r <-> exists l, In l ls /\ In x l.
Proof.
  induction fuel as [|n IH]; simpl; [discriminate|]. intros ls r.
  destruct (forallb _ ls) eqn:e.
  - intros E; injection E as <-. intros x. split; [intros []|]. intros [l [i j]].
    rewrite forallb_forall in e. specialize (e _ i). destruct l; [destruct j|discriminate].
  - destruct (good_head ls ls) as [h|] eqn:eh; [|discriminate].
    destruct (c3_merge n (map (drop_head h) ls)) as [r'|] eqn:em; [|discriminate].
    intros E; injection E as <-. intros x. simpl. rewrite (IH _ _ em). split.
    + intros [<-|[l [i j]]].
      * destruct (good_head_in _ _ _ eh) as [l i]. exists (h :: l). simpl; auto.
      * apply in_map_iff in i as [m [<- i]]. exists m. split; auto.
        destruct m as [|y m]; simpl in j; auto. destruct (Nat.eqb y h); simpl; auto.
    + intros [l [i j]]. destruct (Nat.eq_dec h x) as [->|ne]; auto. right.
      exists (drop_head h l). split; [now apply in_map|].
      destruct l as [|y l]; simpl in *; auto. destruct (Nat.eqb_spec y h); simpl; auto.
      subst. destruct j; congruence.
Qed.
Lemma c3_in self bases mro : c3 self bases = Some mro ->
  exists l, mro = self :: l /\
  forall x, In x l <-> exists b, In b bases /\ (In x (p_mro b) \/ x = p_id b).
Proof.
  unfold c3. destruct (c3_merge _ _) as [r|] eqn:e; [|discriminate]. intros E; injection E as <-.
  exists r. split; auto. intros x. rewrite (c3_merge_in _ _ _ e). split.
  - intros [l [i j]]. apply in_app_or in i as [i|i].
    + apply in_map_iff in i as [b [<- i]]. eauto.
    + destruct i as [<-|[]]. apply in_map_iff in j as [b [<- j]]. eauto.
  - intros [b [i [j| ->]]].
    + exists (p_mro b). split; auto. apply in_or_app; left. now apply in_map.
    + exists (map p_id bases). split; [apply in_or_app; right; simpl; auto|]. now apply in_map.
Qed.

Lemma nodup_snoc {X} (l : list X) x : NoDup l -> ~ In x l -> NoDup (l ++ [x]).
Proof.
  induction l as [|y l IH]; simpl; intros h n.
  - constructor; auto.
  - inversion_clear h as [|? ? h1 h2]. constructor; [|apply IH; tauto].
    rewrite in_app_iff. simpl. intuition.
Qed.

(** ** Creating a class *)
Definition own_list (b : body) : list str :=
  match b_trait b with Some [] => [] | Some s => [s] | None => [] end.

Lemma new_type_err R bases b R' e : new_type R bases b = (R', TErr e) ->
  R' = R /\ (e = TClash \/ e = TTypeErr).
Proof.
  unfold new_type. destruct (registered _ _); [intros E; injection E as <- <-; auto|].
  destruct (c3 _ _); [discriminate|]. intros E; injection E as <- <-. auto.
Qed.

Definition extends (R R' : reg) : Prop :=
  (forall k t, lookup R k = Some t -> lookup R' k = Some t) /\ (forall t, known R t -> known R' t).
Lemma extends_refl R : extends R R.
Proof. split; auto. Qed.
Lemma extends_trans R1 R2 R3 : extends R1 R2 -> extends R2 R3 -> extends R1 R3.
Proof. intros [a b] [c d]. split; auto. Qed.

Lemma new_type_ok R bases b R' t : good R -> bases <> [] -> (forall u, In u bases -> known R u) ->
  new_type R bases b = (R', TOk t) ->
  good R' /\ extends R R' /\ known R' t /\ registered R (p_traits t) = false /\
  (forall s, In s (p_traits t) <-> In s (own_list b) \/ exists u, In u bases /\ In s (p_traits u)) /\
  keys R' = keys R ++ [p_traits t] /\ p_mro t = p_id t :: tl (p_mro t) /\
  p_id t = length (r_types R) /\
  (forall u, In u bases -> In (p_id u) (p_mro t)) /\
  (own_list b = [] -> r_ducks R' = r_ducks R) /\ p_own t = match own_list b with [s] => Some s | _ => None end /\
  (forall c, known R' c -> known R c \/ c = t).
Proof.
  intros g ne hb. unfold new_type.
  set (own := match b_trait b with Some [] => None | o => o end).
  set (traits := key_of _).
  destruct (registered R traits) eqn:er; [discriminate|].
  destruct (c3 (length (r_types R)) bases) as [mro|] eqn:ec; [|discriminate].
  set (tt := {| p_id := _; p_own := own; p_traits := traits; p_all_duck := _; p_defaults := _; p_safe := _; p_mro := _ |}).
  intros E. injection E as <- <-.
  destruct (c3_in _ _ _ ec) as [l [-> hl]].
  assert (eown : match own with Some s => [s] | None => [] end = own_list b).
  { unfold own, own_list. destruct (b_trait b) as [[|? ?]|]; auto. }
  assert (ht : forall s, In s traits <-> In s (own_list b) \/ exists u, In u bases /\ In s (p_traits u)).
  { intros s. unfold traits. rewrite key_of_in, in_app_iff, eown, in_flat_map. reflexivity. }
  set (R' := {| r_types := r_types R ++ [(traits, tt)]; r_ducks := _ |}).
  assert (hk : keys R' = keys R ++ [traits]) by (unfold keys, R'; simpl; now rewrite map_app).
  assert (ex : extends R R').
  { split.
    - intros k u h. unfold lookup, R'; simpl. apply assoc_app. exact h.
    - intros u h. unfold known, R'; simpl. apply in_or_app; left. exact h. }
  assert (kt : known R' tt) by (unfold known, R'; simpl; apply in_or_app; right; simpl; auto).
  assert (kinv : forall u, known R' u -> known R u \/ u = tt).
  { unfold known, R'; simpl. intros u i. apply in_app_or in i as [i|[E|[]]]; auto.
    injection E as _ E. auto. }
  assert (idlt : forall u, known R u -> p_id u < length (r_types R)).
  { intros u hu. assert (i : In (p_id u) (map (fun kt => p_id (snd kt)) (r_types R))).
    { change (p_id u) with ((fun kt => p_id (snd kt)) (p_traits u, u)). now apply in_map. }
    rewrite (g_ids _ g) in i. apply in_seq in i. lia. }
  assert (ownmono : forall i s, own_of R i s -> own_of R' i s).
  { intros i s [c [hc h]]. exists c. split; auto. apply ex; auto. }
  assert (ownold : forall i s, i < length (r_types R) -> own_of R' i s -> own_of R i s).
  { intros i s hi [c [hc [<- ho]]]. destruct (kinv _ hc) as [hc'| ->].
    - exists c. auto.
    - simpl in hi. lia. }
  assert (gd : good R').
  { constructor.
    - rewrite hk. apply nodup_snoc; [apply (g_keys _ g)|].
      intros i. apply registered_keys in i. congruence.
    - unfold R'; simpl. intros k u i. apply in_app_or in i as [i|[E|[]]].
      + apply (g_traits _ g); auto.
      + injection E as <- <-. split; auto. apply key_of_canonical.
    - unfold R'; simpl. rewrite map_app, app_length, (g_ids _ g). simpl.
      rewrite Nat.add_1_r, seq_S. reflexivity.
    - intros u hu. destruct (kinv _ hu) as [hu'| ->].
      + destruct (g_mro _ g _ hu') as [a [b' c]]. split; auto. split; auto.
        intros i hi. destruct (c i hi) as [cc [h1 h2]]. exists cc. split; auto. apply ex; auto.
      + simpl. split; [eauto|]. split.
        * right. destruct bases as [|b0 bs]; [congruence|]. apply hl. exists b0. split; [simpl; auto|].
          left. apply (g_mro _ g). apply hb. simpl; auto.
        * intros i [<-|hi]; [exists tt; auto|]. apply hl in hi as [b0 [ib [hi| ->]]].
          -- destruct (g_mro _ g _ (hb _ ib)) as [_ [_ c]]. destruct (c i hi) as [cc [h1 h2]].
             exists cc. split; auto. apply ex; auto.
          -- exists b0. split; auto. apply ex; auto.
    - destruct (g_root _ g) as [u [h1 h2]]. exists u. split; auto. apply ex; auto.
    - intros u s hu. destruct (kinv _ hu) as [hu'| ->].
      + rewrite (g_own _ g _ _ hu'). split; intros [i [hi ho]]; exists i; split; auto.
        apply ownold; auto. destruct (g_mro _ g _ hu') as [_ [_ c]]. destruct (c i hi) as [cc [h1 <-]]. auto.
      + simpl. rewrite ht. split.
        * intros [i|[b0 [ib hi]]].
          -- exists (length (r_types R)). split; auto. exists tt. split; auto. split; auto. simpl.
             rewrite <- eown in i. destruct own; [|destruct i]. destruct i as [->|[]]. auto.
          -- apply (g_own _ g _ _ (hb _ ib)) in hi as [i [hi ho]]. exists i. split; auto.
             right. apply hl. eauto.
        * intros [i [[<-|hi] ho]].
          -- left. destruct ho as [c [hc [hid ho]]]. destruct (kinv _ hc) as [hc'| ->].
             ++ exfalso. specialize (idlt _ hc'). lia.
             ++ simpl in ho. rewrite <- eown, ho. simpl; auto.
          -- right. apply hl in hi as [b0 [ib hi]]. exists b0. split; auto.
             apply (g_own _ g _ _ (hb _ ib)). exists i.
             assert (hi' : In i (p_mro b0)).
             { destruct hi as [hi| ->]; auto. destruct (g_mro _ g _ (hb _ ib)) as [[l0 ->] _]. simpl; auto. }
             split; auto. apply ownold; auto.
             destruct (g_mro _ g _ (hb _ ib)) as [_ [_ c]]. destruct (c i hi') as [cc [h1 <-]]. auto.
    - unfold R'; simpl. intros a k u i. apply in_app_or in i as [i|i].
      + apply in_or_app; left. eapply (g_ducks _ g); eauto.
      + apply in_or_app; right. destruct own; [|destruct i].
        apply in_map_iff in i as [a' [E _]]. injection E as _ <- <-. simpl; auto. }
  split; auto. split; auto. split; auto. split; auto. split; auto. split; auto. split; auto.
  split; auto. split.
  - intros u iu. simpl. right. apply hl. exists u. auto.
  - split.
    + intros e0. unfold R'; simpl. rewrite <- eown in e0. destruct own; [discriminate|]. apply app_nil_r.
    + simpl. rewrite <- eown. destruct own; auto.
Qed.

(** ** The search for a type to mix in *)
Lemma pick_spec R wanted base : forall others sf mix other m o,
  pick R wanted base others sf mix other = (m, o) ->
  (m = mix \/ exists k, In k others /\ m = Some (k, key_of (base ++ k)) /\
                        registered R (key_of (base ++ k)) = false) /\
  (o = other \/ exists k, In k others /\ o = Some k).
Proof.
  induction others as [|k others IH]; simpl; intros sf mix other m o.
  - intros E; injection E as <- <-. auto.
  - destruct (registered R (key_of (base ++ k))) eqn:er.
    { intros E. destruct (IH _ _ _ _ _ E) as [[->|(k1 & i & h)] [->|(k2 & i2 & h2)]]; split; eauto 7. }
    destruct (_ <? sf).
    + destruct (_ =? 0).
      * intros E; injection E as <- <-. split; right; exists k; auto.
      * intros E. destruct (IH _ _ _ _ _ E) as [[->|(k1 & i & h)] [->|(k2 & i2 & h2)]]; split; eauto 8.
    + intros E. destruct (IH _ _ _ _ _ E) as [[->|(k1 & i & h)] [->|(k2 & i2 & h2)]]; split; eauto 7.
Qed.

(** If some tuple on the list completes the base, then so does the one found, and it is
    the one the loop stops at. *)
Lemma pick_complete R wanted base : forall others sf mix other k,
  In k others -> registered R (key_of (base ++ k)) = false ->
  (forall s, In s wanted -> In s (base ++ k)) -> 0 < sf ->
  exists k', In k' others /\ (forall s, In s wanted -> In s (base ++ k')) /\
    registered R (key_of (base ++ k')) = false /\
    pick R wanted base others sf mix other = (Some (k', key_of (base ++ k')), Some k').
Proof.
  induction others as [|o others IH]; simpl; intros sf mix other k i hr hc hs; [destruct i|].
  destruct (registered R (key_of (base ++ o))) eqn:er.
  { destruct i as [->|i]; [congruence|].
    destruct (IH sf mix (Some o) k i hr hc hs) as (k' & ? & ? & ? & ?). exists k'. auto. }
  set (this := length (filter (fun s => negb (smem s (base ++ o))) wanted)).
  assert (z : this = 0 <-> forall s, In s wanted -> In s (base ++ o)).
  { unfold this. rewrite length_zero_iff_nil. split.
    - intros e s hi. destruct (smem s (base ++ o)) eqn:em; [now apply smem_in|].
      exfalso. assert (j : In s (filter (fun s => negb (smem s (base ++ o))) wanted)).
      { apply filter_In. rewrite em. auto. }
      rewrite e in j. destruct j.
    - intros h. destruct (filter _ wanted) as [|s l] eqn:ef; auto. exfalso.
      assert (j : In s (filter (fun s => negb (smem s (base ++ o))) wanted)) by (rewrite ef; simpl; auto).
      apply filter_In in j as [j1 j2]. apply h in j1. apply smem_in in j1. rewrite j1 in j2. discriminate. }
  destruct (Nat.eqb_spec this 0) as [e0|ne].
  - assert (this <? sf = true) as -> by (apply Nat.ltb_lt; lia).
    exists o. split; auto. split; [now apply z|]. auto.
  - destruct i as [->|i]; [exfalso; apply ne, z, hc|].
    destruct (this <? sf).
    + destruct (IH this (Some (o, key_of (base ++ o))) (Some o) k i hr hc) as (k' & ? & ? & ? & ?); [lia|]. exists k'. auto.
    + destruct (IH sf mix (Some o) k i hr hc hs) as (k' & ? & ? & ? & ?). exists k'. auto.
Qed.

(** ** Rounds of mixing *)
Definition within (wanted : list str) (R R' : reg) : Prop :=
  forall c, known R' c -> known R c \/ (p_own c = None /\ incl (p_traits c) wanted).
Definition count (wanted : list str) (R : reg) : nat :=
  length (filter (fun k => subset k wanted) (keys R)).

Lemma count_bound R wanted : good R -> canonical wanted -> count wanted R <= 2 ^ length wanted.
Proof.
  intros g hw. unfold count. rewrite <- subs_length. apply NoDup_incl_length.
  - apply NoDup_filter. apply (g_keys _ g).
  - intros k i. apply filter_In in i as [i h]. apply subset_incl in h. apply subs_in; auto.
    apply in_map_iff in i as [[k' t] [<- i]]. apply (g_traits _ g) in i as [_ hk]. exact hk.
Qed.

Lemma mix_bases_spec wanted longest : forall bases R stock made R' r,
  good R -> (forall k, In k bases -> incl k wanted) -> (forall k, In k stock -> incl k wanted) ->
  mix_bases R wanted longest bases stock made = (R', r) ->
  good R' /\ extends R R' /\ within wanted R R' /\ r_ducks R' = r_ducks R /\
  match r with
  | TOk (stock', made') =>
      (forall k, In k stock' -> incl k wanted) /\ incl stock stock' /\
      count wanted R <= count wanted R' /\
      (made = false -> made' = true -> count wanted R < count wanted R')
  | TErr e => e = TClash \/ e = TTypeErr \/ e = TKeyErr
  end.
Proof.
  induction bases as [|base bases IH]; cbn [mix_bases]; intros R stock made R' r g hb hs.
  - intros E; injection E as <- <-. split; auto. split; [apply extends_refl|]. split; [intros k; auto|].
    split; auto. split; auto. split; [intros x; auto|]. split; auto. congruence.
  - destruct (negb (length base =? longest)).
    { apply IH; auto. intros k i; apply hb; simpl; auto. }
    destruct (pick R wanted base (ksort stock) (length wanted - length base) None None) as [m o] eqn:ep.
    destruct (pick_spec _ _ _ _ _ _ _ _ _ ep) as [hm ho].
    assert (skip : forall m' : option (list str * list str), 
       mix_bases R wanted longest bases stock made = (R', r) ->
       good R' /\ extends R R' /\ within wanted R R' /\ r_ducks R' = r_ducks R /\
       match r with
       | TOk (stock', made') =>
          (forall k, In k stock' -> incl k wanted) /\ incl stock stock' /\
          count wanted R <= count wanted R' /\
          (made = false -> made' = true -> count wanted R < count wanted R')
       | TErr e => e = TClash \/ e = TTypeErr \/ e = TKeyErr
       end).
    { intros _. apply IH; auto. intros k i; apply hb; simpl; auto. }
    destruct m as [[[|x mk] product]|]; [apply (skip None)| |apply (skip None)].
    destruct o as [other|]; [|apply (skip None)].
    destruct hm as [hm|(k1 & i1 & hm & hr)]; [discriminate|]. injection hm as ek ->.
    destruct ho as [ho|(k2 & i2 & ho)]; [discriminate|]. injection ho as ->.
    rewrite ksort_in in i1. rewrite ksort_in in i2. subst k1.
    destruct (lookup R base) as [bt|] eqn:eb; [destruct (lookup R k2) as [ot|] eqn:eo|].
    2,3: intros E; injection E as <- <-; split; auto; split; [apply extends_refl|]; split; [intros k; auto|]; auto.
    destruct (new_type R [bt; ot] empty_body) as [R1 [t|e]] eqn:en.
    + destruct (lookup_known _ _ _ g eb) as [kb tb]. destruct (lookup_known _ _ _ g eo) as [ko to].
      destruct (new_type_ok R [bt; ot] empty_body R1 t g) as (g1 & ex & kt & hreg & htr & hk & _ & _ & _ & hd & hown & hinv); auto; try discriminate.
      { intros u [<-|[<-|[]]]; auto. }
      assert (hin : incl (p_traits t) wanted).
      { intros s i. apply htr in i as [[]|[u [[<-|[<-|[]]] i]]].
        - rewrite tb in i. apply (hb base); simpl; auto.
        - rewrite to in i. apply (hs k2); auto. }
      assert (hc : count wanted R < count wanted R1).
      { unfold count. rewrite hk, filter_app, app_length. simpl.
        assert (es : subset (p_traits t) wanted = true) by now apply subset_incl. rewrite es. simpl. lia. }
      intros E. apply IH in E; auto.
      2:{ intros k i; apply hb; simpl; auto. }
      2:{ intros k i. assert (j : In k stock \/ k = key_of (base ++ x :: mk)).
          { destruct (existsb _ stock); auto. apply in_app_or in i as [i|[<-|[]]]; auto. }
          destruct j as [j| ->]; auto. intros s i'. rewrite key_of_in in i'. apply in_app_or in i' as [i'|i'].
          - apply (hb base); simpl; auto.
          - apply (hs (x :: mk)); auto. }
      destruct E as (g' & ex' & wi & hdk & E). split; auto. split; [eapply extends_trans; eauto|].
      split; [|split; [rewrite hdk; apply hd; reflexivity|]].
      * intros c i. apply wi in i as [i|i]; auto. apply hinv in i as [i| ->]; auto.
      * destruct r as [[st' mk']|e]; auto. destruct E as (h1 & h2 & h3 & _). split; auto. split; [|split; [lia|lia]].
        intros y i. apply h2. destruct (existsb _ stock); auto. apply in_or_app; auto.
    + destruct (new_type_err _ _ _ _ _ en) as [-> he].
      intros E; injection E as <- <-. split; auto. split; [apply extends_refl|]. split; [intros k; auto|].
      split; auto. intuition.
Qed.

Lemma mix_loop_spec wanted : canonical wanted -> forall fuel R stock R' r,
  good R -> (forall k, In k stock -> incl k wanted) ->
  (forall x, hd_error wanted = Some x -> exists k, In k stock /\ hd_error k = Some x) ->
  2 ^ length wanted < fuel + count wanted R ->
  mix_loop fuel R wanted stock = (R', r) ->
  good R' /\ extends R R' /\ within wanted R R' /\ r_ducks R' = r_ducks R /\
  match r with
  | TOk _ => registered R' wanted = true
  | TErr e => e = TClash \/ e = TTypeErr \/ e = TKeyErr \/ e = TFailure
  end.
Proof.
  intros hw. induction fuel as [|n IH]; cbn [mix_loop]; intros R stock R' r g hs hh hf.
  - exfalso. pose proof (count_bound R wanted g hw). simpl in hf. lia.
  - destruct (registered R wanted) eqn:er.
    { intros E; injection E as <- <-. split; auto. split; [apply extends_refl|]. split; [intros k; auto|]. auto. }
    destruct (filter (starts wanted) stock) as [|k0 ks] eqn:ef.
    { exfalso. destruct wanted as [|x w].
      - destruct (g_root _ g) as [t [h _]]. unfold registered in er. rewrite h in er. discriminate.
      - destruct (hh x eq_refl) as [k [i e]].
        assert (j : In k (filter (starts (x :: w)) stock)).
        { apply filter_In. split; auto. destruct k as [|y k]; simpl in *; [discriminate|].
          injection e as ->. apply str_eqb_refl. }
        rewrite ef in j. destruct j. }
    rewrite <- ef. set (sw := filter (starts wanted) stock).
    destruct (mix_bases R wanted _ (ksort sw) stock false) as [R1 r1] eqn:em.
    apply mix_bases_spec in em as (g1 & ex & wi & hd & h); auto.
    2:{ intros k i. rewrite ksort_in in i. apply filter_In in i as [i _]. auto. }
    destruct r1 as [[stock' [|]]|e].
    + destruct h as (h1 & h2 & h3 & h4). intros E. apply IH in E; auto.
      * destruct E as (g' & ex' & wi' & hd' & E). split; auto. split; [eapply extends_trans; eauto|].
        split; [|split; [congruence|exact E]].
        intros k i. apply wi' in i as [i|i]; auto.
      * intros x hx. destruct (hh x hx) as [k [i e]]. eauto.
      * specialize (h4 eq_refl eq_refl). lia.
    + intros E; injection E as <- <-. split; auto. split; auto. split; auto.
    + intros E; injection E as <- <-. split; auto. split; auto. split; auto. split; auto. intuition.
Qed.

Lemma create_spec R wanted R' r : good R -> canonical wanted -> create R wanted = (R', r) ->
  good R' /\ extends R R' /\ within wanted R R' /\ r_ducks R' = r_ducks R /\
  match r with
  | TOk _ => registered R' wanted = true
  | TErr e => e = TClash \/ e = TTypeErr \/ e = TKeyErr \/ e = TFailure \/
              (e = TNotPossible /\ R' = R)
  end.
Proof.
  intros g hw. unfold create, create_with. set (stock := filter _ (keys R)).
  destruct (forallb _ wanted) eqn:ea.
  - intros E. apply mix_loop_spec in E; auto.
    + destruct E as (? & ? & ? & ? & E). split; auto. split; auto. split; auto. split; auto.
      destruct r; intuition.
    + intros k i. apply filter_In in i as [_ i]. now apply subset_incl.
    + intros x hx. destruct wanted as [|y w]; [discriminate|]. injection hx as ->.
      rewrite forallb_forall in ea. specialize (ea x (or_introl eq_refl)).
      apply existsb_exists in ea as [k [i e]]. apply smem_in in e. exists k. split; auto.
      apply filter_In in i as [i j]. apply subset_incl in j.
      assert (ck : canonical k).
      { apply in_map_iff in i as [[k' t] [<- i]]. apply (g_traits _ g) in i as [_ hk]. exact hk. }
      destruct k as [|z k]; [destruct e|]. simpl. f_equal.
      inversion_clear ck as [|? ? ck' fk]. inversion_clear hw as [|? ? hw' fw].
      rewrite Forall_forall in fk, fw. destruct e as [e|e]; auto.
      destruct (j z (or_introl eq_refl)) as [e'|e']; auto.
      exfalso. apply (slt_irrefl x). eapply str_cmp_trans; [apply fw, e'|apply fk, e].
    + simpl. lia.
  - intros E; injection E as <- <-. split; auto. split; [apply extends_refl|]. split; [intros k; auto|].
    split; auto. intuition.
Qed.

(** ** Which traits a declaration asks for *)
Lemma ducks_of_in R a k t : In (k, t) (ducks_of R a) <-> In (a, (k, t)) (r_ducks R).
Proof.
  unfold ducks_of. rewrite in_map_iff. split.
  - intros [[a' kt] [E i]]. simpl in E. subst. apply filter_In in i as [i e]. simpl in e.
    apply str_eqb_eq in e as ->. auto.
  - intros i. exists (a, (k, t)). split; auto. apply filter_In. split; auto. apply str_eqb_refl.
Qed.

Lemma duck_traits_spec R known_args : forall args extra safe extra' safe',
  duck_traits R known_args args extra safe = TOk (extra', safe') ->
  (forall s, In s extra' <-> In s extra \/ exists a v k t, In (a, v) args /\ ~ In a known_args /\
                                            In (a, (k, t)) (r_ducks R) /\ In s k) /\
  (safe' = true <-> safe = true \/ exists a v k t, In (a, v) args /\ ~ In a known_args /\
                                            In (a, (k, t)) (r_ducks R) /\ p_safe t = true) /\
  (forall a v, In (a, v) args -> ~ In a known_args ->
     exists k, (exists t, In (a, (k, t)) (r_ducks R)) /\ forall k' t', In (a, (k', t')) (r_ducks R) -> k' = k).
Proof.
  induction args as [|[a v] args IH]; cbn [duck_traits]; intros extra safe extra' safe'.
  - intros E; injection E as <- <-. split; [|split].
    + intros s. split; auto. intros [?|(?&?&?&?&[]&_)]; auto.
    + split; auto. intros [?|(?&?&?&?&[]&_)]; auto.
    + intros ? ? [].
  - destruct (smem a known_args) eqn:ea.
    { apply smem_in in ea. intros E. destruct (IH _ _ _ _ E) as (h1 & h2 & h3). split; [|split].
      - intros s. rewrite h1. split; (intros [?|(b&w&k&t&i&n&h)]; [now left|right; exists b, w, k, t]).
        + simpl; auto.
        + destruct i as [i|i]; [injection i as -> ->; contradiction|auto].
      - rewrite h2. split; (intros [?|(b&w&k&t&i&n&h)]; [now left|right; exists b, w, k, t]).
        + simpl; auto.
        + destruct i as [i|i]; [injection i as -> ->; contradiction|auto].
      - intros b w [i|i] n; [injection i as -> ->; contradiction|eauto]. }
    apply smem_not in ea.
    destruct (implied R a) as [|ts [|? ?]] eqn:ei; [discriminate| |discriminate].
    assert (hk : forall k, In k [ts] <-> exists t, In (a, (k, t)) (r_ducks R)).
    { intros k. rewrite <- ei. unfold implied. rewrite nodup_In, in_map_iff. split.
      - intros [[k' t] [<- i]]. exists t. now apply ducks_of_in.
      - intros [t i]. exists (k, t). split; auto. now apply ducks_of_in. }
    intros E. destruct (IH _ _ _ _ E) as (h1 & h2 & h3). split; [|split].
    + intros s. rewrite h1, in_app_iff. split.
      * intros [[?|i]|(b&w&k&t&i&n&h)]; auto.
        -- right. destruct (proj1 (hk ts) (or_introl eq_refl)) as [t j]. exists a, v, ts, t. simpl; auto.
        -- right. exists b, w, k, t. simpl; auto.
      * intros [?|(b&w&k&t&i&n&j&h)]; auto. destruct i as [i|i].
        -- injection i as -> ->. left; right. destruct (proj2 (hk k) (ex_intro _ t j)) as [->|[]]. auto.
        -- right. exists b, w, k, t. auto.
    + rewrite h2, orb_true_iff, existsb_exists. split.
      * intros [[?|[[k t] [i e]]]|(b&w&k&t&i&n&h)]; auto.
        -- right. exists a, v, k, t. apply ducks_of_in in i. simpl; auto.
        -- right. exists b, w, k, t. simpl; auto.
      * intros [?|(b&w&k&t&i&n&j&h)]; auto. destruct i as [i|i].
        -- injection i as -> ->. left; right. exists (k, t). split; auto. now apply ducks_of_in.
        -- right. exists b, w, k, t. auto.
    + intros b w [i|i] n; [injection i as <- <-|eauto].
      exists ts. split; [apply hk; simpl; auto|]. intros k' t' j.
      destruct (proj2 (hk k') (ex_intro _ t' j)) as [->|[]]. auto.
Qed.

Definition given (k : kwargs) : list str := match kw_traits k with Some l => l | None => [] end.

Definition asked (R : reg) (self : ptype) (k : kwargs) (s : str) : Prop :=
  In s (p_traits self) \/ In s (given k) \/
  exists a v ks t, In (a, v) (kw_args k) /\ ~ In a (p_all_duck self) /\ In (a, (ks, t)) (r_ducks R) /\ In s ks.
Definition asked_safe (R : reg) (self : ptype) (k : kwargs) : Prop :=
  p_safe self = true \/
  (exists a, In a [s2l "required"; s2l "isa"; s2l "check"] /\ In a (map fst (kw_args k))) \/
  exists a v ks t, In (a, v) (kw_args k) /\ ~ In a (p_all_duck self) /\ In (a, (ks, t)) (r_ducks R) /\ p_safe t = true.
Definition asked_v1 (k : kwargs) : Prop := In (s2l "default", true) (kw_args k).

(** The rules about [unsafe], [safe] and [v1]. *)
Definition trait_rule (A : str -> Prop) (safe v1 : Prop) (s : str) : Prop :=
  let no_safe := A (s2l "unsafe") /\ ~ A (s2l "safe") in
  (A s /\ ~ (s = s2l "unsafe" /\ no_safe)) \/
  (s = s2l "safe" /\ ~ no_safe /\ ~ A (s2l "ro") /\ safe) \/
  ((s = s2l "v1" \/ s = s2l "safe") /\ ~ A (s2l "v1") /\ v1).

Lemma adjust_spec all safe v1 s : In s (adjust all safe v1) <->
  trait_rule (fun x => In x all) (safe = true) (v1 = true) s.
Proof.
  unfold adjust, trait_rule. fold unsafe_s safe_s ro_s v1_s.
  assert (n1 : v1_s <> unsafe_s) by (vm_compute; congruence).
  assert (n2 : v1_s <> safe_s) by (vm_compute; congruence).
  set (all' := if smem unsafe_s all && negb (smem safe_s all) then _ else _).
  assert (h : forall x, In x all' <->
     (In x all /\ ~ (x = unsafe_s /\ In unsafe_s all /\ ~ In safe_s all)) \/
     (x = safe_s /\ ~ (In unsafe_s all /\ ~ In safe_s all) /\ ~ In ro_s all /\ safe = true)).
  { intros x. unfold all'.
    destruct (smem unsafe_s all) eqn:eu; [apply smem_in in eu|apply smem_not in eu];
    (destruct (smem safe_s all) eqn:es; [apply smem_in in es|apply smem_not in es]); simpl;
    (destruct (smem ro_s all) eqn:er; [apply smem_in in er|apply smem_not in er]); simpl;
    destruct safe; simpl; rewrite ?filter_In, ?negb_true_iff, ?str_eqb_neq;
    intuition (subst; try congruence; auto). }
  assert (hv : smem v1_s all' = smem v1_s all).
  { destruct (smem v1_s all) eqn:e; [apply smem_in in e; apply smem_in|apply smem_not in e; apply smem_not]; rewrite h.
    - left. split; auto. intros [e' _]. congruence.
    - intros [[i _]|[e' _]]; congruence. }
  rewrite hv. destruct (smem v1_s all) eqn:ev; [apply smem_in in ev|apply smem_not in ev]; simpl.
  - rewrite h. intuition.
  - destruct v1; simpl; rewrite h; [|intuition congruence].
    split.
    + intros [<-|[<-|[i|i]]]; auto.
    + intros [i|[i|[[->| ->] _]]]; auto.
Qed.

Lemma trait_rule_ext A B sa sb va vb s : (forall x, A x <-> B x) -> (sa <-> sb) -> (va <-> vb) ->
  trait_rule A sa va s <-> trait_rule B sb vb s.
Proof. intros h1 h2 h3. unfold trait_rule. rewrite !h1, h2, h3. reflexivity. Qed.

Lemma has_spec R self positional k R' t : good R ->
  has R self positional k = (R', TOk t) ->
  positional = false /\ good R' /\ extends R R' /\ r_ducks R' = r_ducks R /\
  known R' t /\
  (forall s, In s (p_traits t) <-> trait_rule (asked R self k) (asked_safe R self k) (asked_v1 k) s) /\
  (forall u, lookup R (p_traits t) = Some u -> R' = R /\ u = t) /\
  within (p_traits t) R R'.
Proof.
  intros g. unfold has. destruct positional; [discriminate|].
  match goal with |- context[duck_traits R ?a ?b ?c ?d] => destruct (duck_traits R a b c d) as [[extra safe]|] eqn:ed end; [|discriminate].
  destruct (duck_traits_spec _ _ _ _ _ _ _ ed) as (h1 & h2 & _).
  set (v1 := existsb _ (kw_args k)). set (wanted := key_of _).
  assert (hw : forall s, In s wanted <-> trait_rule (asked R self k) (asked_safe R self k) (asked_v1 k) s).
  { intros s. unfold wanted. rewrite key_of_in, adjust_spec. apply trait_rule_ext.
    - intros x. rewrite in_app_iff, h1. unfold asked, given. reflexivity.
    - rewrite h2. unfold asked_safe. rewrite !orb_true_iff. unfold has_arg. rewrite !smem_in. split.
      + intros [[[[?|?]|?]|?]|?]; auto; right; left; eexists; split; eauto; simpl; auto.
      + intros [?|[[a [[<-|[<-|[<-|[]]]] i]]|?]]; auto.
    - unfold v1, asked_v1. rewrite existsb_exists. split.
      + intros [[a b] [i e]]. simpl in e. apply andb_true_iff in e as [e1 e2]. apply str_eqb_eq in e1. subst. auto.
      + intros i. exists (s2l "default", true). split; auto. }
  assert (cw : canonical wanted) by apply key_of_canonical.
  destruct (registered R wanted) eqn:er.
  - destruct (lookup R wanted) as [u|] eqn:el; [|discriminate]. intros E; injection E as <- <-.
    destruct (lookup_known _ _ _ g el) as [ku tu]. rewrite tu in *.
    split; auto. split; auto. split; [apply extends_refl|]. split; auto. split; auto. split; auto.
    split; [|intros x; auto]. intros v e. rewrite el in e. injection e as <-. auto.
  - destruct (create R wanted) as [R1 [[]|e]] eqn:ec; [|discriminate].
    destruct (create_spec _ _ _ _ g cw ec) as (g1 & ex & wi & hd & hr).
    destruct (lookup R1 wanted) as [u|] eqn:el; [|discriminate]. intros E; injection E as <- <-.
    destruct (lookup_known _ _ _ g1 el) as [ku tu]. rewrite tu in *.
    split; auto. split; auto. split; auto. split; auto. split; auto. split; auto. split; auto.
    intros v e. unfold registered in er. rewrite e in er. discriminate.
Qed.

Lemma has_state R self positional k R' r : good R -> has R self positional k = (R', r) ->
  good R' /\ extends R R' /\ r_ducks R' = r_ducks R /\ r <> TErr TDiverges /\ r <> TErr TValueErr.
Proof.
  intros g. unfold has. destruct positional.
  { intros E; injection E as <- <-. split; auto. split; [apply extends_refl|]. split; auto. split; discriminate. }
  match goal with |- context[duck_traits R ?a ?b ?c ?d] => set (D := duck_traits R a b c d) end.
  assert (hD : D <> TErr TDiverges /\ D <> TErr TValueErr).
  { unfold D. generalize (match kw_traits k with Some l => l | None => [] end).
    generalize (p_safe self || has_arg (s2l "required") k || has_arg (s2l "isa") k || has_arg (s2l "check") k).
    induction (kw_args k) as [|[a v] args IH]; cbn [duck_traits]; intros sf ex; [split; discriminate|].
    destruct (smem a (p_all_duck self)); auto.
    destruct (implied R a) as [|? [|? ?]]; auto; split; discriminate. }
  destruct D as [[extra safe]|e].
  - set (wanted := key_of _). assert (cw : canonical wanted) by apply key_of_canonical.
    destruct (registered R wanted) eqn:er.
    + destruct (lookup R wanted); intros E; injection E as <- <-; split; auto; split; try apply extends_refl; split; auto; split; discriminate.
    + destruct (create R wanted) as [R1 [[]|e]] eqn:ec.
      * destruct (create_spec _ _ _ _ g cw ec) as (g1 & ex & wi & hd & hr).
        destruct (lookup R1 wanted); intros E; injection E as <- <-; split; auto; split; auto; split; auto; split; discriminate.
      * destruct (create_spec _ _ _ _ g cw ec) as (g1 & ex & wi & hd & hr).
        intros E; injection E as <- <-. split; auto. split; auto. split; auto.
        destruct hr as [->|[->|[->|[->|[-> _]]]]]; split; discriminate.
  - intros E; injection E as <- <-. split; auto. split; [apply extends_refl|]. split; auto.
    destruct hD; split; congruence.
Qed.

(** ** Calling a property type *)
Lemma new_chain_spec : forall fuel R selfie self positional k R' t, good R ->
  new_chain fuel R selfie self positional k = (R', TOk t) ->
  good R' /\ extends R R' /\ r_ducks R' = r_ducks R /\ known R' t /\
  (forall c, known R' c -> known R c \/ p_own c = None) /\
  (forall s, In s (p_traits self) -> s <> s2l "unsafe" -> In s (p_traits t)).
Proof.
  induction fuel as [|n IH]; cbn [new_chain]; intros R selfie self positional k R' t g; [discriminate|].
  destruct (has R self positional _) as [R1 [u|e]] eqn:eh; [|discriminate].
  destruct (has_spec _ _ _ _ _ _ g eh) as (_ & g1 & ex & hd & ku & hs & _ & wi).
  assert (hs1 : forall s, In s (p_traits self) -> s <> s2l "unsafe" -> In s (p_traits u)).
  { intros s i ne. apply hs. left. split; [left; auto|]. intros [e _]. auto. }
  assert (hw1 : forall c, known R1 c -> known R c \/ p_own c = None).
  { intros c hc. apply wi in hc as [?|[? _]]; auto. }
  destruct (after (p_id selfie) (p_mro self)) as [[|i rest]|]; [| |discriminate].
  - intros E; injection E as <- <-. auto 10.
  - destruct (class_of R1 i) as [next|]; [|discriminate]. intros E.
    destruct (IH _ _ _ _ _ _ _ g1 E) as (g' & ex' & hd' & kt & hw & hs').
    split; auto. split; [eapply extends_trans; eauto|]. split; [congruence|]. split; auto. split; auto.
    intros c hc. destruct (hw _ hc) as [h|h]; auto.
Qed.

Lemma new_chain_state : forall fuel R selfie self positional k R' r, good R ->
  new_chain fuel R selfie self positional k = (R', r) -> good R' /\ extends R R'.
Proof.
  induction fuel as [|n IH]; cbn [new_chain]; intros R selfie self positional k R' r g.
  { intros E; injection E as <- <-. split; auto. apply extends_refl. }
  destruct (has R self positional _) as [R1 [u|e]] eqn:eh;
    destruct (has_state _ _ _ _ _ _ g eh) as (g1 & ex & _).
  2:{ intros E; injection E as <- <-. auto. }
  destruct (after (p_id selfie) (p_mro self)) as [[|i rest]|]; [intros E; injection E as <- <-; auto| |intros E; injection E as <- <-; auto].
  destruct (class_of R1 i) as [next|]; [|intros E; injection E as <- <-; auto]. intros E.
  destruct (IH _ _ _ _ _ _ _ g1 E) as [g' ex']. split; auto. eapply extends_trans; eauto.
Qed.

(** ** One step suffices when two types complete each other *)
Lemma canonical_shorter k w : canonical k -> canonical w -> incl k w -> k <> w -> length k < length w.
Proof.
  intros hk hw hi ne. pose proof (canonical_nodup _ hk) as nk. pose proof (NoDup_incl_length nk hi).
  destruct (Nat.eq_dec (length k) (length w)) as [e|]; [|lia]. exfalso. apply ne.
  apply canonical_ext; auto. intros s. split; auto.
  apply NoDup_length_incl; auto. lia.
Qed.
Lemma list_max_ge l x : In x l -> x <= list_max l.
Proof. intros i. pose proof (proj1 (list_max_le l (list_max l)) (Nat.le_refl _)) as f. rewrite Forall_forall in f. auto. Qed.
Lemma kins_nodup k l : NoDup l -> ~ In k l -> NoDup (kins k l).
Proof.
  induction l as [|x l IH]; simpl; intros h n; [constructor; auto|].
  inversion_clear h as [|? ? h1 h2]. destruct (key_cmp k x).
  1,2: constructor; [simpl; tauto|constructor; auto].
  constructor; [rewrite kins_in; intros [->|i]; tauto|]. apply IH; tauto.
Qed.
Lemma ksort_nodup l : NoDup l -> NoDup (ksort l).
Proof.
  induction l as [|x l IH]; simpl; intros h; auto. inversion_clear h as [|? ? h1 h2].
  apply kins_nodup; auto. rewrite ksort_in. auto.
Qed.

Lemma mix_bases_skip wanted longest : forall bases R stock made,
  (forall k, In k bases -> length k <> longest) ->
  mix_bases R wanted longest bases stock made = (R, TOk (stock, made)).
Proof.
  induction bases as [|b bases IH]; cbn [mix_bases]; intros R stock made h; auto.
  assert (negb (length b =? longest) = true) as ->.
  { apply negb_true_iff, Nat.eqb_neq. apply h. simpl; auto. }
  apply IH. intros k i. apply h. simpl; auto.
Qed.

Lemma mix_bases_one wanted b : forall bases R stock o,
  good R -> canonical wanted -> registered R wanted = false -> In b bases -> NoDup bases ->
  (forall k, In k bases -> k <> b -> length k <> length b) ->
  (forall k, In k stock -> incl k wanted /\ registered R k = true) -> In b stock -> In o stock ->
  (forall s, In s wanted -> In s (b ++ o)) ->
  (exists R' stock', mix_bases R wanted (length b) bases stock false = (R', TOk (stock', true)) /\
                     registered R' wanted = true) \/
  mix_bases R wanted (length b) bases stock false = (R, TErr TTypeErr).
Proof.
  induction bases as [|x bases IH]; cbn [mix_bases]; intros R stock o g cw nr ib nd hl hs ibs ios hc; [destruct ib|].
  inversion_clear nd as [|? ? nx nd'].
  destruct (key_eq_dec x b) as [->|ne].
  2:{ assert (negb (length x =? length b) = true) as ->.
      { apply negb_true_iff, Nat.eqb_neq. apply hl; simpl; auto. }
      apply IH with (o := o); auto. { destruct ib; [congruence|auto]. } intros k i; apply hl; simpl; auto. }
  rewrite Nat.eqb_refl. simpl negb. cbv iota.
  destruct (hs b ibs) as [ib1 rb]. destruct (hs o ios) as [io1 ro].
  assert (cb : canonical b).
  { apply registered_keys in rb. apply in_map_iff in rb as [[k' t] [<- i]]. apply (g_traits _ g) in i as [_ hk]. exact hk. }
  assert (lb : length b < length wanted).
  { apply canonical_shorter; auto. congruence. }
  assert (full : forall k, incl k wanted -> (forall s, In s wanted -> In s (b ++ k)) -> key_of (b ++ k) = wanted).
  { intros k hi hcv. apply canonical_ext; auto; [apply key_of_canonical|]. intros s. rewrite key_of_in. split; auto.
    intros j. apply in_app_or in j as [j|j]; auto. }
  destruct (pick_complete R wanted b (ksort stock) (length wanted - length b) None None o) as (k' & i' & hc' & hr' & ->).
  { now apply ksort_in. } { rewrite full; auto. } { auto. } { lia. }
  rewrite ksort_in in i'. destruct (hs k' i') as [hi' rk'].
  assert (ek : exists y l, k' = y :: l).
  { destruct k' as [|y l]; eauto. exfalso. rewrite app_nil_r in hc'.
    assert (e : b = wanted); [|congruence].
    apply canonical_ext; auto. intros s; split; auto. }
  destruct ek as (y & l & ->).
  unfold registered in rb, rk'. destruct (lookup R b) as [bt|] eqn:eb; [|discriminate].
  destruct (lookup R (y :: l)) as [ot|] eqn:eo; [|discriminate].
  destruct (lookup_known _ _ _ g eb) as [kb tb]. destruct (lookup_known _ _ _ g eo) as [ko to].
  destruct (new_type R [bt; ot] empty_body) as [R1 [t|e]] eqn:en.
  - left. rewrite mix_bases_skip.
    2:{ intros k i. apply hl; simpl; auto. intros ->. contradiction. }
    eexists; eexists; split; [reflexivity|].
    destruct (new_type_ok R [bt; ot] empty_body R1 t g) as (g1 & ex & kt & hreg & htr & hk & _); auto; try discriminate.
    { intros u [<-|[<-|[]]]; auto. }
    apply registered_keys. rewrite hk. apply in_or_app; right. left.
    rewrite <- (full (y :: l)); auto. apply canonical_ext; [|apply key_of_canonical|].
    + apply (g_traits _ g1) in kt. destruct kt; auto.
    + intros s. rewrite htr, key_of_in, in_app_iff. simpl own_list. split.
      * intros [[]|[u [[<-|[<-|[]]] i]]]; [rewrite tb in i|rewrite to in i]; auto.
      * intros [i|i]; right; [exists bt; rewrite tb|exists ot; rewrite to]; simpl; auto.
  - right. revert en. unfold new_type. simpl b_trait. cbv iota.
    simpl flat_map. rewrite tb, to, app_nil_r. simpl app at 1. rewrite hr'.
    destruct (c3 _ _); [discriminate|]. intros E; injection E as <- <-. auto.
Qed.
