(** Proofs about the initialisation of properties. *)
From Coq Require Import String List NArith Bool Lia Arith Sorting.Sorted.
Import ListNotations.
From Verif Require Import Prelude TraitModel TraitProofs InitModel InitSpec.
Local Open Scope list_scope.

(** ** Linearisation *)
Lemma in_tails_iff h ls : in_tails h ls = true <-> exists l, In l ls /\ In h (tl l).
Proof.
  unfold in_tails. rewrite existsb_exists. split; intros [l [i j]]; exists l; split; auto; now apply nmem_in.
Qed.
Lemma good_head_free cands ls h : good_head cands ls = Some h -> in_tails h ls = false.
Proof.
  induction cands as [|[|x l] cands IH]; simpl; [discriminate|auto|].
  destruct (in_tails x ls) eqn:e; auto. intros E; injection E as <-. auto.
Qed.
Lemma c3_merge_nodup fuel : forall ls r, c3_merge fuel ls = Some r -> NoDup r.
Proof.
  induction fuel as [|n IH]; simpl; [discriminate|]. intros ls r.
  destruct (forallb _ ls); [intros E; injection E as <-; constructor|].
  destruct (good_head ls ls) as [h|] eqn:eh; [|discriminate].
  destruct (c3_merge n (map (drop_head h) ls)) as [r'|] eqn:em; [|discriminate].
  intros E; injection E as <-. constructor; [|eapply IH; eauto].
  intros i. apply (c3_merge_in _ _ _ em) in i as [l [i j]]. apply in_map_iff in i as [m [<- i]].
  apply good_head_free in eh. apply not_true_iff_false in eh. apply eh. apply in_tails_iff. exists m. split; auto.
  destruct m as [|y m]; simpl in *; auto. destruct (Nat.eqb_spec y h); auto.
  destruct j as [j|j]; auto. congruence.
Qed.

(** The classes before [S] *)
Section Before.
Variable S : nat.
Variable ok : nat -> Prop.
Definition led (l : list nat) : Prop :=
  exists pre rest, l = pre ++ S :: rest /\ ~ In S pre /\ forall i, In i pre -> ok i.
Definition all_ok (l : list nat) : Prop := ~ In S l /\ forall i, In i l -> ok i.

(** Merging lists in each of which what comes before [S] is ok *)
Lemma c3_merge_led fuel : forall ls r, (forall l, In l ls -> led l \/ all_ok l) ->
  c3_merge fuel ls = Some r -> (exists l, In l ls /\ In S l) -> led r.
Proof.
  induction fuel as [|n IH]; simpl; [discriminate|]. intros ls r hl.
  destruct (forallb _ ls) eqn:e.
  { intros _ [l [i j]]. rewrite forallb_forall in e. specialize (e _ i). destruct l; [destruct j|discriminate]. }
  destruct (good_head ls ls) as [h|] eqn:eh; [|discriminate].
  destruct (c3_merge n (map (drop_head h) ls)) as [r'|] eqn:em; [|discriminate].
  intros E [l [i j]]; injection E as <-.
  destruct (Nat.eq_dec h S) as [->|ne]; [exists [], r'; split; [auto|]; split; [intros []|intros ? []]|].
  assert (hok : ok h).
  { destruct (good_head_in _ _ _ eh) as [m im]. destruct (hl _ im) as [(pre & rest & e1 & _ & h1)|[_ h1]].
    - destruct pre as [|y pre]; simpl in e1; injection e1 as -> _; [congruence|]. apply h1; simpl; auto.
    - apply h1; simpl; auto. }
  assert (hl' : forall l, In l (map (drop_head h) ls) -> led l \/ all_ok l).
  { intros l' i'. apply in_map_iff in i' as [m [<- im]].
    destruct (hl _ im) as [(pre & rest & -> & h0 & h1)|[h0 h1]].
    - left. destruct pre as [|y pre]; simpl.
      + destruct (Nat.eqb_spec S h); [congruence|]. exists [], rest. split; [auto|]. split; [intros []|intros ? []].
      + destruct (Nat.eqb_spec y h); [exists pre, rest|exists (y :: pre), rest]; simpl in *; split; auto.
    - right. destruct m as [|y m]; simpl; [split; auto|]. destruct (Nat.eqb_spec y h); [|split; auto].
      simpl in *. split; auto. }
  destruct (IH _ _ hl' em) as (pre & rest & -> & h1 & h2).
  - exists (drop_head h l). split; [now apply in_map|]. destruct l as [|y l]; simpl in *; auto.
    destruct (Nat.eqb_spec y h); simpl; auto. destruct j; congruence.
  - exists (h :: pre), rest. split; auto. simpl. split; [intros [?|?]; congruence|]. intros x [<-|ix]; auto.
Qed.

(** Merging a list with others that know neither [S] nor what comes before it *)
Lemma c3_merge_first fuel : forall pre rest ls r, NoDup (pre ++ S :: rest) ->
  (forall l i, In l ls -> In i (tl l) -> i <> S /\ ~ In i pre) ->
  c3_merge fuel ((pre ++ S :: rest) :: ls) = Some r -> exists rest', r = pre ++ S :: rest'.
Proof.
  induction fuel as [|n IH]; cbn [c3_merge]; [discriminate|]. intros pre rest ls r nd hl.
  destruct (forallb _ _) eqn:e.
  { exfalso. cbn [forallb] in e. destruct pre; discriminate. }
  set (h0 := match pre with [] => S | x :: _ => x end).
  assert (gh : good_head ((pre ++ S :: rest) :: ls) ((pre ++ S :: rest) :: ls) = Some h0).
  { assert (f : in_tails h0 ((pre ++ S :: rest) :: ls) = false).
    { apply not_true_iff_false. intros t. apply in_tails_iff in t as [l [[<-|i] j]]; unfold h0 in j.
      - destruct pre; simpl in *; inversion_clear nd; auto.
      - destruct (hl _ _ i j) as [n1 n2]. destruct pre; [now apply n1|]. apply n2; simpl; auto. }
    destruct pre as [|y pre]; cbn [app good_head] in *; unfold h0 in *; rewrite f; reflexivity. }
  rewrite gh. destruct (c3_merge n _) as [r'|] eqn:em; [|discriminate]. intros E; injection E as <-.
  destruct pre as [|y pre]; unfold h0 in *.
  - exists r'. reflexivity.
  - cbn [map app] in em. unfold drop_head at 1 in em. rewrite Nat.eqb_refl in em. apply IH in em as [rest' ->].
    + exists rest'. reflexivity.
    + simpl in nd. inversion_clear nd. auto.
    + intros l i il ii. apply in_map_iff in il as [m [<- im]].
      assert (In i (tl m)). { destruct m as [|z m]; simpl in *; auto. destruct (Nat.eqb z y); auto. destruct m; simpl in *; auto. }
      destruct (hl _ _ im H) as [n1 n2]. split; auto. intros k; apply n2; simpl; auto.
Qed.
End Before.

(** ** What is known about ancestors *)
Record lineal (R : reg) : Prop := {
  l_closed : forall t c, known R t -> known R c -> In (p_id c) (p_mro t) -> incl (p_mro c) (p_mro t);
  l_nodup : forall t, known R t -> NoDup (p_mro t)
}.

Lemma known_bound R t : good R -> known R t -> p_id t < length (r_types R).
Proof.
  intros g k. assert (i : In (p_id t) (map (fun kt => p_id (snd kt)) (r_types R))).
  { apply in_map_iff. exists (p_traits t, t). auto. }
  rewrite (g_ids _ g) in i. apply in_seq in i. lia.
Qed.
Lemma mro_bound R t i : good R -> known R t -> In i (p_mro t) -> i < length (r_types R).
Proof.
  intros g k h. destruct (g_mro _ g _ k) as (_ & _ & h3). destruct (h3 _ h) as [c [kc <-]]. now apply known_bound.
Qed.

Lemma new_type_mro R bases b R' t : new_type R bases b = (R', TOk t) ->
  exists l, c3 (length (r_types R)) bases = Some l /\ p_mro t = l /\ p_id t = length (r_types R) /\
    r_types R' = r_types R ++ [(p_traits t, t)] /\
    p_own t = match b_trait b with Some [] => None | o => o end /\ p_defaults t = b_defaults b.
Proof.
  unfold new_type. destruct (registered _ _); [discriminate|]. destruct (c3 _ _) as [l|] eqn:e; [|discriminate].
  intros E. injection E as <- <-. exists l. repeat split; auto.
Qed.

Lemma new_type_lineal R bases b R' t : good R -> lineal R -> (forall u, In u bases -> known R u) ->
  new_type R bases b = (R', TOk t) -> lineal R'.
Proof.
  intros g ln hb en. destruct (new_type_mro _ _ _ _ _ en) as (l & ec & em & ei & et & _).
  destruct (c3_in _ _ _ ec) as (l0 & -> & hin).
  assert (k' : forall c, known R' c -> known R c \/ c = t).
  { unfold known. rewrite et. intros c i. apply in_app_or in i as [i|[E|[]]]; auto. injection E as _ ->. auto. }
  assert (nin : forall c, known R c -> ~ In (length (r_types R)) (p_mro c)).
  { intros c kc i. pose proof (mro_bound _ _ _ g kc i). lia. }
  constructor.
  - intros u c ku kc i. apply k' in ku as [ku| ->]; apply k' in kc as [kc| ->].
    + eapply (l_closed _ ln); eauto.
    + exfalso. apply (nin u); auto. now rewrite <- ei.
    + rewrite em in i |- *. destruct i as [i|i].
      { exfalso. pose proof (known_bound _ _ g kc). lia. }
      intros x ix. right. apply hin in i as [w [iw j]]. apply hin. exists w. split; auto. left.
      destruct j as [j|j].
      * exact (l_closed _ ln w c (hb _ iw) kc j x ix).
      * assert (c = w) as -> by (eapply known_inj; eauto). auto.
    + intros x; auto.
  - intros u ku. apply k' in ku as [ku| ->]; [now apply (l_nodup _ ln)|]. rewrite em. constructor.
    + intros i. apply hin in i as [w [iw [j|j]]].
      * apply (nin w); auto.
      * pose proof (known_bound _ _ g (hb _ iw)). lia.
    + unfold c3 in ec. destruct (c3_merge _ _) as [r|] eqn:er; [|discriminate]. injection ec as <-.
      eapply c3_merge_nodup; eauto.
Qed.

(** ** An invariant of composition *)
Section Preserved.
Variable P : reg -> Prop.
Hypothesis step : forall R bt ot R' t wanted, good R -> P R -> known R bt -> known R ot -> canonical wanted ->
  incl (p_traits bt) wanted -> incl (p_traits ot) wanted ->
  hd_error (p_traits bt) = hd_error wanted ->
  new_type R [bt; ot] empty_body = (R', TOk t) -> P R'.

Lemma mix_bases_P wanted longest : canonical wanted -> forall bases R stock made R' r,
  good R -> P R -> (forall k, In k bases -> incl k wanted /\ hd_error k = hd_error wanted) ->
  (forall k, In k stock -> incl k wanted) ->
  mix_bases R wanted longest bases stock made = (R', r) -> P R'.
Proof.
  intros cw. induction bases as [|base bases IH]; cbn [mix_bases]; intros R stock made R' r g p hb hs.
  { intros E; injection E as <- <-. auto. }
  assert (hb' : forall k, In k bases -> incl k wanted /\ hd_error k = hd_error wanted) by (intros; apply hb; simpl; auto).
  destruct (negb (length base =? longest)); [eapply IH; eauto|].
  destruct (pick R wanted base (ksort stock) (length wanted - length base) None None) as [m o] eqn:ep.
  destruct (pick_spec _ _ _ _ _ _ _ _ _ ep) as [hm ho].
  destruct m as [[[|x mk] product]|]; [eapply IH; eauto| |eapply IH; eauto].
  destruct o as [other|]; [|eapply IH; eauto].
  destruct hm as [hm|(k1 & i1 & hm & hr)]; [discriminate|]. injection hm as ek ->.
  destruct ho as [ho|(k2 & i2 & ho)]; [discriminate|]. injection ho as ->.
  rewrite ksort_in in i1. rewrite ksort_in in i2. subst k1.
  destruct (lookup R base) as [bt|] eqn:eb; [destruct (lookup R k2) as [ot|] eqn:eo|].
  2,3: intros E; injection E as <- <-; auto.
  destruct (lookup_known _ _ _ g eb) as [kb tb]. destruct (lookup_known _ _ _ g eo) as [ko to].
  destruct (new_type R [bt; ot] empty_body) as [R1 [t|e]] eqn:en.
  2:{ intros E; injection E as <- <-. apply new_type_err in en as [-> _]. auto. }
  destruct (hb base (or_introl eq_refl)) as [hb1 hb2].
  assert (p1 : P R1).
  { eapply step; [exact g|exact p|exact kb|exact ko|exact cw|rewrite tb; auto|rewrite to; auto|rewrite tb; auto|exact en]. }
  destruct (new_type_ok R [bt; ot] empty_body R1 t g) as (g1 & _); auto; try discriminate.
  { intros u [<-|[<-|[]]]; auto. }
  intros E. eapply IH; [exact g1|exact p1|exact hb'| |exact E].
  intros k i. assert (j : In k stock \/ k = key_of (base ++ x :: mk)).
  { destruct (existsb _ stock); auto. apply in_app_or in i as [i|[<-|[]]]; auto. }
  destruct j as [j| ->]; auto. intros s i'. rewrite key_of_in in i'. apply in_app_or in i' as [i'|i']; auto.
  apply (hs (x :: mk)); auto.
Qed.

Lemma mix_loop_P wanted : canonical wanted -> forall fuel R stock R' r,
  good R -> P R -> (forall k, In k stock -> incl k wanted) ->
  mix_loop fuel R wanted stock = (R', r) -> P R'.
Proof.
  intros cw. induction fuel as [|n IH]; cbn [mix_loop]; intros R stock R' r g p hs.
  { intros E; injection E as <- <-. auto. }
  destruct (registered R wanted); [intros E; injection E as <- <-; auto|].
  destruct (filter (starts wanted) stock) as [|k0 ks] eqn:ef; [intros E; injection E as <- <-; auto|].
  rewrite <- ef.
  destruct (mix_bases R wanted _ (ksort (filter (starts wanted) stock)) stock false) as [R1 r1] eqn:em.
  assert (hb : forall k, In k (ksort (filter (starts wanted) stock)) -> incl k wanted /\ hd_error k = hd_error wanted).
  { intros k i. rewrite ksort_in in i. apply filter_In in i as [i j]. split; auto.
    unfold starts in j. destruct k, wanted; try discriminate. apply str_eqb_eq in j. subst. reflexivity. }
  pose proof (mix_bases_P wanted _ cw _ _ _ _ _ _ g p hb hs em) as p1.
  apply mix_bases_spec in em as (g1 & ex & wi & hd & h); auto.
  2:{ intros k i. now apply hb. }
  destruct r1 as [[stock' [|]]|e].
  - destruct h as (h1 & _). intros E. eapply IH; eauto.
  - intros E; injection E as <- <-. auto.
  - intros E; injection E as <- <-. auto.
Qed.

Lemma create_P R wanted R' r : good R -> P R -> canonical wanted -> create R wanted = (R', r) -> P R'.
Proof.
  intros g p cw. unfold create, create_with. destruct (forallb _ wanted).
  - intros E. eapply mix_loop_P; eauto. intros k i. apply filter_In in i as [_ i]. now apply subset_incl.
  - intros E; injection E as <- <-. auto.
Qed.

Lemma has_P R self positional k R' r : good R -> P R -> has R self positional k = (R', r) -> P R'.
Proof.
  intros g p. unfold has. destruct positional; [intros E; injection E as <- <-; auto|].
  destruct (duck_traits _ _ _ _ _) as [[extra safe]|e]; [|intros E; injection E as <- <-; auto].
  set (wanted := key_of _). assert (cw : canonical wanted) by apply key_of_canonical.
  destruct (registered R wanted).
  - destruct (lookup R wanted); intros E; injection E as <- <-; auto.
  - destruct (create R wanted) as [R1 r1] eqn:ec. pose proof (create_P _ _ _ _ g p cw ec) as p1.
    destruct r1; [destruct (lookup R1 wanted)|]; intros E; injection E as <- <-; auto.
Qed.

Lemma new_chain_P : forall fuel R selfie self positional k R' r, good R -> P R ->
  new_chain fuel R selfie self positional k = (R', r) -> P R'.
Proof.
  induction fuel as [|n IH]; cbn [new_chain]; intros R selfie self positional k R' r g p.
  { intros E; injection E as <- <-; auto. }
  destruct (has R self positional _) as [R1 r1] eqn:eh.
  pose proof (has_P _ _ _ _ _ _ g p eh) as p1.
  destruct (has_state _ _ _ _ _ _ g eh) as (g1 & _).
  destruct r1 as [u|e]; [|intros E; injection E as <- <-; auto].
  destruct (after (p_id selfie) (p_mro self)) as [[|i rest]|]; [intros E; injection E as <- <-; auto| |intros E; injection E as <- <-; auto].
  destruct (class_of R1 i) as [next|]; [|intros E; injection E as <- <-; auto]. intros E. eapply IH; eauto.
Qed.

Lemma declare_P R t k R' r : good R -> P R -> declare R t k = (R', r) -> good R' /\ P R'.
Proof.
  intros g p. unfold declare. destruct (new_chain 100 R t t false k) as [R1 r1] eqn:en.
  pose proof (new_chain_P _ _ _ _ _ _ _ _ g p en) as p1.
  destruct (new_chain_state _ _ _ _ _ _ _ _ g en) as [g1 _].
  destruct r1; intros E; injection E as <- <-; auto.
Qed.
End Preserved.

(** ** The type made for one trait stays in front *)
Section Placed.
Variable S : ptype.
Variable s : str.

(** A class that only joins others, with the trait [s] *)
Definition joins (R : reg) (i : nat) : Prop :=
  exists c, known R c /\ p_id c = i /\ p_own c = None /\ In s (p_traits c).

Record placed (R : reg) : Prop := {
  pl_lineal : lineal R;
  pl_known : known R S;
  pl_own : p_own S = Some s;
  pl_only : forall c, known R c -> p_own c = Some s -> c = S;
  pl_led : forall t, known R t -> hd_error (p_traits t) = Some s -> led (p_id S) (joins R) (p_mro t)
}.

Lemma hd_least k x : canonical k -> In x k -> hd_error k = Some x \/ exists y, hd_error k = Some y /\ slt y x.
Proof.
  intros c i. destruct k as [|y k]; [destruct i|]. simpl. destruct i as [->|i]; auto.
  right. exists y. split; auto. inversion_clear c as [|? ? c' f]. rewrite Forall_forall in f. auto.
Qed.
Lemma hd_incl k w x : canonical k -> canonical w -> incl k w -> hd_error w = Some x -> In x k -> hd_error k = Some x.
Proof.
  intros ck cw h hw i. destruct (hd_least k x ck i) as [?|[y [hy l]]]; auto. exfalso.
  assert (iy : In y w). { apply h. destruct k; [discriminate|]. injection hy as ->. simpl; auto. }
  destruct w as [|z w]; [discriminate|]. injection hw as ->. destruct iy as [->|iy]; [now apply (slt_irrefl y)|].
  inversion_clear cw as [|? ? c' f]. rewrite Forall_forall in f. apply (slt_irrefl x).
  eapply str_cmp_trans; [apply f, iy|exact l].
Qed.

Lemma traits_canonical R t : good R -> known R t -> canonical (p_traits t).
Proof. intros g k. now apply (g_traits _ g) in k as [_ k]. Qed.

(** A class without the trait has neither [S] nor what joins it among its ancestors. *)
Lemma without R t i : good R -> placed R -> known R t -> ~ In s (p_traits t) -> In i (p_mro t) ->
  i <> p_id S /\ ~ joins R i.
Proof.
  intros g pl k n ii. split.
  - intros ->. apply n. apply (g_own _ g _ _ k). exists (p_id S). split; auto.
    exists S. split; [apply (pl_known _ pl)|]. split; auto. apply (pl_own _ pl).
  - intros (c & kc & <- & _ & ic). apply n. apply (g_own _ g _ _ kc) in ic as [j [ij oj]].
    apply (g_own _ g _ _ k). exists j. split; auto. exact (l_closed _ (pl_lineal _ pl) t c k kc ii j ij).
Qed.

Lemma led_mono a (ok ok' : nat -> Prop) l : (forall i, ok i -> ok' i) -> led a ok l -> led a ok' l.
Proof. intros h (pre & rest & -> & h1 & h2). exists pre, rest. auto. Qed.

Lemma placed_step R bt ot R' t wanted : good R -> placed R -> known R bt -> known R ot -> canonical wanted ->
  incl (p_traits bt) wanted -> incl (p_traits ot) wanted ->
  hd_error (p_traits bt) = hd_error wanted ->
  new_type R [bt; ot] empty_body = (R', TOk t) -> placed R'.
Proof.
  intros g pl kb ko cw ib io hh en.
  assert (hb : forall u, In u [bt; ot] -> known R u) by (intros u [<-|[<-|[]]]; auto).
  pose proof (new_type_lineal _ _ _ _ _ g (pl_lineal _ pl) hb en) as ln'.
  destruct (new_type_ok R [bt; ot] empty_body R' t g) as (g' & ex & kt & _ & htr & _); auto; try discriminate.
  destruct (new_type_mro _ _ _ _ _ en) as (l & ec & em & ei & et & eo & _). simpl in eo.
  assert (k' : forall c, known R' c -> known R c \/ c = t).
  { unfold known. rewrite et. intros c i. apply in_app_or in i as [i|[E|[]]]; auto. injection E as _ ->. auto. }
  assert (jm : forall i, joins R i -> joins R' i).
  { intros i (c & kc & h). exists c. split; auto. now apply ex. }
  constructor; auto.
  - apply ex, (pl_known _ pl).
  - apply (pl_own _ pl).
  - intros c kc oc. apply k' in kc as [kc| ->]; [now apply (pl_only _ pl)|congruence].
  - intros c kc hc. apply k' in kc as [kc| ->].
    { apply (led_mono _ _ _ _ jm). now apply (pl_led _ pl). }
    assert (ct : canonical (p_traits t)) by (eapply traits_canonical; eauto).
    assert (it : incl (p_traits t) wanted).
    { intros x i. apply htr in i as [[]|[u [[<-|[<-|[]]] i]]]; auto. }
    assert (hw : hd_error wanted = Some s).
    { destruct wanted as [|x w] eqn:ew.
      - exfalso. destruct (p_traits t); [discriminate|]. exact (it _ (or_introl eq_refl)).
      - rewrite <- ew in *. assert (ix : In x (p_traits t)).
        { apply htr. right. exists bt. split; simpl; auto. rewrite ew in hh. destruct (p_traits bt); [discriminate|].
          injection hh as ->. simpl; auto. }
        assert (hx : hd_error wanted = Some x) by now rewrite ew.
        pose proof (hd_incl _ _ _ ct cw it hx ix) as e. congruence. }
    rewrite hw in hh.
    assert (jt : joins R' (p_id t)).
    { exists t. split; auto. split; auto. split; auto. destruct (p_traits t); [discriminate|]. injection hc as ->. simpl; auto. }
    unfold c3 in ec. cbn [map app] in ec. destruct (c3_merge _ _) as [r|] eqn:er; [|discriminate].
    injection ec as <-. rewrite em.
    assert (nS : p_id S <> length (r_types R)).
    { pose proof (known_bound _ _ g (pl_known _ pl)). lia. }
    assert (hr : led (p_id S) (joins R') r).
    { destruct (pl_led _ pl bt kb hh) as (pre & rest & eb & h1 & h2).
      destruct (in_dec str_eq_dec s (p_traits ot)) as [is|is].
      - assert (ho : hd_error (p_traits ot) = Some s).
        { exact (hd_incl _ _ _ (traits_canonical _ _ g ko) cw io hw is). }
        eapply c3_merge_led; [|exact er|].
        + destruct (pl_led _ pl ot ko ho) as (pre2 & rest2 & eo2 & h3 & h4).
          assert (one : forall u, known R u -> hd_error (p_traits u) = Some s -> p_id u = p_id S \/ joins R' (p_id u)).
          { intros u ku hu. destruct (g_mro _ g _ ku) as ((l & e) & _ & _).
            destruct (pl_led _ pl u ku hu) as ([|x p] & q & e2 & _ & h).
            - left. rewrite e in e2. simpl in e2. congruence.
            - right. rewrite e in e2. injection e2 as -> _. apply jm, h. simpl; auto. }
          intros m [<-|[<-|[<-|[]]]].
          * left. exists pre, rest. auto.
          * left. exists pre2, rest2. auto.
          * destruct (one bt kb hh) as [e1|j1].
            { left. exists [], [p_id ot]. rewrite e1. split; [reflexivity|]. split; [intros []|intros ? []]. }
            destruct (Nat.eq_dec (p_id bt) (p_id S)) as [e1|n1].
            { left. exists [], [p_id ot]. rewrite e1. split; [reflexivity|]. split; [intros []|intros ? []]. }
            destruct (Nat.eq_dec (p_id ot) (p_id S)) as [e2|n2].
            { left. exists [p_id bt], []. rewrite e2. split; [reflexivity|]. simpl.
              split; [intros [?|[]]; congruence|]. intros i [<-|[]]; auto. }
            right. split; [intros [?|[?|[]]]; congruence|]. destruct (one ot ko ho) as [?|j2]; [congruence|].
            intros i [<-|[<-|[]]]; auto.
        + exists (p_mro bt). split; [simpl; auto|]. rewrite eb. apply in_or_app. simpl; auto.
      - rewrite eb in er. apply c3_merge_first in er as [rest' ->].
        + exists pre, rest'. auto.
        + rewrite <- eb. now apply (l_nodup _ (pl_lineal _ pl)).
        + assert (w : forall i, In i (p_mro ot) -> i <> p_id S /\ ~ In i pre).
          { intros i ii. destruct (without R ot i g pl ko is ii) as [n1 n2]. split; auto. }
          intros m i [<-|[<-|[]]] ii.
          * apply w. destruct (p_mro ot); simpl in *; auto.
          * simpl in ii. destruct ii as [<-|[]]. apply w.
            destruct (g_mro _ g _ ko) as ((q & ->) & _). simpl; auto. }
    destruct hr as (pre & rest & -> & h1 & h2).
    exists (length (r_types R) :: pre), rest. split; [reflexivity|]. split.
    + intros [?|?]; auto.
    + intros i [<-|i2]; auto. now rewrite <- ei.
Qed.
End Placed.

(** Making the type: its trait must be new. *)
Lemma make_placed R root b R' S s : good R -> lineal R -> lookup R [] = Some root ->
  b_trait b = Some s -> s <> [] -> (forall c, known R c -> ~ In s (p_traits c)) ->
  new_type R [root] b = (R', TOk S) -> good R' /\ placed S s R'.
Proof.
  intros g ln hroot hb ne fresh en.
  destruct (lookup_known _ _ _ g hroot) as [kr tr].
  assert (hbs : forall u, In u [root] -> known R u) by (intros u [<-|[]]; auto).
  pose proof (new_type_lineal _ _ _ _ _ g ln hbs en) as ln'.
  destruct (new_type_ok R [root] b R' S g) as (g' & ex & kt & _ & htr & _); auto; try discriminate.
  destruct (new_type_mro _ _ _ _ _ en) as (l & ec & em & ei & et & eo & _).
  split; auto. constructor; auto.
  - rewrite eo, hb. destruct s; congruence.
  - unfold known. rewrite et. intros c i oc. apply in_app_or in i as [i|[E|[]]]; [|congruence].
    exfalso. apply (fresh c i). apply (g_own _ g _ _ i). exists (p_id c). split.
    + destruct (g_mro _ g _ i) as ((q & ->) & _). simpl; auto.
    + exists c. auto.
  - intros t k h. unfold known in k. rewrite et in k. apply in_app_or in k as [k|[E|[]]].
    + exfalso. apply (fresh t k). destruct (p_traits t); [discriminate|]. injection h as ->. simpl; auto.
    + injection E as _ ->. exists [], (tl (p_mro t)). destruct (g_mro _ g' _ kt) as ((q & e) & _).
      rewrite e. split; [reflexivity|]. split; [intros []|intros ? []].
Qed.

(** ** Arguments *)
Section Arguments.
Context {V : Type}.
Variable looks : V -> bool.
Notation dict := (list (str * V)).

Lemma names_in (d : dict) n : In n (names d) <-> exists v, In (n, v) d.
Proof.
  unfold names. rewrite in_map_iff. split.
  - intros [[m v] [<- i]]. eauto.
  - intros [v i]. exists (n, v). auto.
Qed.
Lemma fill_in (d kw : dict) n v : In (n, v) (fill d kw) <-> In (n, v) kw \/ (In (n, v) d /\ forall w, ~ In (n, w) kw).
Proof.
  unfold fill. rewrite in_app_iff, filter_In. simpl. rewrite negb_true_iff, smem_not, names_in.
  split; intros [?|[? h]]; auto; right; split; auto.
  - intros w i. apply h. eauto.
  - intros [w i]. eapply h; eauto.
Qed.
Lemma fill_written (d kw : dict) : written_out d kw (fill d kw).
Proof. intros n v. apply fill_in. Qed.

Lemma filter_nil {X} (f : X -> bool) l : (forall x, In x l -> f x = false) -> filter f l = [].
Proof.
  induction l as [|x l IH]; simpl; intros h; auto. rewrite h; auto.
Qed.
Lemma fill_idem (d kw : dict) : fill d (fill d kw) = fill d kw.
Proof.
  unfold fill at 1. rewrite filter_nil; [apply app_nil_r|]. intros [n v] i. simpl.
  apply negb_false_iff, smem_in, names_in.
  destruct (smem n (names kw)) eqn:e.
  - apply smem_in, names_in in e as [w h]. exists w. apply fill_in. auto.
  - exists v. apply fill_in. right. split; auto. intros w h. apply smem_not in e. apply e, names_in. eauto.
Qed.

Lemma run_front (l : list (init_body V)) : forall pre d kw, (forall b, In b pre -> b = NoInit) ->
  run looks (pre ++ Supplies d :: l) kw = run looks (pre ++ Supplies d :: l) (fill d kw).
Proof.
  induction pre as [|b pre IH]; intros d kw h.
  - cbn [app run]. now rewrite fill_idem.
  - rewrite (h b (or_introl eq_refl)). cbn [app run]. apply IH. intros; apply h; simpl; auto.
Qed.

Lemma mix_fill (d kw : dict) dt kt : NoDup (names d) ->
  mix_kwargs (shape looks dt d) (shape looks kt (fill d kw)) = mix_kwargs (shape looks dt d) (shape looks kt kw).
Proof.
  intros nd. unfold mix_kwargs, shape. cbn [kw_traits kw_args]. f_equal. f_equal.
  - rewrite !map_map. apply map_ext_in. intros [n v] i. cbn [fst snd].
    unfold fill. rewrite map_app.
    set (f := fun b : str * bool => str_eqb (fst b) n).
    assert (fa : forall l m, find f (l ++ m) = match find f l with Some x => Some x | None => find f m end).
    { induction l as [|x l IH]; simpl; intros; auto. destruct (f x); auto. }
    rewrite fa. destruct (find f (map _ kw)) eqn:e; auto.
    assert (nk : smem n (names kw) = false).
    { apply smem_not. intros h. apply names_in in h as [w h].
      pose proof (find_none _ _ e (n, looks w)) as q. unfold f in q. cbn [fst] in q. rewrite str_eqb_refl in q.
      assert (t : true = false); [|discriminate]. apply q. apply in_map_iff. exists (n, w). auto. }
    destruct (find f (map _ (filter _ d))) as [[m b]|] eqn:e2; auto.
    apply find_some in e2 as [j q]. unfold f in q. cbn [fst] in q. apply str_eqb_eq in q. subst m.
    apply in_map_iff in j as [[m w] [E j]]. cbn [fst snd] in E. injection E as -> <-. apply filter_In in j as [j _].
    assert (v = w); [|subst; auto].
    clear - nd i j. induction d as [|[m u] d IH]; [destruct i|]. simpl in nd. inversion_clear nd as [|? ? n1 n2].
    destruct i as [E|i], j as [E2|j].
    + congruence.
    + injection E as -> ->. exfalso. apply n1, names_in. eauto.
    + injection E2 as -> ->. exfalso. apply n1, names_in. eauto.
    + auto.
  - unfold fill. rewrite map_app, filter_app. rewrite (filter_nil _ (map _ (filter _ d))); [apply app_nil_r|].
    intros [n b] i. apply in_map_iff in i as [[m v] [E j]]. injection E as -> _. apply filter_In in j as [j _].
    simpl. apply negb_false_iff, smem_in. rewrite map_map. apply in_map_iff. exists (n, v). auto.
Qed.
End Arguments.

Section Runs.
Context {V : Type}.
Variable looks : V -> bool.
Notation dict := (list (str * V)).

(** The arguments a class takes for itself *)
Definition params (b : init_body V) : list str :=
  match b with Takes ns | Last ns => ns | TakesV1 => [v1_none_s] | NoInit | Supplies _ => [] end.

Definition proper (l : list (init_body V)) : Prop := forall d, In (Supplies d) l -> NoDup (names d).

Lemma names_filter (f : str * V -> bool) (kw : dict) : NoDup (names kw) -> NoDup (names (filter f kw)).
Proof.
  induction kw as [|[n v] kw IH]; simpl; intros h; auto. inversion_clear h as [|? ? h1 h2].
  destruct (f (n, v)); simpl; auto. constructor; auto.
  intros i. apply h1. apply names_in in i as [w i]. apply filter_In in i as [i _]. apply names_in. eauto.
Qed.
Lemma names_fill (d kw : dict) : NoDup (names d) -> NoDup (names kw) -> NoDup (names (fill d kw)).
Proof.
  intros hd hk. unfold fill, names. rewrite map_app.
  assert (g : forall a b : list str, NoDup a -> NoDup b -> (forall x, In x a -> ~ In x b) -> NoDup (a ++ b)).
  { induction a as [|x a IH]; simpl; intros b ha hb hx; auto. inversion_clear ha as [|? ? h1 h2].
    constructor; [|apply IH; auto]. rewrite in_app_iff. intros [?|?]; auto. eapply hx; eauto. }
  apply g; auto; [now apply names_filter|].
  intros x i j. fold (names kw) in i. apply in_map_iff in j as [[n v] [<- j]]. apply filter_In in j as [_ j].
  simpl in j. apply negb_true_iff, smem_not in j. auto.
Qed.
Lemma find_arg_iff (kw : dict) n v : NoDup (names kw) -> find_arg n kw = Some v <-> In (n, v) kw.
Proof.
  intros nd. unfold find_arg. split.
  - destruct (find _ kw) as [[m w]|] eqn:e; [|discriminate]. intros E. injection E as <-.
    apply find_some in e as [i e]. simpl in e. apply str_eqb_eq in e. now subst.
  - induction kw as [|[m w] kw IH]; simpl; [intros []|]. simpl in nd. inversion_clear nd as [|? ? h1 h2].
    intros [E|i].
    + injection E as -> ->. now rewrite str_eqb_refl.
    + destruct (str_eqb m n) eqn:e; [|now apply IH]. apply str_eqb_eq in e. subst. exfalso. apply h1, names_in. eauto.
Qed.
Lemma find_arg_none (kw : dict) n : find_arg n kw = None -> forall v, ~ In (n, v) kw.
Proof.
  unfold find_arg. destruct (find _ kw) as [?|] eqn:e; [discriminate|]. intros _ v i.
  apply find_none with (x := (n, v)) in e; auto. simpl in e. now rewrite str_eqb_refl in e.
Qed.

Definition arrives (n : str) (v : V) (a : dict) : Prop :=
  In (n, v) a \/ (n = default_s /\ looks v = true /\ In (v1_none_s, v) a).

Lemma arrives_app n v a b : arrives n v b -> arrives n v (a ++ b).
Proof. intros [h|(e & h & i)]; [left|right; split; auto; split; auto]; apply in_or_app; auto. Qed.

Lemma run_kept : forall l kw a, proper l -> NoDup (names kw) -> run looks l kw = Some a ->
  forall n v, In (n, v) kw -> arrives n v a.
Proof.
  induction l as [|b l IH]; intros kw a hp nd.
  { cbn [run]. destruct kw; [intros _ n v []|discriminate]. }
  assert (hp' : proper l) by (intros d i; apply hp; simpl; auto).
  destruct b; cbn [run].
  - eauto.
  - destruct (run looks l _) as [r|] eqn:er; [|discriminate]. intros E; injection E as <-. intros n v i.
    destruct (smem n ns) eqn:e.
    + left. apply in_or_app. left. apply filter_In. auto.
    + apply arrives_app. eapply IH; [auto| |exact er|]; [now apply names_filter|]. apply filter_In. simpl. now rewrite e.
  - set (rest := filter (fun a0 => negb (str_eqb (fst a0) v1_none_s)) kw).
    assert (nr : NoDup (names rest)) by now apply names_filter.
    assert (hr : forall n v, In (n, v) kw -> n = v1_none_s \/ In (n, v) rest).
    { intros n v i. destruct (str_eqb n v1_none_s) eqn:e; [left; now apply str_eqb_eq|].
      right. apply filter_In. simpl. now rewrite e. }
    destruct (find_arg v1_none_s kw) as [v0|] eqn:e1.
    + apply find_arg_iff in e1; auto. destruct (run looks l rest) as [r|] eqn:er; [|discriminate]. intros E; injection E as <-.
      intros n v i. destruct (hr _ _ i) as [->|j].
      * left. left. f_equal. apply find_arg_iff in i; auto. apply find_arg_iff in e1; auto. congruence.
      * apply (arrives_app n v [_] r). eapply IH; eauto.
    + pose proof (find_arg_none _ _ e1) as n1.
      destruct (find_arg default_s kw) as [v0|] eqn:e2; [destruct (looks v0) eqn:el|].
      * apply find_arg_iff in e2; auto.
        destruct (run looks l _) as [r|] eqn:er; [|discriminate]. intros E; injection E as <-. intros n v i.
        destruct (hr _ _ i) as [->|j]; [exfalso; eapply n1; eauto|].
        destruct (str_eqb n default_s) eqn:e.
        -- apply str_eqb_eq in e. subst. assert (v0 = v) as <-.
           { apply find_arg_iff in i; auto. apply find_arg_iff in e2; auto. congruence. }
           right. split; auto. split; auto. left; auto.
        -- apply (arrives_app n v [_] r). eapply IH; [auto| |exact er|]; [now apply names_filter|].
           apply filter_In. simpl. now rewrite e.
      * intros E n v i. destruct (hr _ _ i) as [->|j]; [exfalso; eapply n1; eauto|]. eapply IH; eauto.
      * intros E n v i. destruct (hr _ _ i) as [->|j]; [exfalso; eapply n1; eauto|]. eapply IH; eauto.
  - intros E n v i. eapply IH; [auto| |exact E|].
    + apply names_fill; auto. apply hp; simpl; auto.
    + apply fill_in. auto.
  - destruct (forallb _ kw); [|discriminate]. intros E; injection E as <-. intros n v i. left; auto.
Qed.

Lemma run_taken : forall l kw a, run looks l kw = Some a -> forall n v, In (n, v) kw ->
  In n (flat_map params l) \/ n = default_s.
Proof.
  induction l as [|b l IH]; intros kw a.
  { cbn [run]. destruct kw; [intros _ n v []|discriminate]. }
  destruct b; cbn [run flat_map params app].
  - intros E. eapply IH; eauto.
  - destruct (run looks l _) as [r|] eqn:er; [|discriminate]. intros E n v i.
    destruct (smem n ns) eqn:e; [left; apply in_or_app; left; now apply smem_in|].
    destruct (IH _ _ er n v) as [h|h]; auto; [|left; apply in_or_app; auto]. apply filter_In. simpl. now rewrite e.
  - set (rest := filter (fun a0 => negb (str_eqb (fst a0) v1_none_s)) kw).
    assert (hr : forall n v, In (n, v) kw -> n = v1_none_s \/ In (n, v) rest).
    { intros n v i. destruct (str_eqb n v1_none_s) eqn:e; [left; now apply str_eqb_eq|].
      right. apply filter_In. simpl. now rewrite e. }
    intros E n v i. destruct (hr _ _ i) as [->|j]; [left; left; auto|].
    assert (back : forall kw' r, run looks l kw' = Some r -> In (n, v) kw' ->
              In n (v1_none_s :: flat_map params l) \/ n = default_s).
    { intros kw' r er k. destruct (IH _ _ er _ _ k) as [h|h]; auto. left. right; auto. }
    destruct (find_arg v1_none_s kw).
    + destruct (run looks l rest) as [r|] eqn:er; [|discriminate]. eapply back; eauto.
    + destruct (find_arg default_s kw) as [v0|]; [destruct (looks v0)|].
      * destruct (run looks l _) as [r|] eqn:er; [|discriminate].
        destruct (str_eqb n default_s) eqn:e; [right; now apply str_eqb_eq|].
        eapply back; [exact er|]. apply filter_In. simpl. now rewrite e.
      * eapply back; eauto.
      * eapply back; eauto.
  - intros E n v i. eapply IH; [exact E|]. apply fill_in. eauto.
  - destruct (forallb _ kw) eqn:ef; [|discriminate]. intros _ n v i. left. apply in_or_app. left.
    rewrite forallb_forall in ef. apply ef in i. now apply smem_in.
Qed.

Lemma run_late d l2 n : In n (names d) -> ~ In n (flat_map params l2) -> n <> default_s ->
  forall l1 kw, (forall ns, ~ In (Last ns) l1) -> run looks (l1 ++ Supplies d :: l2) kw = None.
Proof.
  intros hn h2 hd. induction l1 as [|b l1 IH]; intros kw hl.
  - cbn [app run]. destruct (run looks l2 (fill d kw)) as [a|] eqn:e; auto. exfalso.
    assert (i : exists v, In (n, v) (fill d kw)).
    { apply names_in in hn as [v i]. destruct (smem n (names kw)) eqn:es.
      - apply smem_in, names_in in es as [w j]. exists w. apply fill_in; auto.
      - exists v. apply fill_in. right. split; auto. intros w j. apply smem_not in es. apply es, names_in. eauto. }
    destruct i as [v i]. destruct (run_taken _ _ _ e _ _ i); auto.
  - assert (hl' : forall ns, ~ In (Last ns) l1) by (intros ns i; apply (hl ns); simpl; auto).
    destruct b; cbn [app run]; try rewrite !IH by auto; auto.
    + destruct (find_arg v1_none_s kw); auto. destruct (find_arg default_s kw) as [v0|]; auto. destruct (looks v0); auto.
    + exfalso. apply (hl ns). simpl; auto.
Qed.

(** where the argument comes from *)
Definition offered (l : list (init_body V)) (kw : dict) (n : str) (v : V) : Prop :=
  In (n, v) kw \/ exists d, In (Supplies d) l /\ In (n, v) d.

Lemma run_source : forall l kw a, run looks l kw = Some a ->
  forall n v, In (n, v) a -> offered l kw n v \/ (n = v1_none_s /\ looks v = true /\ offered l kw default_s v).
Proof.
  induction l as [|b l IH]; intros kw a.
  { cbn [run]. destruct kw; [|discriminate]. intros E; injection E as <-. intros n v []. }
  assert (up : forall kw' kw'' n v, (forall n v, In (n, v) kw' -> In (n, v) kw'') ->
            offered l kw' n v -> offered (b :: l) kw'' n v).
  { intros kw' kw'' n v h [i|(d & i & j)]; [left; auto|right; exists d; simpl; auto]. }
  assert (up2 : forall kw' n v, (forall n v, In (n, v) kw' -> In (n, v) kw) ->
    offered l kw' n v \/ (n = v1_none_s /\ looks v = true /\ offered l kw' default_s v) ->
    offered (b :: l) kw n v \/ (n = v1_none_s /\ looks v = true /\ offered (b :: l) kw default_s v)).
  { intros kw' n v h [o|(e & e2 & o)]; [left|right; split; auto; split; auto]; eapply up; eauto. }
  assert (hf : forall f : str * V -> bool, forall n v, In (n, v) (filter f kw) -> In (n, v) kw).
  { intros f n v i. now apply filter_In in i as [i _]. }
  assert (hff : forall f g : str * V -> bool, forall n v, In (n, v) (filter f (filter g kw)) -> In (n, v) kw).
  { intros f g n v i. apply filter_In in i as [i _]. now apply filter_In in i as [i _]. }
  destruct b; cbn [run].
  - intros E n v i. eapply up2; [|eapply IH; eauto]. auto.
  - destruct (run looks l _) as [r|] eqn:er; [|discriminate]. intros E; injection E as <-. intros n v i.
    apply in_app_or in i as [i|i]; [left; left; eapply hf; eauto|]. eapply up2; [|eapply IH; eauto]. apply hf.
  - assert (fa : forall n v, find_arg n kw = Some v -> In (n, v) kw).
    { unfold find_arg. intros n v. destruct (find _ kw) as [[m w]|] eqn:e; [|discriminate]. intros E. injection E as <-.
      apply find_some in e as [i e]. simpl in e. apply str_eqb_eq in e. now subst. }
    destruct (find_arg v1_none_s kw) as [v0|] eqn:e1.
    + destruct (run looks l _) as [r|] eqn:er; [|discriminate]. intros E; injection E as <-. intros n v [E|i].
      * injection E as <- <-. left; left; auto.
      * eapply up2; [|eapply IH; eauto]. apply hf.
    + destruct (find_arg default_s kw) as [v0|] eqn:e2; [destruct (looks v0) eqn:el|].
      * destruct (run looks l _) as [r|] eqn:er; [|discriminate]. intros E; injection E as <-. intros n v [E|i].
        -- injection E as <- <-. right. split; auto. split; auto. left; auto.
        -- eapply up2; [|eapply IH; eauto]. apply hff.
      * intros E n v i. eapply up2; [|eapply IH; eauto]. apply hf.
      * intros E n v i. eapply up2; [|eapply IH; eauto]. apply hf.
  - intros E n v i.
    assert (uf : forall n v, offered l (fill d kw) n v -> offered (Supplies d :: l) kw n v).
    { intros n' v' [j|(d' & j & j')]; [|right; exists d'; simpl; auto].
      apply fill_in in j as [j|[j _]]; [left; auto|right; exists d; simpl; auto]. }
    destruct (IH _ _ E _ _ i) as [o|(e & e2 & o)]; auto.
  - destruct (forallb _ kw); [|discriminate]. intros E; injection E as <-. intros n v i. left; left; auto.
Qed.

Lemma run_names : forall l kw a, run looks l kw = Some a -> proper l -> NoDup (names kw) ->
  NoDup (flat_map params l) -> NoDup (names a) /\ incl (names a) (flat_map params l).
Proof.
  assert (g : forall a b c d : list str, NoDup a -> NoDup b -> incl a c -> incl b d -> NoDup (c ++ d) -> NoDup (a ++ b)).
  { intros a b c d ha hb hc hd h. induction a as [|x a IH]; simpl; auto. inversion_clear ha as [|? ? h1 h2].
    constructor; [|apply IH; auto; intros y i; apply hc; simpl; auto].
    rewrite in_app_iff. intros [?|i]; auto.
    assert (ic : In x c) by (apply hc; simpl; auto). apply hd in i.
    clear - h ic i. induction c as [|y c IH]; [destruct ic|]. simpl in h. inversion_clear h as [|? ? h1 h2].
    destruct ic as [->|ic]; [apply h1, in_or_app; auto|auto]. }
  assert (tailnd : forall a b : list str, NoDup (a ++ b) -> NoDup b).
  { induction a as [|x a IH]; simpl; auto. intros b h. inversion_clear h. auto. }
  induction l as [|b l IH]; intros kw a.
  { cbn [run]. destruct kw; [|discriminate]. intros E; injection E as <-. intros. split; [constructor|]. intros x []. }
  intros E hp nd ht. assert (hp' : proper l) by (intros d i; apply hp; simpl; auto).
  cbn [flat_map] in *. pose proof (tailnd _ _ ht) as ht'.
  destruct b; cbn [run params] in *.
  - eapply IH; eauto.
  - destruct (run looks l _) as [r|] eqn:er; [|discriminate]. injection E as <-.
    destruct (IH _ _ er hp') as [h1 h2]; auto; [now apply names_filter|].
    assert (h3 : incl (names (filter (fun a => smem (fst a) ns) kw)) ns).
    { intros x i. apply names_in in i as [v i]. apply filter_In in i as [_ i]. now apply smem_in. }
    unfold names in *. rewrite map_app. split.
    + eapply g; [|exact h1|exact h3|exact h2|exact ht]. now apply names_filter.
    + intros x i. apply in_or_app. apply in_app_or in i as [i|i]; auto.
  - assert (nr := names_filter (fun a0 => negb (str_eqb (fst a0) v1_none_s)) kw nd).
    assert (fin : forall (r : dict) (v : V), NoDup (names r) -> incl (names r) (flat_map params l) ->
       NoDup (names ((v1_none_s, v) :: r)) /\ incl (names ((v1_none_s, v) :: r)) ([v1_none_s] ++ flat_map params l)).
    { intros r v h1 h2. simpl in ht |- *. inversion_clear ht as [|? ? n1 n2]. split.
      - constructor; auto.
      - intros x [<-|i]; simpl; auto. }
    destruct (find_arg v1_none_s kw) as [v0|].
    + destruct (run looks l _) as [r|] eqn:er; [|discriminate]. injection E as <-. apply fin; eapply IH; eauto.
    + destruct (find_arg default_s kw) as [v0|]; [destruct (looks v0)|].
      * destruct (run looks l _) as [r|] eqn:er; [|discriminate]. injection E as <-.
        apply fin; eapply IH; eauto; now apply names_filter.
      * destruct (IH _ _ E hp' nr ht') as [h1 h2]. split; auto. intros x i. right; auto.
      * destruct (IH _ _ E hp' nr ht') as [h1 h2]. split; auto. intros x i. right; auto.
  - eapply IH; eauto. apply names_fill; auto. apply hp; simpl; auto.
  - destruct (forallb _ kw) eqn:ef; [|discriminate]. injection E as <-. split; auto.
    intros x i. apply names_in in i as [v i]. rewrite forallb_forall in ef. apply ef in i. simpl in i.
    apply in_or_app. left. now apply smem_in.
Qed.
End Runs.
