From Coq Require Import List Arith NArith Bool Lia.
From Verif Require Import Prelude GraphModel GraphSpec.
Import ListNotations.

Section Proofs.
Context {A C L : Type}.
Notation pv := (pv A).
Notation obj := (obj A C L).
Notation state := (state A C L).
Variable md : mode.
Variable h : list obj.
Variable x : nat.
Notation copy := (copy md h).

Definition done (st : state) (r : nat) : option nat := match look (memo st) r with Some (Done r') => Some r' | _ => None end.
Definition busy (st : state) (r : nat) : Prop := exists l, look (memo st) r = Some (Busy l).
Definition part (f : nat -> option nat) (p q : L * pv) : Prop := fst p = fst q /\ stands_for f (snd p) (snd q).

Record sound (st : state) : Prop := {
  s_in : forall r r', done st r = Some r' -> r' < length (heap st);
  s_inj : forall a b c, done st a = Some c -> done st b = Some c -> a = b }.
(** The object is copied completely *)
Definition whole (st : state) (r r' : nat) : Prop :=
  exists kd l l', nth_error h r = Some (Obj kd l) /\ nth_error (heap st) r' = Some (Obj kd l') /\ Forall2 (part (done st)) l l'.
Record ext (st st' : state) : Prop := {
  e_done : forall r r', done st r = Some r' -> done st' r = Some r';
  e_busy : forall r, busy st r -> busy st' r;
  e_len : length (heap st) <= length (heap st');
  e_heap : forall i, i < length (heap st) -> nth_error (heap st') i = nth_error (heap st) i;
  e_new : forall r, look (memo st) r = None -> look (memo st') r <> None ->
            exists r', done st' r = Some r' /\ length (heap st) <= r' /\ whole st' r r' }.
Record stack (s : list nat) (st : state) : Prop := {
  k_plain : forall r, In r s -> ~ generic h r -> done st r <> None;
  k_gen : forall r, In r s -> look (memo st) r <> None;
  k_busy : forall r, busy st r -> In r s /\ generic h r;
  k_trail : trail h x s;
  k_nodup : NoDup s }.

Definition blank (st : state) (r : nat) : bool := match look (memo st) r with None => true | _ => false end.
Definition unvisited (st : state) : nat := length (filter (blank st) (seq 0 (length h))).

Lemma look_note r e (st : state) q : look (memo (note r e st)) q = if Nat.eqb r q then Some e else look (memo st) q.
Proof. reflexivity. Qed.
Lemma stands_mono f g v w : (forall a b, f a = Some b -> g a = Some b) -> stands_for f v w -> stands_for (A := A) g v w.
Proof. intros M. destruct v, w; cbn; auto. Qed.
Lemma parts_mono f g l l' : (forall a b, f a = Some b -> g a = Some b) -> Forall2 (part f) l l' -> Forall2 (part g) l l'.
Proof. intros M F. induction F; constructor; auto. destruct H as [E S]. split; auto. eapply stands_mono; eauto. Qed.

Lemma ext_refl st : ext st st.
Proof. constructor; auto. intros r E N. contradiction. Qed.
Lemma ext_known st st' : ext st st' -> forall r, look (memo st) r <> None -> look (memo st') r <> None.
Proof.
  intros E r N. destruct (look (memo st) r) as [[r'|l]|] eqn:K; [| |congruence].
  - assert (D : done st r = Some r') by (unfold done; now rewrite K). apply (e_done _ _ E) in D. unfold done in D. now destruct (look (memo st') r).
  - destruct (e_busy _ _ E r) as [l' B]; [now exists l|]. now rewrite B.
Qed.
Lemma ext_trans a b c : ext a b -> ext b c -> ext a c.
Proof.
  intros E F. constructor.
  - intros r r' D. apply (e_done _ _ F), (e_done _ _ E), D.
  - intros r B. apply (e_busy _ _ F), (e_busy _ _ E), B.
  - pose proof (e_len _ _ E). pose proof (e_len _ _ F). lia.
  - intros i I. rewrite (e_heap _ _ F), (e_heap _ _ E); auto. pose proof (e_len _ _ E). lia.
  - intros r N K. destruct (look (memo b) r) as [e|] eqn:Eb.
    + destruct (e_new _ _ E r N) as (r' & D & Le & kd & l & l' & W1 & W2 & W3); [congruence|].
      exists r'. split; [apply (e_done _ _ F), D|]. split; auto. exists kd, l, l'. split; auto. split.
      * rewrite (e_heap _ _ F); auto. apply nth_error_Some. congruence.
      * eapply parts_mono; [|exact W3]. apply (e_done _ _ F).
    + destruct (e_new _ _ F r Eb K) as (r' & D & Le & W). exists r'. split; auto. split; auto.
      pose proof (e_len _ _ E). lia.
Qed.

Lemma filter_length_le {X} (f g : X -> bool) l : (forall y, In y l -> f y = true -> g y = true) -> length (filter f l) <= length (filter g l).
Proof.
  induction l as [|y l IH]; cbn; intros M; auto. specialize (IH (fun z I => M z (or_intror I))).
  pose proof (M y (or_introl eq_refl)). destruct (f y), (g y); cbn; try lia; specialize (H eq_refl); discriminate.
Qed.
Lemma filter_length_lt {X} (f g : X -> bool) l z : In z l -> f z = false -> g z = true ->
  (forall y, In y l -> f y = true -> g y = true) -> length (filter f l) < length (filter g l).
Proof.
  induction l as [|y l IH]; cbn; intros I Ef Eg M; [contradiction|].
  destruct I as [->|I].
  - rewrite Ef, Eg. cbn. pose proof (filter_length_le f g l (fun z I => M z (or_intror I))). lia.
  - specialize (IH I Ef Eg (fun z I => M z (or_intror I))). pose proof (M y (or_introl eq_refl)) as H.
    destruct (f y), (g y); cbn; try lia; specialize (H eq_refl); discriminate.
Qed.
Lemma unvisited_le st st' : (forall r, look (memo st) r <> None -> look (memo st') r <> None) -> unvisited st' <= unvisited st.
Proof.
  intros K. apply filter_length_le. unfold blank. intros r _ E. destruct (look (memo st) r) eqn:N; auto.
  destruct (look (memo st') r) eqn:N'; [discriminate|]. exfalso. apply (K r); congruence.
Qed.
Lemma unvisited_lt st st' r : r < length h -> look (memo st) r = None -> look (memo st') r <> None ->
  (forall r, look (memo st) r <> None -> look (memo st') r <> None) -> unvisited st' < unvisited st.
Proof.
  intros Lr N N' K. apply filter_length_lt with (z := r).
  - apply in_seq. lia.
  - unfold blank. now destruct (look (memo st') r).
  - unfold blank. now rewrite N.
  - unfold blank. intros q _ E. destruct (look (memo st) q) eqn:Nq; auto.
    destruct (look (memo st') q) eqn:Nq'; [discriminate|]. exfalso. apply (K q); congruence.
Qed.

Lemma stack_ext s st st' : stack s st -> ext st st' -> stack s st'.
Proof.
  intros K E. constructor.
  - intros r I G D. pose proof (k_plain _ _ K r I G) as D0. destruct (done st r) eqn:Er; [|congruence].
    apply (e_done _ _ E) in Er. congruence.
  - intros r I. apply (ext_known _ _ E). apply (k_gen _ _ K r I).
  - intros r [l B]. destruct (look (memo st) r) as [[q|l0]|] eqn:Er.
    + assert (D : done st r = Some q) by (unfold done; now rewrite Er). apply (e_done _ _ E) in D. unfold done in D. rewrite B in D. discriminate.
    + apply (k_busy _ _ K). now exists l0.
    + destruct (e_new _ _ E r Er) as (r' & D & _); [congruence|]. unfold done in D. rewrite B in D. discriminate.
  - apply (k_trail _ _ K).
  - apply (k_nodup _ _ K).
Qed.

(** Telling changes nothing else *)
Lemma tell_done r now (st : state) : forall q, done (tell md r now st) q = done st q.
Proof.
  intros q. unfold tell. destruct md; auto. destruct (look (memo st) r) as [[?|?]|] eqn:E; auto.
  unfold done. rewrite look_note. destruct (Nat.eqb r q) eqn:Q; auto. apply Nat.eqb_eq in Q. subst. now rewrite E.
Qed.
Lemma tell_heap r now (st : state) : heap (tell md r now st) = heap st.
Proof. unfold tell. destruct md; auto. now destruct (look (memo st) r) as [[?|?]|]. Qed.
Lemma tell_busy r now (st : state) : forall q, busy st q <-> busy (tell md r now st) q.
Proof.
  intros q. unfold tell. destruct md; [tauto|]. destruct (look (memo st) r) as [[?|?]|] eqn:E; try tauto.
  unfold busy. rewrite look_note. destruct (Nat.eqb r q) eqn:Q; [|tauto]. apply Nat.eqb_eq in Q. subst. rewrite E.
  split; intros _; eauto.
Qed.
Lemma tell_none r now (st : state) : forall q, look (memo (tell md r now st)) q = None <-> look (memo st) q = None.
Proof.
  intros q. unfold tell. destruct md; [tauto|]. destruct (look (memo st) r) as [[?|?]|] eqn:E; try tauto.
  rewrite look_note. destruct (Nat.eqb r q) eqn:Q; [|tauto]. apply Nat.eqb_eq in Q. subst. rewrite E. split; discriminate.
Qed.
Lemma tell_ext r now (st : state) : ext st (tell md r now st).
Proof.
  constructor.
  - intros q r' D. now rewrite tell_done.
  - intros q B. now apply tell_busy.
  - now rewrite tell_heap.
  - intros i I. now rewrite tell_heap.
  - intros q N K. apply (tell_none r now) in N. contradiction.
Qed.
Lemma tell_sound r now (st : state) : sound st -> sound (tell md r now st).
Proof. intros [S1 S2]. constructor; intros *; rewrite ?tell_done, ?tell_heap; eauto. Qed.

(** [f] tells only *)
Definition quiet (f : list (L * pv) -> state -> state) : Prop :=
  forall now st, ext st (f now st) /\ (sound st -> sound (f now st)).

Hypothesis CL : closed h.

Definition works n := forall v st s, sound st -> stack s st -> leads h v -> (forall r, v = PR r -> next h x s r) -> unvisited st < n ->
  exists v' st', copy n v st = Some (v', st') /\ sound st' /\ ext st st' /\ stands_for (done st') v v'.

Lemma all_works n f : works n -> quiet f -> forall l st s before,
  sound st -> stack s st -> (forall k v, In (k, v) l -> leads h v /\ forall r, v = PR r -> next h x s r) -> unvisited st < n ->
  exists l' st', copy_all (copy n) f l before st = Some (before ++ l', st') /\ sound st' /\ ext st st' /\ Forall2 (part (done st')) l l'.
Proof.
  intros Wn Q l. induction l as [|[k v] l IH]; intros st s before S K I U.
  - exists [], st. cbn. rewrite app_nil_r. auto using ext_refl.
  - destruct (I k v (or_introl eq_refl)) as [Lv Nv].
    destruct (Wn v st s S K Lv Nv U) as (v' & st1 & E1 & S1 & X1 & C1). cbn [copy_all]. rewrite E1.
    destruct (Q (before ++ [(k, v')]) st1) as [X2 S2]. specialize (S2 S1).
    assert (X12 := ext_trans _ _ _ X1 X2).
    destruct (IH (f (before ++ [(k, v')]) st1) s (before ++ [(k, v')])) as (l' & st' & E3 & S3 & X3 & C3); auto.
    + eapply stack_ext; eauto.
    + intros k0 v0 I0. apply (I k0 v0). now right.
    + eapply Nat.le_lt_trans; [|exact U]. apply unvisited_le. intros r. now apply ext_known.
    + exists ((k, v') :: l'), st'. cbv zeta. rewrite E3, <- app_assoc. split; auto. split; auto. split; [eapply ext_trans; eauto|].
      constructor; auto. split; auto. cbn. eapply stands_mono; [|exact C1]. intros a b D. apply (e_done _ _ X3), (e_done _ _ X2), D.
Qed.

Lemma set_nth_other r (o : obj) t : forall i, i <> r -> nth_error (set_nth r o t) i = nth_error t i.
Proof. revert r. induction t as [|y t IH]; intros [|r] [|i] N; cbn; auto; try congruence. Qed.
Lemma set_nth_same r (o : obj) t : r < length t -> nth_error (set_nth r o t) r = Some o.
Proof. revert r. induction t as [|y t IH]; intros [|r] N; cbn in *; try lia; auto. apply IH. lia. Qed.
Lemma set_nth_len r (o : obj) t : length (set_nth r o t) = length t.
Proof. revert r. induction t as [|y t IH]; intros [|r]; cbn; auto. Qed.

(** A collection which is reached while its items are copied *)
Lemma cycle s1 g s2 : trail h x (s1 ++ g :: s2) -> next h x (s1 ++ g :: s2) g -> trail h g (g :: s1 ++ [g]) /\ trail h x (g :: s2).
Proof.
  intros T N.
  assert (G : trail h x (g :: s2) /\ trail h g (s1 ++ [g])).
  { clear N. induction s1 as [|a s1 IH]; cbn in T.
    - split; auto. cbn. constructor; [constructor|reflexivity].
    - inversion T as [|? ? T1 N1]; subst. destruct (IH T1) as [G1 G2]. split; auto. cbn. constructor; auto.
      destruct s1; exact N1. }
  destruct G as [G1 G2]. split; auto. constructor; auto. destruct s1; exact N.
Qed.
Hypothesis GD : guarded h x.
Lemma never_busy s st r : stack s st -> next h x s r -> ~ busy st r.
Proof.
  intros K N B. destruct (k_busy _ _ K r B) as [I G]. apply in_split in I as (s1 & s2 & ->).
  destruct (cycle s1 r s2 (k_trail _ _ K) N) as [T1 T2].
  destruct (GD r (s1 ++ [r]) G T1) as (d & Id & Nd & Dom); [now destruct s1|].
  specialize (Dom s2 T2). apply in_app_iff in Id as [Id|[<-|[]]]; [|contradiction].
  pose proof (k_nodup _ _ K) as Nn. apply NoDup_remove_1 in Nn.
  clear -Id Dom Nn. induction s1 as [|a s1 IH]; [destruct Id|]. cbn in Nn. inversion Nn as [|? ? M Nn']; subst. destruct Id as [->|Id]; auto.
  apply M. apply in_or_app. auto.
Qed.

Lemma works_all n : works n.
Proof.
  induction n as [|n IH]; intros v st s S K Lv Nv U; [lia|].
  destruct v as [a|r]. { exists (PA a), st. cbn. auto using ext_refl. }
  specialize (Lv r eq_refl). specialize (Nv r eq_refl). cbn [GraphModel.copy].
  destruct (look (memo st) r) as [[r'|now]|] eqn:Er.
  - exists (PR r'), st. split; auto. split; auto. split; [apply ext_refl|]. cbn. unfold done. now rewrite Er.
  - destruct (never_busy s st r K Nv). now exists now.
  - destruct (nth_error h r) as [[kd l]|] eqn:Eh. 2:{ apply nth_error_None in Eh. lia. }
    assert (Ns : ~ In r s). { intros I. now apply (k_gen _ _ K r I). }
    assert (Nd : done st r = None) by (unfold done; now rewrite Er).
    assert (Pt : forall k v, In (k, v) l -> leads h v /\ forall q, v = PR q -> next h x (r :: s) q).
    { intros k v I. split.
      - apply (CL (Obj kd l) k v); [eapply nth_error_In; eauto|exact I].
      - intros q ->. cbn. exists (Obj kd l), k. auto. }
    destruct kd as [c|c].
    + (* plain *)
      set (r' := length (heap st)). set (st1 := note r (Done r') (new (Obj (Plain c) []) st)).
      assert (D1 : forall q, done st1 q = if Nat.eqb r q then Some r' else done st q).
      { intros q. unfold done, st1. rewrite look_note. cbn [new memo]. now destruct (Nat.eqb r q). }
      assert (S1 : sound st1).
      { constructor.
        - intros q q'. rewrite D1. cbn [st1 note new heap]. rewrite app_length. cbn. destruct (Nat.eqb r q).
          + intros E. injection E as <-. unfold r'. lia.
          + intros E. apply (s_in _ S) in E. lia.
        - intros a b c0. rewrite !D1. destruct (Nat.eqb r a) eqn:Ea, (Nat.eqb r b) eqn:Eb.
          + apply Nat.eqb_eq in Ea, Eb. congruence.
          + intros E F. injection E as <-. apply (s_in _ S) in F. unfold r' in F. lia.
          + intros F E. injection E as <-. apply (s_in _ S) in F. unfold r' in F. lia.
          + apply (s_inj _ S). }
      assert (B1 : forall q, busy st1 q -> busy st q).
      { intros q [b B]. unfold st1 in B. rewrite look_note in B. destruct (Nat.eqb r q); [discriminate|]. now exists b. }
      assert (K1 : stack (r :: s) st1).
      { constructor.
        - intros q [<-|I] G; rewrite D1; [now rewrite Nat.eqb_refl|]. destruct (Nat.eqb r q); [discriminate|]. now apply (k_plain _ _ K).
        - intros q I. unfold st1. rewrite look_note. destruct (Nat.eqb r q) eqn:Q; [discriminate|]. cbn [new memo].
          apply (k_gen _ _ K). destruct I as [->|I]; auto. rewrite Nat.eqb_refl in Q. discriminate.
        - intros q B. apply B1 in B. apply (k_busy _ _ K) in B as [I G]. split; auto. now right.
        - constructor; [apply (k_trail _ _ K)|auto].
        - constructor; [auto|apply (k_nodup _ _ K)]. }
      assert (U1 : unvisited st1 < n).
      { enough (unvisited st1 < unvisited st) by lia. apply unvisited_lt with (r := r); auto.
        - unfold st1. rewrite look_note, Nat.eqb_refl. discriminate.
        - intros q N. unfold st1. rewrite look_note. cbn [new memo]. destruct (Nat.eqb r q); [discriminate|auto]. }
      destruct (all_works n (fun _ st => st) IH) with (l := l) (st := st1) (s := r :: s) (before := @nil (L * pv)) as (l' & st2 & E2 & S2 & X2 & C2); auto.
      { intros now st0. split; auto using ext_refl. }
      rewrite E2. cbn [app]. exists (PR r'), (fill r' (Obj (Plain c) l') st2). split; auto.
      assert (D2 : done st2 r = Some r'). { apply (e_done _ _ X2). rewrite D1. now rewrite Nat.eqb_refl. }
      assert (L1 : length (heap st1) = Datatypes.S r'). { cbn. rewrite app_length. cbn. fold r'. lia. }
      pose proof (e_len _ _ X2) as L2.
      split; [|split].
      * constructor.
        -- intros a b D. cbn. rewrite set_nth_len. apply (s_in _ S2 a b D).
        -- intros a b c0 D E. apply (s_inj _ S2 a b c0 D E).
      * constructor.
        -- intros a b D. change (done st2 a = Some b). apply (e_done _ _ X2). rewrite D1.
           destruct (Nat.eqb r a) eqn:Q; auto. apply Nat.eqb_eq in Q. subst. congruence.
        -- intros q [b B]. change (busy st2 q). apply (e_busy _ _ X2). unfold st1. exists b. rewrite look_note.
           destruct (Nat.eqb r q) eqn:Q; auto. apply Nat.eqb_eq in Q. subst. congruence.
        -- cbn. rewrite set_nth_len. fold r'. lia.
        -- intros i Ii. cbn. rewrite set_nth_other by (unfold r'; lia). rewrite (e_heap _ _ X2) by lia. cbn. now rewrite nth_error_app1.
        -- intros q N Kq. change (look (memo st2) q <> None) in Kq.
           destruct (Nat.eqb r q) eqn:Q.
           ++ apply Nat.eqb_eq in Q. subst q. exists r'. split; [exact D2|]. split; [unfold r'; lia|].
              exists (Plain c), l, l'. split; auto. split; [cbn; apply set_nth_same; lia|exact C2].
           ++ destruct (e_new _ _ X2 q) as (q' & Dq & Lq & kd & m & m' & W1 & W2 & W3); auto.
              { unfold st1. rewrite look_note, Q. exact N. }
              exists q'. split; [exact Dq|]. split; [fold r'; lia|]. exists kd, m, m'. split; auto. split; [|exact W3].
              cbn. rewrite set_nth_other; auto. lia.
      * exact D2.
    + (* generic *)
      set (st1 := note r (Busy []) st).
      assert (D1 : forall q, done st1 q = done st q).
      { intros q. unfold done, st1. rewrite look_note. destruct (Nat.eqb r q) eqn:Q; auto. apply Nat.eqb_eq in Q. subst. now rewrite Er. }
      assert (Gr : generic h r) by (now exists c, l).
      assert (S1 : sound st1).
      { constructor; intros *; rewrite ?D1; [apply (s_in _ S)|apply (s_inj _ S)]. }
      assert (K1 : stack (r :: s) st1).
      { constructor.
        - intros q [<-|I] G; [contradiction|]. rewrite D1. now apply (k_plain _ _ K).
        - intros q I. unfold st1. rewrite look_note. destruct (Nat.eqb r q) eqn:Q; [discriminate|].
          apply (k_gen _ _ K). destruct I as [->|I]; auto. rewrite Nat.eqb_refl in Q. discriminate.
        - intros q [b B]. unfold st1 in B. rewrite look_note in B. destruct (Nat.eqb r q) eqn:Q.
          + apply Nat.eqb_eq in Q. subst. split; [now left|auto].
          + destruct (k_busy _ _ K q) as [I G]; [now exists b|]. split; auto. now right.
        - constructor; [apply (k_trail _ _ K)|auto].
        - constructor; [auto|apply (k_nodup _ _ K)]. }
      assert (U1 : unvisited st1 < n).
      { enough (unvisited st1 < unvisited st) by lia. apply unvisited_lt with (r := r); auto.
        - unfold st1. rewrite look_note, Nat.eqb_refl. discriminate.
        - intros q N. unfold st1. rewrite look_note. destruct (Nat.eqb r q); [discriminate|auto]. }
      destruct (all_works n (tell md r) IH) with (l := l) (st := st1) (s := r :: s) (before := @nil (L * pv)) as (l' & st2 & E2 & S2 & X2 & C2); auto.
      { intros now st0. split; [apply tell_ext|apply tell_sound]. }
      rewrite E2. cbn [app]. destruct (e_busy _ _ X2 r) as [b B2].
      { exists []. unfold st1. now rewrite look_note, Nat.eqb_refl. }
      rewrite B2. set (r' := length (heap st2)). set (st3 := note r (Done r') (new (Obj (Generic c) l') st2)).
      assert (R : match md with Pickle => Some (PR r', st3) | Deepcopy => Some (PR r', st3) end = Some (PR (A := A) r', st3)) by (now destruct md).
      exists (PR r'), st3. split; [now destruct md|].
      assert (D3 : forall q, done st3 q = if Nat.eqb r q then Some r' else done st2 q).
      { intros q. unfold done, st3. rewrite look_note. cbn [new memo]. now destruct (Nat.eqb r q). }
      assert (M3 : forall q q', done st2 q = Some q' -> done st3 q = Some q').
      { intros q q' D. rewrite D3. destruct (Nat.eqb r q) eqn:Q; auto. apply Nat.eqb_eq in Q. subst. unfold done in D. rewrite B2 in D. discriminate. }
      assert (L2 : length (heap st) <= r') by (unfold r'; pose proof (e_len _ _ X2) as L2; exact L2).
      split; [|split].
      * constructor.
        -- intros q q'. rewrite D3. cbn [st3 note new heap]. rewrite app_length. cbn. destruct (Nat.eqb r q).
           ++ intros E. injection E as <-. unfold r'. lia.
           ++ intros E. apply (s_in _ S2) in E. lia.
        -- intros a b0 c0. rewrite !D3. destruct (Nat.eqb r a) eqn:Ea, (Nat.eqb r b0) eqn:Eb.
           ++ apply Nat.eqb_eq in Ea, Eb. congruence.
           ++ intros E F. injection E as <-. apply (s_in _ S2) in F. unfold r' in F. lia.
           ++ intros F E. injection E as <-. apply (s_in _ S2) in F. unfold r' in F. lia.
           ++ apply (s_inj _ S2).
      * constructor.
        -- intros a b0 D. apply M3. apply (e_done _ _ X2). now rewrite D1.
        -- intros q [b0 B]. destruct (e_busy _ _ X2 q) as [b1 B1].
           { exists b0. unfold st1. rewrite look_note. destruct (Nat.eqb r q) eqn:Q; auto. apply Nat.eqb_eq in Q. subst. congruence. }
           exists b1. unfold st3. rewrite look_note. destruct (Nat.eqb r q) eqn:Q; auto. apply Nat.eqb_eq in Q. subst. congruence.
        -- cbn. rewrite app_length. fold r'. lia.
        -- intros i Ii. cbn. rewrite nth_error_app1 by (fold r'; lia). rewrite (e_heap _ _ X2); auto.
        -- intros q N Kq. destruct (Nat.eqb r q) eqn:Q.
           ++ apply Nat.eqb_eq in Q. subst q. exists r'. split; [rewrite D3; now rewrite Nat.eqb_refl|]. split; auto.
              exists (Generic c), l, l'. split; auto. split.
              ** cbn. rewrite nth_error_app2 by (fold r'; lia). fold r'. now rewrite Nat.sub_diag.
              ** eapply parts_mono; [|exact C2]. exact M3.
           ++ destruct (e_new _ _ X2 q) as (q' & Dq & Lq & kd & m & m' & W1 & W2 & W3).
              { unfold st1. rewrite look_note, Q. exact N. }
              { unfold st3 in Kq. rewrite look_note, Q in Kq. exact Kq. }
              exists q'. split; [now apply M3|]. split; auto. exists kd, m, m'. split; auto. split.
              ** cbn. rewrite nth_error_app1; auto. apply nth_error_Some. congruence.
              ** eapply parts_mono; [|exact W3]. exact M3.
      * cbn. rewrite D3. now rewrite Nat.eqb_refl.
Qed.

Theorem copied n : x < length h -> length h < n ->
  exists w st, copy n (PR x) (State [] []) = Some (w, st) /\ same_graph h (PR x) (heap st) w.
Proof.
  intros Lx Ln. destruct (works_all n (PR x) (State [] []) []) as (w & st & E & S & X & Cw).
  - constructor; intros *; cbn; discriminate.
  - split; cbn; [tauto|tauto|intros r [b B]; discriminate B|constructor|constructor].
  - intros r Er. now injection Er as <-.
  - intros r Er. now injection Er as <-.
  - eapply Nat.le_lt_trans; [|exact Ln]. unfold unvisited.
    assert (T : forall (f : nat -> bool) l, length (filter f l) <= length l) by (intros f; induction l as [|y l IHl]; cbn; [auto|destruct (f y); cbn; lia]).
    etransitivity; [apply T|]. now rewrite seq_length.
  - exists w, st. split; auto. exists (done st). split; [apply (s_inj _ S)|]. split; auto.
    intros r r' D. destruct (e_new _ _ X r eq_refl) as (q & Dq & _ & kd & l & l' & W1 & W2 & W3).
    + unfold done in D. now destruct (look (memo st) r).
    + rewrite D in Dq. injection Dq as <-. exists kd, l, l'. auto.
Qed.
End Proofs.

(** Pickle, whatever the cycles *)
Section Cycles.
Context {A C L : Type}.
Notation pv := (pv A).
Notation obj := (obj A C L).
Notation state := (state A C L).
Variable h : list obj.
Notation copy := (copy Pickle h).

Record step (st st' : state) : Prop := {
  p_len : length (heap st) <= length (heap st');
  p_heap : forall i, i < length (heap st) -> nth_error (heap st') i = nth_error (heap st) i;
  p_done : forall r r', done st r = Some r' -> done st' r = Some r';
  p_known : forall r, look (memo st) r <> None -> look (memo st') r <> None;
  p_in : (forall r r', done st r = Some r' -> r' < length (heap st)) -> forall r r', done st' r = Some r' -> r' < length (heap st');
  p_blank : (forall r l, look (memo st) r = Some (Busy l) -> l = []) -> forall r l, look (memo st') r = Some (Busy l) -> l = [];
  p_hit : (forall r l, look (memo st) r = Some (Busy l) -> l = []) -> (forall r r', done st r = Some r' -> r' < length (heap st)) ->
          forall r r', busy st r -> done st' r = Some r' -> exists k l, nth_error h r = Some (Obj k l) /\ nth_error (heap st') r' = Some (Obj k []) /\ length (heap st) <= r';
  p_new : forall r, look (memo st) r = None -> look (memo st') r <> None ->
          done st' r <> None /\ forall q, points h r q -> done st' q <> None }.

Lemma done_stays (st st' : state) : step st st' -> forall r, done st r <> None -> done st' r <> None.
Proof. intros S r D. destruct (done st r) eqn:E; [|congruence]. apply (p_done _ _ S) in E. congruence. Qed.
Lemma step_refl st : step st st.
Proof. constructor; auto; try tauto. intros _ _ r r' [l B] D. unfold done in D. rewrite B in D. discriminate. Qed.
Lemma step_trans a b c : step a b -> step b c -> step a c.
Proof.
  intros E F. constructor.
  - pose proof (p_len _ _ E). pose proof (p_len _ _ F). lia.
  - intros i I. rewrite (p_heap _ _ F), (p_heap _ _ E); auto. pose proof (p_len _ _ E). lia.
  - intros r r' D. apply (p_done _ _ F), (p_done _ _ E), D.
  - intros r K. apply (p_known _ _ F), (p_known _ _ E), K.
  - intros I. apply (p_in _ _ F), (p_in _ _ E), I.
  - intros I. apply (p_blank _ _ F), (p_blank _ _ E), I.
  - intros B I r r' Br Dr. destruct (look (memo b) r) as [[q|l]|] eqn:Eb.
    + assert (D : done b r = Some q) by (unfold done; now rewrite Eb).
      destruct (p_hit _ _ E B I r q Br D) as (k & l & H1 & H2 & H3). apply (p_done _ _ F) in D as D'. rewrite Dr in D'. injection D' as <-.
      exists k, l. split; auto. split; auto. rewrite (p_heap _ _ F); auto. apply (p_in _ _ E I r r' D).
    + destruct (p_hit _ _ F (p_blank _ _ E B) (p_in _ _ E I) r r') as (k & m & H1 & H2 & H3); auto; [now exists l|].
      exists k, m. split; auto. split; auto. pose proof (p_len _ _ E). lia.
    + destruct Br as [l Br]. destruct (p_known _ _ E r); congruence.
  - intros r N K. destruct (look (memo b) r) as [e|] eqn:Eb.
    + destruct (p_new _ _ E r N) as [D Q]; [congruence|]. split; [now apply (done_stays _ _ F)|]. intros q P. apply (done_stays _ _ F); auto.
    + apply (p_new _ _ F r Eb K).
Qed.

Definition steps n := forall v st v' st', copy n v st = Some (v', st') -> step st st' /\ forall q, v = PR q -> done st' q <> None.

Lemma all_steps n f : steps n -> (forall now st, f now st = st) -> forall l before st l' st',
  copy_all (copy n) f l before st = Some (l', st') -> step st st' /\ forall k q, In (k, PR q) l -> done st' q <> None.
Proof.
  intros Wn Q l. induction l as [|[k v] l IH]; intros before st l' st' E; cbn in E.
  - injection E as <- <-. split; [apply step_refl|tauto].
  - destruct (copy n v st) as [[v1 st1]|] eqn:E1; [|discriminate]. rewrite Q in E. apply Wn in E1 as [S1 D1].
    apply IH in E as [S2 D2]. split; [eapply step_trans; eauto|]. intros k0 q [I|I]; [|eauto].
    injection I as <- ->. apply (done_stays _ _ S2). now apply D1.
Qed.

Lemma steps_all n : steps n.
Proof.
  induction n as [|n IH]; intros v st v' st' E.
  { destruct v; [|discriminate E]. cbn in E. injection E as <- <-. split; [apply step_refl|discriminate]. }
  destruct v as [a|r]; [cbn in E; injection E as <- <-; split; [apply step_refl|discriminate]|].
  cbn [GraphModel.copy] in E. destruct (look (memo st) r) as [[r'|now]|] eqn:Er.
  - injection E as <- <-. split; [apply step_refl|]. intros q Q. injection Q as <-. unfold done. now rewrite Er.
  - destruct (nth_error h r) as [[k l]|] eqn:Eh; [|discriminate]. injection E as <- <-.
    set (r' := length (heap st)). set (st1 := note r (Done r') (new (Obj k now) st)).
    assert (D1 : forall q, done st1 q = if Nat.eqb r q then Some r' else done st q).
    { intros q. unfold done, st1. rewrite look_note. cbn [new memo]. now destruct (Nat.eqb r q). }
    split.
    + constructor.
      * cbn. rewrite app_length. cbn. lia.
      * intros i I. cbn. now rewrite nth_error_app1.
      * intros q q' D. rewrite D1. destruct (Nat.eqb r q) eqn:Q; auto. apply Nat.eqb_eq in Q. subst. unfold done in D. rewrite Er in D. discriminate.
      * intros q K. unfold st1. rewrite look_note. destruct (Nat.eqb r q); [discriminate|auto].
      * intros I q q'. rewrite D1. cbn. rewrite app_length. cbn. destruct (Nat.eqb r q).
        -- intros Z. injection Z as <-. unfold r'. lia.
        -- intros Z. apply I in Z. lia.
      * intros B q m. unfold st1. rewrite look_note. cbn [new memo]. destruct (Nat.eqb r q); [discriminate|apply B].
      * intros B I q q' Bq. rewrite D1. destruct (Nat.eqb r q) eqn:Q.
        -- apply Nat.eqb_eq in Q. subst q. intros Z. injection Z as <-. exists k, l. split; auto. split; [|unfold r'; lia]. cbn. rewrite nth_error_app2 by (fold r'; lia).
           fold r'. rewrite Nat.sub_diag. cbn. now rewrite (B r now Er).
        -- intros D. destruct Bq as [m Bq]. unfold done in D. rewrite Bq in D. discriminate.
      * intros q N K. unfold st1 in K. rewrite look_note in K. destruct (Nat.eqb r q) eqn:Q; [apply Nat.eqb_eq in Q; subst; congruence|].
        cbn [new memo] in K. congruence.
    + intros q Q. injection Q as <-. rewrite D1. now rewrite Nat.eqb_refl.
  - destruct (nth_error h r) as [[[c|c] l]|] eqn:Eh; [| |discriminate].
    + set (r' := length (heap st)) in *. set (st1 := note r (Done r') (new (Obj (Plain c) []) st)) in *.
      destruct (copy_all _ _ l [] st1) as [[l' st2]|] eqn:E2; [|discriminate]. injection E as <- <-.
      apply all_steps in E2 as [S2 D2]; auto.
      assert (D1 : forall q, done st1 q = if Nat.eqb r q then Some r' else done st q).
      { intros q. unfold done, st1. rewrite look_note. cbn [new memo]. now destruct (Nat.eqb r q). }
      assert (L1 : length (heap st1) = S r'). { cbn. rewrite app_length. cbn. fold r'. lia. }
      pose proof (p_len _ _ S2) as L2.
      assert (Dr : done st2 r = Some r'). { apply (p_done _ _ S2). rewrite D1. now rewrite Nat.eqb_refl. }
      assert (I1 : (forall r r', done st r = Some r' -> r' < length (heap st)) -> forall r r', done st1 r = Some r' -> r' < length (heap st1)).
      { intros I q q'. rewrite D1, L1. destruct (Nat.eqb r q); intros Z; [injection Z as <-; lia|]. apply I in Z. fold r' in Z. lia. }
      assert (B1 : (forall r l, look (memo st) r = Some (Busy l) -> l = []) -> forall r l, look (memo st1) r = Some (Busy l) -> l = []).
      { intros B q m. unfold st1. rewrite look_note. cbn [new memo]. destruct (Nat.eqb r q); [discriminate|apply B]. }
      split; [|intros q Q; injection Q as <-; change (done st2 r <> None); congruence].
      constructor.
      * cbn. rewrite set_nth_len. fold r'. lia.
      * intros i Ii. cbn. rewrite set_nth_other by (unfold r'; lia). rewrite (p_heap _ _ S2) by (rewrite L1; unfold r'; lia). cbn. now rewrite nth_error_app1.
      * intros q q' D. apply (p_done _ _ S2). rewrite D1. destruct (Nat.eqb r q) eqn:Q; auto. apply Nat.eqb_eq in Q. subst. unfold done in D. rewrite Er in D. discriminate.
      * intros q K. apply (p_known _ _ S2). unfold st1. rewrite look_note. destruct (Nat.eqb r q); [discriminate|auto].
      * intros I q q' D. cbn. rewrite set_nth_len. exact (p_in _ _ S2 (I1 I) q q' D).
      * intros B. exact (p_blank _ _ S2 (B1 B)).
      * intros B I q q' Bq D. change (done st2 q = Some q') in D.
        assert (Q : Nat.eqb r q = false). { destruct (Nat.eqb r q) eqn:Q; auto. apply Nat.eqb_eq in Q. subst. destruct Bq as [m Bq]. congruence. }
        destruct (p_hit _ _ S2 (B1 B) (I1 I) q q') as (k & m & H1 & H2 & H3); auto.
        { destruct Bq as [m Bq]. exists m. unfold st1. rewrite look_note, Q. exact Bq. }
        exists k, m. split; auto. split; [cbn; rewrite set_nth_other; auto; lia|fold r'; lia].
      * intros q N K. change (look (memo st2) q <> None) in K. destruct (Nat.eqb r q) eqn:Q.
        -- apply Nat.eqb_eq in Q. subst q. split; [change (done st2 r <> None); congruence|]. intros q (o & k & P1 & P2). rewrite Eh in P1.
           injection P1 as <-. exact (D2 k q P2).
        -- apply (p_new _ _ S2 q); auto. unfold st1. rewrite look_note, Q. exact N.
    + set (st1 := note r (Busy []) st) in *.
      destruct (copy_all _ _ l [] st1) as [[l' st2]|] eqn:E2; [|discriminate].
      apply all_steps in E2 as [S2 D2]; auto.
      assert (D1 : forall q, done st1 q = done st q).
      { intros q. unfold done, st1. rewrite look_note. destruct (Nat.eqb r q) eqn:Q; auto. apply Nat.eqb_eq in Q. subst. now rewrite Er. }
      assert (I1 : (forall r r', done st r = Some r' -> r' < length (heap st)) -> forall r r', done st1 r = Some r' -> r' < length (heap st1)).
      { intros I q q'. rewrite D1. apply I. }
      assert (B1 : (forall r l, look (memo st) r = Some (Busy l) -> l = []) -> forall r l, look (memo st1) r = Some (Busy l) -> l = []).
      { intros B q m. unfold st1. rewrite look_note. destruct (Nat.eqb r q); [intros Z; now injection Z as <-|apply B]. }
      assert (Bz : forall q, busy st q -> Nat.eqb r q = false /\ busy st1 q).
      { intros q [m Bq]. assert (Q : Nat.eqb r q = false). { destruct (Nat.eqb r q) eqn:Q; auto. apply Nat.eqb_eq in Q. subst. congruence. }
        split; auto. exists m. unfold st1. rewrite look_note, Q. exact Bq. }
      assert (K1 : forall q, look (memo st) q <> None -> look (memo st1) q <> None).
      { intros q K. unfold st1. rewrite look_note. destruct (Nat.eqb r q); [discriminate|auto]. }
      destruct (done st2 r) as [r'|] eqn:Dr.
      * assert (Z : look (memo st2) r = Some (Done r')). { unfold done in Dr. destruct (look (memo st2) r) as [[?|?]|]; congruence. }
        rewrite Z in E. injection E as <- <-. split; [|intros q Q; injection Q as <-; congruence].
        constructor.
        -- exact (p_len _ _ S2).
        -- exact (p_heap _ _ S2).
        -- intros q q' D. apply (p_done _ _ S2). now rewrite D1.
        -- intros q K. apply (p_known _ _ S2), K1, K.
        -- intros I. exact (p_in _ _ S2 (I1 I)).
        -- intros B. exact (p_blank _ _ S2 (B1 B)).
        -- intros B I q q' Bq D. exact (p_hit _ _ S2 (B1 B) (I1 I) q q' (proj2 (Bz q Bq)) D).
        -- intros q N K. destruct (Nat.eqb r q) eqn:Q.
           ++ apply Nat.eqb_eq in Q. subst q. split; [congruence|]. intros q (o & k & P1 & P2). rewrite Eh in P1. injection P1 as <-. exact (D2 k q P2).
           ++ apply (p_new _ _ S2 q); auto. unfold st1. rewrite look_note, Q. exact N.
      * set (r' := length (heap st2)) in *. set (st3 := note r (Done r') (new (Obj (Generic c) l') st2)) in *.
        assert (Z : v' = PR r' /\ st' = st3).
        { unfold done in Dr. destruct (look (memo st2) r) as [[?|?]|]; [discriminate Dr| |]; injection E as <- <-; auto. }
        destruct Z as [-> ->]. clear E.
        assert (D3 : forall q, done st3 q = if Nat.eqb r q then Some r' else done st2 q).
        { intros q. unfold done, st3. rewrite look_note. cbn [new memo]. now destruct (Nat.eqb r q). }
        assert (M3 : forall q q', done st2 q = Some q' -> done st3 q = Some q').
        { intros q q' D. rewrite D3. destruct (Nat.eqb r q) eqn:Q; auto. apply Nat.eqb_eq in Q. subst. congruence. }
        assert (M3' : forall q, done st2 q <> None -> done st3 q <> None).
        { intros q D. destruct (done st2 q) eqn:Dq; [|congruence]. apply M3 in Dq. congruence. }
        pose proof (p_len _ _ S2) as L2. change (length (heap st1)) with (length (heap st)) in L2.
        split; [|intros q Q; injection Q as <-; rewrite D3, Nat.eqb_refl; discriminate].
        constructor.
        -- cbn. rewrite app_length. lia.
        -- intros i Ii. cbn. rewrite nth_error_app1 by lia. exact (p_heap _ _ S2 i Ii).
        -- intros q q' D. apply M3, (p_done _ _ S2). now rewrite D1.
        -- intros q K. unfold st3. rewrite look_note. destruct (Nat.eqb r q); [discriminate|]. cbn [new memo]. apply (p_known _ _ S2), K1, K.
        -- intros I q q'. rewrite D3. cbn. rewrite app_length. cbn. fold r'. destruct (Nat.eqb r q).
           ++ intros Z. injection Z as <-. lia.
           ++ intros Z. apply (p_in _ _ S2 (I1 I)) in Z. fold r' in Z. lia.
        -- intros B q m. unfold st3. rewrite look_note. cbn [new memo]. destruct (Nat.eqb r q); [discriminate|]. exact (p_blank _ _ S2 (B1 B) q m).
        -- intros B I q q' Bq. destruct (Bz q Bq) as [Q Bq1]. rewrite D3, Q. intros D.
           destruct (p_hit _ _ S2 (B1 B) (I1 I) q q' Bq1 D) as (k & m & H1 & H2 & H3). exists k, m. split; auto. split; auto.
           cbn. rewrite nth_error_app1; auto. apply nth_error_Some. congruence.
        -- intros q N K. destruct (Nat.eqb r q) eqn:Q.
           ++ apply Nat.eqb_eq in Q. subst q. split; [rewrite D3, Nat.eqb_refl; discriminate|].
              intros q (o & k & P1 & P2). rewrite Eh in P1. injection P1 as <-. apply M3'. exact (D2 k q P2).
           ++ destruct (p_new _ _ S2 q) as [P1 P2].
              ** unfold st1. rewrite look_note, Q. exact N.
              ** unfold st3 in K. rewrite look_note, Q in K. exact K.
              ** split; auto.
Qed.

(** A generic collection pickled by itself, whose items lead back to it, comes back without items. *)
Theorem lost n g c l s w st : nth_error h g = Some (Obj (Generic c) l) -> trail h g (g :: s) -> s <> [] ->
  copy n (PR g) (State [] []) = Some (w, st) ->
  exists r, w = PR r /\ nth_error (heap st) r = Some (Obj (Generic c) []).
Proof.
  intros Eg T Ns. destruct n as [|n]; [discriminate|]. cbn [GraphModel.copy look memo]. rewrite Eg.
  set (st1 := note g (Busy []) (State [] [])).
  destruct (copy_all _ _ l [] st1) as [[l' st2]|] eqn:E2; [|discriminate].
  apply (all_steps n) in E2 as [S2 D2]; [|apply steps_all|reflexivity].
  assert (Dn : forall q, done st1 q = None). { intros q. unfold done, st1. rewrite look_note. now destruct (Nat.eqb g q). }
  assert (R : forall s, trail h g s -> forall r s0, s = r :: s0 -> s0 <> [] -> done st2 r <> None).
  { intros s0 T0. induction T0 as [|r s0 T0 IH N]; intros r1 s1 Es Ne; [discriminate|]. injection Es as <- <-.
    destruct s0 as [|a s0]; [congruence|]. cbn in N.
    assert (Ga : a = g \/ a <> g) by (destruct (Nat.eq_dec a g); auto).
    destruct Ga as [->|Ga].
    - destruct N as (o & k & N1 & N2). rewrite Eg in N1. injection N1 as <-. exact (D2 k r N2).
    - assert (Da : done st2 a <> None).
      { apply (IH a s0 eq_refl). intros ->. inversion T0 as [|? ? T1 N1]; subst. cbn in N1. contradiction. }
      apply (p_new _ _ S2 a); auto.
      + unfold st1. rewrite look_note. destruct (Nat.eqb g a) eqn:Q; auto. apply Nat.eqb_eq in Q. congruence.
      + unfold done in Da. destruct (look (memo st2) a); congruence. }
  specialize (R _ T g s eq_refl Ns). destruct (done st2 g) as [r'|] eqn:Dg; [|congruence].
  assert (Z : look (memo st2) g = Some (Done r')). { unfold done in Dg. destruct (look (memo st2) g) as [[?|?]|]; congruence. }
  rewrite Z. intros E. injection E as <- <-. exists r'. split; auto.
  destruct (p_hit _ _ S2) with (r := g) (r' := r') as (k & m & H1 & H2 & H3); auto.
  - intros q m. unfold st1. rewrite look_note. destruct (Nat.eqb g q); [intros Q; now injection Q as <-|discriminate].
  - intros q q'. rewrite Dn. discriminate.
  - exists []. unfold st1. now rewrite look_note, Nat.eqb_refl.
  - rewrite Eg in H1. injection H1 as <- <-. exact H2.
Qed.
End Cycles.
