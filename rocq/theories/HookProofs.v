(** Proofs for C64. *)
From Coq Require Import List Bool Arith Lia.
From Verif Require Import Prelude SelPathModel FSModel FSProofs HookModel HookSpec.
Import ListNotations.
Local Open Scope list_scope.

Definition owns (s : state) (g v : nat) : Prop :=
  g < n_gens s /\ exists k, g_phase (gens s g) = Suspended v k \/ g_phase (gens s g) = Running v k.

Definition opt (k : option elem) : list elem := match k with Some k => [k] | None => [] end.

Definition made_by (s : state) (v : nat) (p : path) (made : list nat) : Prop :=
  forall g, In g made -> g < n_gens s /\ g_visitor (gens s g) = v /\ g_path (gens s g) = p.

Inductive wf (s : state) : list frame -> Prop :=
| wf_program : wf s [Program]
| wf_user_map v p stg made st :
    wf s (Map v p stg made :: st) -> wf s (User v p (cues s v) :: Map v p stg made :: st)
| wf_user_gen v g k st :
    wf s (Resume g :: st) -> g_phase (gens s g) = Running v (Some k) ->
    wf s (User v (g_path (gens s g) ++ [(g_kind (gens s g), k)]) (cues s v) :: Resume g :: st)
| wf_map_gen v g k stg made st :
    wf s (Resume g :: st) -> g_phase (gens s g) = Running v (Some k) ->
    made_by s v (g_path (gens s g) ++ [(g_kind (gens s g), k)]) made ->
    wf s (Map v (g_path (gens s g) ++ [(g_kind (gens s g), k)]) stg made :: Resume g :: st)
| wf_map_root v stg made f st :
    wf s (f :: st) -> is_user f -> v < n_visitors s -> (forall g, ~ owns s g v) -> cues s v = [] ->
    made_by s v [] made ->
    wf s (Map v [] stg made :: f :: st)
| wf_resume g rv k f st :
    wf s (f :: st) -> is_user f -> g < n_gens s -> g_phase (gens s g) = Running rv k ->
    ~ In (Resume g) st ->
    wf s (Resume g :: f :: st).

Record inv (s : state) : Prop := mkInv {
  i_vis : forall g, g < n_gens s -> g_visitor (gens s g) < n_visitors s;
  i_own : forall g v, owns s g v -> v < n_visitors s;
  i_one : forall g1 g2 v, owns s g1 v -> owns s g2 v -> g1 = g2;
  i_cue : forall g v k, g < n_gens s ->
            g_phase (gens s g) = Suspended v k \/ g_phase (gens s g) = Running v k ->
            cues s v = g_base (gens s g) ++ opt k;
  i_wf : wf s (stack s)
}.

(** What the frames of a stack depend on. *)
Lemma wf_frame s s' st :
  (forall g1 g2 v, owns s g1 v -> owns s g2 v -> g1 = g2) ->
  (forall g v, owns s g v -> v < n_visitors s) ->
  n_visitors s <= n_visitors s' -> n_gens s <= n_gens s' ->
  (forall g, In (Resume g) st -> gens s' g = gens s g) ->
  (forall g, g < n_gens s -> g_visitor (gens s' g) = g_visitor (gens s g)
                             /\ g_path (gens s' g) = g_path (gens s g)) ->
  (forall v, v < n_visitors s -> (forall g, ~ owns s g v) -> forall g, ~ owns s' g v) ->
  (forall v, v < n_visitors s ->
     cues s' v = cues s v \/ exists g0, owns s g0 v /\ ~ In (Resume g0) st) ->
  wf s st -> wf s' st.
Proof.
  intros Hone Hown Hnv Hng Hg Hm Hroot Hcue H.
  assert (MB : forall v p made, made_by s v p made -> made_by s' v p made).
  { intros v p made M g I. destruct (M g I) as (A & B & C). destruct (Hm g A) as (D & E).
    split; [lia|]. split; congruence. }
  assert (RC : forall g v k, In (Resume g) st -> g < n_gens s -> g_phase (gens s g) = Running v k ->
                 cues s' v = cues s v).
  { intros g v k I L R. assert (O : owns s g v) by (split; [auto|exists k; auto]).
    destruct (Hcue v (Hown g v O)) as [E|(g0 & O0 & N)]; [exact E|].
    rewrite (Hone g0 g v O0 O) in N. tauto. }
  assert (RL : forall g st, wf s (Resume g :: st) -> g < n_gens s).
  { intros g st0 W. inversion W; auto. }
  induction H as [|v p stg made st H IH|v g k st H IH R|v g k stg made st H IH R M
                 |v stg made f st H IH U L O C M|g rv k f st H IH U L R N].
  - constructor.
  - assert (W : wf s' (Map v p stg made :: st)).
    { apply IH.
      - intros g I. apply Hg. right. exact I.
      - intros w Lw. destruct (Hcue w Lw) as [E|(g0 & O0 & N0)]; [auto|]. right. exists g0. split; auto.
        intros I. apply N0. right. exact I.
      - intros g w k I. apply RC. right. exact I. }
    assert (E : cues s' v = cues s v).
    { inversion H as [| | |v' g k stg' made' st' H2 R M|v' stg' made' f st' H2 U L O C M|]; subst.
      - apply (RC g v (Some k)); [right; right; left; reflexivity|eapply RL; eauto|exact R].
      - destruct (Hcue v L) as [E|(g0 & O0 & _)]; [exact E|]. destruct (O g0 O0). }
    rewrite <- E. constructor. exact W.
  - assert (E : cues s' v = cues s v).
    { apply (RC g v (Some k)); [right; left; reflexivity|eapply RL; eauto|exact R]. }
    assert (G : gens s' g = gens s g) by (apply Hg; right; left; reflexivity).
    rewrite <- E, <- G. constructor; [|rewrite G; exact R].
    apply IH.
    + intros g' I. apply Hg. right. exact I.
    + intros w Lw. destruct (Hcue w Lw) as [E1|(g0 & O0 & N0)]; [auto|]. right. exists g0. split; auto.
      intros I. apply N0. right. exact I.
    + intros g' w k' I. apply RC. right. exact I.
  - assert (G : gens s' g = gens s g) by (apply Hg; right; left; reflexivity).
    apply MB in M. rewrite <- G in *. constructor; [|exact R|exact M].
    apply IH.
    + intros g' I. apply Hg. right. exact I.
    + intros w Lw. destruct (Hcue w Lw) as [E1|(g0 & O0 & N0)]; [auto|]. right. exists g0. split; auto.
      intros I. apply N0. right. exact I.
    + intros g' w k' I. apply RC. right. exact I.
  - constructor; auto.
    + apply IH.
      * intros g' I. apply Hg. right. exact I.
      * intros w Lw. destruct (Hcue w Lw) as [E1|(g0 & O0 & N0)]; [auto|]. right. exists g0. split; auto.
        intros I. apply N0. right. exact I.
      * intros g' w k' I. apply RC. right. exact I.
    + lia.
    + destruct (Hcue v L) as [E|(g0 & O0 & _)]; [congruence|]. destruct (O g0 O0).
  - assert (G : gens s' g = gens s g) by (apply Hg; left; reflexivity).
    econstructor; [|exact U|lia|rewrite G; exact R|exact N].
    apply IH.
    + intros g' I. apply Hg. right. exact I.
    + intros w Lw. destruct (Hcue w Lw) as [E1|(g0 & O0 & N0)]; [auto|]. right. exists g0. split; auto.
      intros I. apply N0. right. exact I.
    + intros g' w k' I. apply RC. right. exact I.
Qed.

Lemma wf_tail s f st : wf s (f :: st) -> st <> [] -> wf s st.
Proof. intros H N. inversion H; subst; auto. congruence. Qed.

(** The generators on the stack are being executed. *)
Lemma wf_running s st g : wf s st -> In (Resume g) st -> exists rv k, g_phase (gens s g) = Running rv k.
Proof.
  induction 1 as [|v p stg made st H IH|v g' k st H IH R|v g' k stg made st H IH R M
                 |v stg made f st H IH U L O C M|g' rv k f st H IH U L R N]; intros I.
  - destruct I as [I|[]]. discriminate.
  - apply IH. destruct I as [I|I]; [discriminate|exact I].
  - apply IH. destruct I as [I|I]; [discriminate|exact I].
  - apply IH. destruct I as [I|I]; [discriminate|exact I].
  - apply IH. destruct I as [I|I]; [discriminate|exact I].
  - destruct I as [I|I].
    + injection I as ->. eauto.
    + auto.
Qed.

Lemma set_same {A} (f : nat -> A) n a : set f n a n = a.
Proof. unfold set. rewrite Nat.eqb_refl. reflexivity. Qed.
Lemma set_other {A} (f : nat -> A) n m a : m <> n -> set f n a m = f m.
Proof. intros N. unfold set. destruct (Nat.eqb_spec m n); congruence. Qed.

Lemma pop_some s v k s' : pop s v k = Some s' -> exists c, cues s v = c ++ [k] /\ s' = with_cue s v c.
Proof.
  unfold pop. destruct (rev (cues s v)) as [|x r] eqn:E; [discriminate|].
  destruct (elem_eqb x k) eqn:Q; [|discriminate]. intros H. injection H as <-.
  apply elem_eqb_eq in Q. subst x. exists (rev r). split; [|reflexivity].
  rewrite <- (rev_involutive (cues s v)), E. reflexivity.
Qed.
Lemma pop_app s v k c : cues s v = c ++ [k] -> pop s v k = Some (with_cue s v c).
Proof.
  intros E. unfold pop. rewrite E, rev_app_distr. cbn.
  rewrite (proj2 (elem_eqb_eq k k) eq_refl), rev_involutive. reflexivity.
Qed.

(** ** The parts of the invariant that do not depend on the stack *)
Record core (s : state) : Prop := mkCore {
  c_vis : forall g, g < n_gens s -> g_visitor (gens s g) < n_visitors s;
  c_own : forall g v, owns s g v -> v < n_visitors s;
  c_one : forall g1 g2 v, owns s g1 v -> owns s g2 v -> g1 = g2;
  c_cue : forall g v k, g < n_gens s ->
            g_phase (gens s g) = Suspended v k \/ g_phase (gens s g) = Running v k ->
            cues s v = g_base (gens s g) ++ opt k
}.
Lemma inv_core s : inv s -> core s.
Proof. intros [A B C D E]. split; auto. Qed.
Lemma core_inv s : core s -> wf s (stack s) -> inv s.
Proof. intros [A B C D] E. split; auto. Qed.

(** Only the stack changes. *)
Lemma core_stack s st r : core s -> core (with_stack s st r).
Proof. intros [A B C D]. split; auto. Qed.
Lemma wf_stack s st0 st r : core s -> wf s st0 -> wf (with_stack s st r) st0.
Proof.
  intros [A B C D] W. apply (wf_frame s); auto.
Qed.

(** One generator that has begun changes, and the cue of its visitor. *)
Lemma update s g rv ph c :
  core s -> g < n_gens s -> owns s g rv ->
  (ph = Ended \/ exists k, (ph = Suspended rv k \/ ph = Running rv k) /\ c = g_base (gens s g) ++ opt k) ->
  core (with_phase (with_cue s rv c) g ph)
  /\ forall st, wf s st -> ~ In (Resume g) st -> wf (with_phase (with_cue s rv c) g ph) st.
Proof.
  intros K L O P. set (s' := with_phase (with_cue s rv c) g ph).
  assert (OW : forall g1 v, owns s' g1 v -> owns s g1 v).
  { intros g1 v (L1 & k & H). unfold s' in H. cbn in H. destruct (Nat.eq_dec g1 g) as [->|N].
    - rewrite set_same in H. cbn in H.
      destruct P as [->|(k' & [->| ->] & _)].
      + destruct H; discriminate.
      + destruct H as [H|H]; [injection H as <- <-; exact O|discriminate].
      + destruct H as [H|H]; [discriminate|injection H as <- <-; exact O].
    - rewrite set_other in H by auto. split; [exact L1|]. exists k. exact H. }
  split.
  - split.
    + intros g1 L1. cbn. destruct (Nat.eq_dec g1 g) as [->|N].
      * rewrite set_same. cbn. apply (c_vis s K); auto.
      * rewrite set_other by auto. apply (c_vis s K); auto.
    + intros g1 v H. apply (c_own s K g1), OW, H.
    + intros g1 g2 v H1 H2. apply (c_one s K g1 g2 v); apply OW; auto.
    + intros g1 v k L1 H.
      assert (O1 : owns s g1 v) by (apply OW; split; [auto|exists k; auto]).
      unfold s' in *. cbn in *. destruct (Nat.eq_dec g1 g) as [->|N].
      * rewrite (set_same (gens s)) in *. cbn in *.
        destruct P as [->|(k' & [->| ->] & E)].
        -- destruct H; discriminate.
        -- destruct H as [H|H]; [injection H as <- <-|discriminate]. rewrite set_same. exact E.
        -- destruct H as [H|H]; [discriminate|injection H as <- <-]. rewrite set_same. exact E.
      * rewrite (set_other (gens s)) in * by auto. rewrite set_other.
        -- apply (c_cue s K); auto.
        -- intros ->. apply N. apply (c_one s K g1 g rv); auto.
  - intros st W N. apply (wf_frame s); auto.
    + apply (c_one s K).
    + apply (c_own s K).
    + intros g1 I. unfold s'. cbn. rewrite set_other; [reflexivity|]. intros ->. tauto.
    + intros g1 L1. unfold s'. cbn. destruct (Nat.eq_dec g1 g) as [->|Ng].
      * rewrite set_same. auto.
      * rewrite set_other by auto. auto.
    + intros v Lv F g1 H. apply (F g1), OW, H.
    + intros v Lv. unfold s'. cbn. destruct (Nat.eq_dec v rv) as [->|Nv].
      * right. exists g. auto.
      * left. rewrite set_other by auto. reflexivity.
Qed.

(** The same, leaving the cue. *)
Lemma update_phase s g rv ph :
  core s -> g < n_gens s -> owns s g rv ->
  (ph = Ended \/ exists k, (ph = Suspended rv k \/ ph = Running rv k)
                           /\ cues s rv = g_base (gens s g) ++ opt k) ->
  core (with_phase s g ph)
  /\ forall st, wf s st -> ~ In (Resume g) st -> wf (with_phase s g ph) st.
Proof.
  intros K L O P. set (s' := with_phase s g ph).
  assert (OW : forall g1 v, owns s' g1 v -> owns s g1 v).
  { intros g1 v (L1 & k & H). unfold s' in H. cbn in H. destruct (Nat.eq_dec g1 g) as [->|N].
    - rewrite set_same in H. cbn in H.
      destruct P as [->|(k' & [->| ->] & _)].
      + destruct H; discriminate.
      + destruct H as [H|H]; [injection H as <- <-; exact O|discriminate].
      + destruct H as [H|H]; [discriminate|injection H as <- <-; exact O].
    - rewrite set_other in H by auto. split; [exact L1|]. exists k. exact H. }
  split.
  - split.
    + intros g1 L1. cbn. destruct (Nat.eq_dec g1 g) as [->|N].
      * rewrite set_same. cbn. apply (c_vis s K); auto.
      * rewrite set_other by auto. apply (c_vis s K); auto.
    + intros g1 v H. apply (c_own s K g1), OW, H.
    + intros g1 g2 v H1 H2. apply (c_one s K g1 g2 v); apply OW; auto.
    + intros g1 v k L1 H. unfold s' in *. cbn in *. destruct (Nat.eq_dec g1 g) as [->|N].
      * rewrite (set_same (gens s)) in *. cbn in *.
        destruct P as [->|(k' & [->| ->] & E)].
        -- destruct H; discriminate.
        -- destruct H as [H|H]; [injection H as <- <-|discriminate]. exact E.
        -- destruct H as [H|H]; [discriminate|injection H as <- <-]. exact E.
      * rewrite (set_other (gens s)) in * by auto. apply (c_cue s K); auto.
  - intros st W N. apply (wf_frame s); auto.
    + apply (c_one s K).
    + apply (c_own s K).
    + intros g1 I. unfold s'. cbn. rewrite set_other; [reflexivity|]. intros ->. tauto.
    + intros g1 L1. unfold s'. cbn. destruct (Nat.eq_dec g1 g) as [->|Ng].
      * rewrite set_same. auto.
      * rewrite set_other by auto. auto.
    + intros v Lv F g1 H. apply (F g1), OW, H.
Qed.

(** A generator that has not begun is dropped. *)
Lemma drop_fresh s g : core s -> g < n_gens s -> 
  (g_phase (gens s g) = Fresh \/ g_phase (gens s g) = Ended) ->
  core (with_phase s g Ended)
  /\ forall st, wf s st -> ~ In (Resume g) st -> wf (with_phase s g Ended) st.
Proof.
  intros K L P. set (s' := with_phase s g Ended).
  assert (OW : forall g1 v, owns s' g1 v -> owns s g1 v).
  { intros g1 v (L1 & k & H). unfold s' in H. cbn in H. destruct (Nat.eq_dec g1 g) as [->|N].
    - rewrite set_same in H. cbn in H. destruct H; discriminate.
    - rewrite set_other in H by auto. split; [exact L1|]. exists k. exact H. }
  split.
  - split.
    + intros g1 L1. cbn. destruct (Nat.eq_dec g1 g) as [->|N].
      * rewrite set_same. cbn. apply (c_vis s K); auto.
      * rewrite set_other by auto. apply (c_vis s K); auto.
    + intros g1 v H. apply (c_own s K g1), OW, H.
    + intros g1 g2 v H1 H2. apply (c_one s K g1 g2 v); apply OW; auto.
    + intros g1 v k L1 H. unfold s' in *. cbn in *. destruct (Nat.eq_dec g1 g) as [->|N].
      * rewrite (set_same (gens s)) in *. cbn in *. destruct H; discriminate.
      * rewrite (set_other (gens s)) in * by auto. apply (c_cue s K); auto.
  - intros st W N. apply (wf_frame s); auto.
    + apply (c_one s K).
    + apply (c_own s K).
    + intros g1 I. unfold s'. cbn. rewrite set_other; [reflexivity|]. intros ->. tauto.
    + intros g1 L1. unfold s'. cbn. destruct (Nat.eq_dec g1 g) as [->|Ng].
      * rewrite set_same. auto.
      * rewrite set_other by auto. auto.
    + intros v Lv F g1 H. apply (F g1), OW, H.
Qed.

(** New visitors, new generators. *)
Lemma fresh_visitor s c : core s ->
  core (new_visitor s c) /\ (forall st, wf s st -> wf (new_visitor s c) st)
  /\ (forall g, ~ owns (new_visitor s c) g (n_visitors s)).
Proof.
  intros K.
  assert (OW : forall g v, owns (new_visitor s c) g v -> owns s g v) by (intros g v H; exact H).
  split; [|split].
  - split.
    + intros g L. cbn. pose proof (c_vis s K g L). lia.
    + intros g v H. cbn. pose proof (c_own s K g v (OW g v H)). lia.
    + intros g1 g2 v H1 H2. apply (c_one s K g1 g2 v); auto.
    + intros g v k L H. assert (v < n_visitors s).
      { apply (c_own s K g). split; [exact L|]. exists k. exact H. }
      cbn in *. rewrite set_other by lia. apply (c_cue s K); auto.
  - intros st W. apply (wf_frame s); auto.
    + apply (c_one s K).
    + apply (c_own s K).
    + cbn. lia.
    + intros v L. left. cbn. rewrite set_other by lia. reflexivity.
  - intros g H. apply OW, (c_own s K) in H. lia.
Qed.

Lemma fresh_gen s k v p : core s -> v < n_visitors s ->
  core (new_gen s k v p) /\ (forall st, wf s st -> wf (new_gen s k v p) st).
Proof.
  intros K L. set (s' := new_gen s k v p).
  assert (OW : forall g v, owns s' g v -> owns s g v).
  { intros g w (L1 & e & H). unfold s' in H. cbn in H. destruct (Nat.eq_dec g (n_gens s)) as [->|N].
    - rewrite set_same in H. cbn in H. destruct H; discriminate.
    - rewrite set_other in H by auto. split; [cbn in L1; lia|]. exists e. exact H. }
  split.
  - split.
    + intros g Lg. cbn in *. destruct (Nat.eq_dec g (n_gens s)) as [->|N].
      * rewrite set_same. exact L.
      * rewrite set_other by auto. apply (c_vis s K). lia.
    + intros g w H. apply (c_own s K g), OW, H.
    + intros g1 g2 w H1 H2. apply (c_one s K g1 g2 w); auto.
    + intros g w e Lg H. cbn in *. destruct (Nat.eq_dec g (n_gens s)) as [->|N].
      * rewrite (set_same (gens s)) in *. cbn in *. destruct H; discriminate.
      * rewrite (set_other (gens s)) in * by auto. apply (c_cue s K); auto. lia.
  - intros st W.
    assert (F : forall st0, wf s st0 -> forall g, In (Resume g) st0 -> g < n_gens s).
    { intros st0 W0. induction W0 as [|? ? ? ? ? ? IH|? ? ? ? ? IH|? ? ? ? ? ? ? IH|? ? ? ? ? ? IH|? ? ? ? ? ? IH];
        intros g0 I; try (apply IH; destruct I as [I|I]; [discriminate|exact I]).
      - destruct I as [I|[]]; discriminate.
      - destruct I as [I|I]; [injection I as <-; auto|apply IH; auto]. }
    apply (wf_frame s); auto.
    + apply (c_one s K).
    + apply (c_own s K).
    + cbn. lia.
    + intros g I. unfold s'. cbn. rewrite set_other; [reflexivity|]. pose proof (F st W g I). lia.
    + intros g Lg. unfold s'. cbn. rewrite set_other by lia. auto.
    + intros w Lw Q g H. apply (Q g), OW, H.
Qed.

(** ** Steps keep the invariant *)
Lemma user_visitor s v p c st : core s -> wf s (User v p c :: st) -> v < n_visitors s.
Proof.
  intros K W. inversion W as [|? ? ? ? ? H|? g k ? H R| | |]; subst.
  - inversion H as [| | |? g k ? ? ? H2 R M|? ? ? f st2 H2 U L O C M|]; subst; auto.
    inversion H2; subst. apply (c_own s K g). split; [auto|eauto].
  - inversion H; subst. apply (c_own s K g). split; [auto|eauto].
Qed.
Lemma map_visitor s v p stg made st : core s -> wf s (Map v p stg made :: st) -> v < n_visitors s.
Proof.
  intros K W. apply (user_visitor s v p (cues s v) (Map v p stg made :: st) K). constructor. exact W.
Qed.

(** Another stage, another generator made. *)
Lemma wf_map s v p stg made st stg' made' : wf s (Map v p stg made :: st) -> made_by s v p made' ->
  wf s (Map v p stg' made' :: st).
Proof.
  intros W M. inversion W; subst.
  - constructor; auto.
  - constructor; auto.
Qed.
Lemma wf_made s v p stg made st : wf s (Map v p stg made :: st) -> made_by s v p made.
Proof. intros W. inversion W; subst; auto. Qed.

(** A call of the user's code, from [map] or a generator. *)
Lemma call_from_map s v p stg made st : core s -> wf s (Map v p stg made :: st) ->
  inv (call (with_stack s (Map v p stg made :: st) false) v p).
Proof.
  intros K W. apply core_inv; [apply core_stack, core_stack, K|].
  apply (wf_stack s (User v p (cues s v) :: Map v p stg made :: st)
           (User v p (cues s v) :: Map v p stg made :: st) false K). constructor. exact W.
Qed.
Lemma call_from_gen s v k g st : core s -> wf s (Resume g :: st) -> stack s = Resume g :: st ->
  g_phase (gens s g) = Running v (Some k) ->
  inv (call s v (g_path (gens s g) ++ [(g_kind (gens s g), k)])).
Proof.
  intros K W E R. unfold call. rewrite E. apply core_inv; [apply core_stack, K|].
  apply (wf_stack s). exact K. apply wf_user_gen; auto.
Qed.
Lemma map_from_gen s v k g st : core s -> wf s (Resume g :: st) -> stack s = Resume g :: st ->
  g_phase (gens s g) = Running v (Some k) ->
  inv (call_map s v (g_path (gens s g) ++ [(g_kind (gens s g), k)])).
Proof.
  intros K W E R. unfold call_map. rewrite E. apply call_from_map; auto. apply wf_map_gen; auto.
  intros g' [].
Qed.

Lemma in_stack_lt s st g : wf s st -> In (Resume g) st -> g < n_gens s.
Proof.
  intros W. induction W as [|? ? ? ? ? ? IH|? ? ? ? ? IH|? ? ? ? ? ? ? IH|? ? ? ? ? ? IH|? ? ? ? ? ? IH];
    intros I; try (apply IH; destruct I as [I|I]; [discriminate|exact I]).
  - destruct I as [I|[]]; discriminate.
  - destruct I as [I|I]; [injection I as <-; auto|apply IH; auto].
Qed.

(** What a [Resume] on top of the stack says. *)
Lemma resume_top s g st : wf s (Resume g :: st) ->
  exists f st2, st = f :: st2 /\ is_user f /\ wf s st /\ g < n_gens s /\ ~ In (Resume g) st.
Proof.
  intros W. inversion W as [| | | | |? rv k f st2 H U L R N]; subst.
  exists f, st2. split; [auto|]. split; [auto|]. split; [auto|]. split; [auto|].
  intros [->|I]; [exact U|tauto].
Qed.

(** A generator is resumed. *)
Lemma resumed s s' g rv k f st :
  core s' -> wf s' (f :: st) -> is_user f -> g < n_gens s' -> g_phase (gens s' g) = Running rv k ->
  ~ In (Resume g) (f :: st) ->
  inv (with_stack s' (Resume g :: f :: st) s).
Proof.
  intros K W U L R N. apply core_inv; [apply core_stack, K|]. cbn [stack with_stack].
  apply wf_stack; [exact K|]. apply (wf_resume s' g rv k); auto. intros I. apply N. right. exact I.
Qed.

Section Step.
Variable filtered : list elem -> elem -> bool.

Lemma step_inv s s' : inv s -> step filtered s s' -> inv s'.
Proof.
  intros I S. pose proof (inv_core s I) as K. pose proof (i_wf s I) as W.
  destruct S.
  - (* visit *)
    destruct (fresh_visitor s [] K) as (K1 & W1 & O1). unfold call_map.
    apply call_from_map; [exact K1|]. cbn [stack new_visitor]. rewrite H. apply wf_map_root.
    + apply W1. rewrite <- H. exact W.
    + exact H1.
    + cbn. lia.
    + exact O1.
    + cbn. apply set_same.
    + intros g [].
  - (* next_fresh *)
    set (c := cues s (g_visitor (gens s g))).
    destruct (fresh_visitor s c K) as (K1 & W1 & O1).
    set (s1 := new_visitor s c) in *.
    assert (NR : ~ In (Resume g) (stack s)).
    { intros J. destruct (wf_running s _ g W J) as (rv & k & E). congruence. }
    assert (OW : forall g1 v, owns (begin_gen s g) g1 v -> owns s g1 v \/ (g1 = g /\ v = n_visitors s)).
    { intros g1 v (L1 & k & E). cbn in E. destruct (Nat.eq_dec g1 g) as [->|N].
      - rewrite set_same in E. cbn in E. right. destruct E as [E|E]; [discriminate|]. injection E as <- _. auto.
      - rewrite set_other in E by auto. left. split; [exact L1|]. exists k. exact E. }
    assert (NO : forall v, ~ owns s g v).
    { intros v (_ & k & [E|E]); congruence. }
    apply core_inv.
    + split.
      * intros g1 L1. cbn in *. destruct (Nat.eq_dec g1 g) as [->|N].
        -- rewrite set_same. cbn. pose proof (c_vis s K g H2). lia.
        -- rewrite set_other by auto. pose proof (c_vis s K g1 L1). lia.
      * intros g1 v O. cbn. destruct (OW g1 v O) as [O'|[-> ->]]; [|lia].
        pose proof (c_own s K g1 v O'). lia.
      * intros g1 g2 v A B. destruct (OW g1 v A) as [A'|[E1 F1]], (OW g2 v B) as [B'|[E2 F2]]; try congruence.
        -- apply (c_one s K g1 g2 v); auto.
        -- pose proof (c_own s K g1 v A'). lia.
        -- pose proof (c_own s K g2 v B'). lia.
      * intros g1 v k L1 E. cbn in *. destruct (Nat.eq_dec g1 g) as [->|N].
        -- rewrite (set_same (gens s)) in *. cbn in *. destruct E as [E|E]; [discriminate|].
           injection E as <- <-. rewrite set_same. cbn. rewrite app_nil_r. reflexivity.
        -- rewrite (set_other (gens s)) in * by auto.
           assert (v < n_visitors s). { apply (c_own s K g1). split; [auto|eauto]. }
           rewrite set_other by lia. apply (c_cue s K); auto.
    + change (wf (begin_gen s g) (Resume g :: stack s)). rewrite H.
      apply (wf_resume _ g (n_visitors s) None); auto.
      * rewrite <- H. apply (wf_frame s); auto.
        -- apply (c_one s K).
        -- apply (c_own s K).
        -- cbn. lia.
        -- intros g1 J. cbn. rewrite set_other; [reflexivity|]. intros ->. tauto.
        -- intros g1 L1. cbn. destruct (Nat.eq_dec g1 g) as [->|N].
           ++ rewrite set_same. auto.
           ++ rewrite set_other by auto. auto.
        -- intros v L F g1 O. destruct (OW g1 v O) as [O'|[-> ->]]; [apply (F g1 O')|lia].
        -- intros v L. left. cbn. rewrite set_other by lia. reflexivity.
      * cbn. rewrite set_same. reflexivity.
      * intros J. apply NR. rewrite H. right. exact J.
  - (* next_suspended *)
    assert (NR : ~ In (Resume g) (stack s)).
    { intros J. destruct (wf_running s _ g W J) as (rv' & k & E). congruence. }
    destruct (update_phase s g rv (Running rv None) K H2) as (K1 & W1).
    + split; [auto|exists None; auto].
    + right. exists None. split; [auto|]. apply (c_cue s K); auto.
    + rewrite H in *. apply (resumed false _ g rv None f st); auto.
      cbn. rewrite set_same. reflexivity.
  - (* next_due *)
    destruct (pop_some _ _ _ _ H4) as (c & Ec & ->).
    assert (NR : ~ In (Resume g) (stack s)).
    { intros J. destruct (wf_running s _ g W J) as (rv' & k' & E). congruence. }
    destruct (update s g rv (Running rv None) c K H2) as (K1 & W1).
    + split; [auto|exists (Some k); auto].
    + right. exists None. split; [auto|]. pose proof (c_cue s K g rv (Some k) H2 (or_introl H3)) as E.
      rewrite Ec in E. cbn [opt] in *. rewrite app_nil_r. apply app_inj_tail in E. tauto.
    + rewrite H in *. apply (resumed false _ g rv None f st); auto.
      cbn. rewrite set_same. reflexivity.
  - (* close *)
    assert (NR : ~ In (Resume g) (stack s)).
    { intros J. destruct (wf_running s _ g W J) as (rv' & k' & E). eapply H3; eauto. }
    assert (D : core (with_phase s g Ended)
                /\ forall st, wf s st -> ~ In (Resume g) st -> wf (with_phase s g Ended) st).
    { destruct (g_phase (gens s g)) as [|rv due|rv k|] eqn:E.
      - apply drop_fresh; auto.
      - apply (update_phase s g rv); auto. split; [auto|eauto].
      - destruct (H3 rv k eq_refl).
      - apply drop_fresh; auto. }
    destruct D as (K1 & W1). apply core_inv; [exact K1|]. apply W1; auto.
  - (* return_ *)
    apply core_inv; [apply core_stack, K|]. apply wf_stack; [exact K|]. rewrite H in W.
    apply (wf_tail s _ st W). intros ->. inversion W.
  - apply core_inv; [apply core_stack, K|]. apply wf_stack; [exact K|]. rewrite H in W.
    apply (wf_tail s _ st W). intros ->. inversion W.
  - apply core_inv; [apply core_stack, K|]. apply wf_stack; [exact K|]. exact W.
  - apply core_inv; [apply core_stack, K|]. apply wf_stack; [exact K|]. rewrite H in W.
    apply (wf_tail s _ st W). intros ->. inversion W.
  - (* map_stop *)
    apply core_inv; [apply core_stack, K|]. apply wf_stack; [exact K|]. rewrite H in W.
    apply (wf_tail s _ st W). intros ->. inversion W.
  - (* map_coll *)
    rewrite H in W. destruct (fresh_gen s Items v p K (map_visitor s v p _ _ _ K W)) as (K1 & W1).
    apply call_from_map; [exact K1|]. apply (wf_map _ v p Unpacking made); [apply W1, W|].
    intros g [<-|J].
    + cbn. rewrite set_same. cbn. auto.
    + apply (wf_made _ _ _ _ _ _ (W1 _ W) g J).
  - (* map_nocoll *)
    rewrite H in W. apply core_inv; [apply core_stack, K|]. apply wf_stack; [exact K|].
    apply (wf_map _ v p Unpacking made); [exact W|]. apply (wf_made _ _ _ _ _ _ W).
  - (* map_props *)
    rewrite H in W. destruct (fresh_gen s Props v p K (map_visitor s v p _ _ _ K W)) as (K1 & W1).
    apply call_from_map; [exact K1|]. apply (wf_map _ v p Collecting made); [apply W1, W|].
    intros g [<-|J].
    + cbn. rewrite set_same. cbn. auto.
    + apply (wf_made _ _ _ _ _ _ (W1 _ W) g J).
  - (* map_noprops *)
    rewrite H in W. apply call_from_map; [exact K|].
    apply (wf_map _ v p Collecting made); [exact W|]. apply (wf_made _ _ _ _ _ _ W).
  - apply core_inv; [apply core_stack, K|]. apply wf_stack; [exact K|]. rewrite H in W.
    apply (wf_tail s _ st W). intros ->. inversion W.
  - apply core_inv; [apply core_stack, K|]. apply wf_stack; [exact K|]. rewrite H in W.
    apply (wf_tail s _ st W). intros ->. inversion W.
  - (* gen_end *)
    rewrite H in W. destruct (resume_top s g st W) as (f & st2 & E & U & W2 & L & N).
    destruct (update_phase s g rv Ended K L) as (K1 & W1).
    + split; [auto|eauto].
    + auto.
    + apply core_inv; [apply core_stack, K1|]. apply wf_stack; [exact K1|]. apply W1; auto.
  - (* gen_item *)
    rewrite H in W. destruct (resume_top s g st W) as (f & st2 & E & U & W2 & L & N).
    pose proof (c_cue s K g rv None L (or_intror H1)) as C. cbn [opt] in C. rewrite app_nil_r in C.
    destruct (update s g rv (Running rv (Some k)) (cues s rv ++ [k]) K L) as (K1 & W1).
    + split; [auto|eauto].
    + right. exists (Some k). split; [auto|]. rewrite C. reflexivity.
    + pose proof (map_from_gen (with_phase (push s rv k) g (Running rv (Some k))) rv k g st K1) as M.
      cbn [gens with_phase g_phase g_kind g_path stack push with_cue] in M. rewrite !set_same in M. cbn [g_path g_kind g_phase] in M.
      rewrite H2 in M. apply M; auto.
      subst st. apply (wf_resume _ g rv (Some k)).
      * apply W1; auto.
      * exact U.
      * exact L.
      * cbn. rewrite set_same. reflexivity.
      * intros J. apply N. right. exact J.
  - exact I.
  - (* gen_prop *)
    rewrite H in W. destruct (resume_top s g st W) as (f & st2 & E & U & W2 & L & N).
    pose proof (c_cue s K g rv None L (or_intror H1)) as C. cbn [opt] in C. rewrite app_nil_r in C.
    destruct (update s g rv (Running rv (Some k)) (cues s rv ++ [k]) K L) as (K1 & W1).
    + split; [auto|eauto].
    + right. exists (Some k). split; [auto|]. rewrite C. reflexivity.
    + pose proof (call_from_gen (with_phase (push s rv k) g (Running rv (Some k))) rv k g st K1) as M.
      cbn [gens with_phase g_phase g_kind g_path stack push with_cue] in M. rewrite !set_same in M. cbn [g_path g_kind g_phase] in M.
      rewrite H2 in M. apply M; auto.
      subst st. apply (wf_resume _ g rv (Some k)).
      * apply W1; auto.
      * exact U.
      * exact L.
      * cbn. rewrite set_same. reflexivity.
      * intros J. apply N. right. exact J.
  - (* gen_map *)
    rewrite H in W. pose proof (map_from_gen s rv k g st K W H H1) as M. rewrite H2 in M. exact M.
  - rewrite H in W. pose proof (call_from_gen s rv k g st K W H H1) as M. rewrite H2 in M. exact M.
  - apply core_inv; [apply core_stack, K|]. apply wf_stack; [exact K|]. exact W.
  - (* gen_prop_error *)
    destruct (pop_some _ _ _ _ H3) as (c & Ec & ->).
    rewrite H in W. destruct (resume_top s g st W) as (f & st2 & E & U & W2 & L & N).
    destruct (update s g rv Ended c K L) as (K1 & W1).
    + split; [auto|eauto].
    + auto.
    + apply core_inv; [apply core_stack, K1|]. apply wf_stack; [exact K1|]. apply W1; auto.
  - (* gen_raise *)
    rewrite H in W. destruct (resume_top s g st W) as (f & st2 & E & U & W2 & L & N).
    destruct (update_phase s g rv Ended K L) as (K1 & W1).
    + split; [auto|eauto].
    + auto.
    + apply core_inv; [apply core_stack, K1|]. apply wf_stack; [exact K1|]. apply W1; auto.
  - (* gen_yield_item *)
    destruct (pop_some _ _ _ _ H3) as (c & Ec & ->).
    rewrite H in W. destruct (resume_top s g st W) as (f & st2 & E & U & W2 & L & N).
    pose proof (c_cue s K g rv (Some k) L (or_intror H1)) as C. rewrite Ec in C. apply app_inj_tail in C.
    destruct (update s g rv (Suspended rv None) c K L) as (K1 & W1).
    + split; [auto|eauto].
    + right. exists None. cbn. rewrite app_nil_r. tauto.
    + apply core_inv; [apply core_stack, K1|]. apply wf_stack; [exact K1|]. apply W1; auto.
  - (* gen_yield_prop *)
    rewrite H in W. destruct (resume_top s g st W) as (f & st2 & E & U & W2 & L & N).
    destruct (update_phase s g rv (Suspended rv (Some k)) K L) as (K1 & W1).
    + split; [auto|eauto].
    + right. exists (Some k). split; [auto|]. apply (c_cue s K); auto.
    + apply core_inv; [apply core_stack, K1|]. apply wf_stack; [exact K1|]. apply W1; auto.
  - (* gen_ignore *)
    destruct (pop_some _ _ _ _ H2) as (c & Ec & ->).
    rewrite H in W. destruct (resume_top s g st W) as (f & st2 & E & U & W2 & L & N).
    pose proof (c_cue s K g rv (Some k) L (or_intror H1)) as C. rewrite Ec in C. apply app_inj_tail in C.
    destruct (update s g rv (Running rv None) c K L) as (K1 & W1).
    + split; [auto|eauto].
    + right. exists None. cbn. rewrite app_nil_r. tauto.
    + apply core_inv; [exact K1|]. cbn [stack with_phase with_cue]. rewrite H. subst st.
      apply (wf_resume _ g rv None).
      * apply W1; auto.
      * exact U.
      * exact L.
      * cbn. rewrite set_same. reflexivity.
      * intros J. apply N. right. exact J.
Qed.

Lemma start_inv : inv start.
Proof.
  split.
  - intros g L. cbn in L. lia.
  - intros g v (L & _). cbn in L. lia.
  - intros g1 g2 v (L & _). cbn in L. lia.
  - intros g v k L. cbn in L. lia.
  - constructor.
Qed.
Lemma reach_inv ok s : reach filtered ok s -> inv s.
Proof. induction 1; [apply start_inv|eapply step_inv; eauto]. Qed.
End Step.

(** ** Generators begun in time *)
Section Right.
Variable filtered : list elem -> elem -> bool.

Definition at_ (s : state) (g v : nat) (k : option elem) : Prop :=
  g_phase (gens s g) = Suspended v k \/ g_phase (gens s g) = Running v k.

Record right (s : state) : Prop := mkRight {
  r_base : forall g v k, g < n_gens s -> at_ s g v k -> g_base (gens s g) = selector (g_path (gens s g));
  r_path : forall g, g < n_gens s -> admitted filtered (g_path (gens s g));
  r_key : forall g v k, g < n_gens s -> at_ s g v (Some k) ->
            admitted filtered (g_path (gens s g) ++ [(g_kind (gens s g), k)])
}.

Lemma selector_app p q : selector (p ++ q) = selector p ++ selector q.
Proof. apply map_app. Qed.

Lemma admitted_nil : admitted filtered [].
Proof. intros b k a E. destruct b; discriminate. Qed.

Lemma admitted_snoc p kd k : admitted filtered p ->
  (kd = Props -> filtered (selector p) k = false) -> admitted filtered (p ++ [(kd, k)]).
Proof.
  intros A F b k' a E.
  destruct (rev a) as [|x r] eqn:R.
  - assert (a = []) as -> by (rewrite <- (rev_involutive a), R; reflexivity).
    apply app_inj_tail in E. destruct E as [-> E]. injection E as -> ->. auto.
  - assert (Ea : a = rev r ++ [x]) by (rewrite <- (rev_involutive a), R; reflexivity).
    rewrite Ea in E. change (b ++ (Props, k') :: rev r ++ [x]) with (b ++ ((Props, k') :: rev r) ++ [x]) in E.
    rewrite app_assoc in E. apply app_inj_tail in E. destruct E as [-> _]. eapply A; reflexivity.
Qed.

(** The paths of the frames. *)
Lemma frame_paths s st : core s -> right s -> wf s st ->
  (forall v p c, In (User v p c) st -> cues s v = selector p /\ admitted filtered p /\ c = cues s v)
  /\ (forall v p stg made, In (Map v p stg made) st ->
        cues s v = selector p /\ admitted filtered p /\ made_by s v p made).
Proof.
  intros K R W.
  assert (G : forall g v k, g < n_gens s -> g_phase (gens s g) = Running v (Some k) ->
                cues s v = selector (g_path (gens s g) ++ [(g_kind (gens s g), k)])
                /\ admitted filtered (g_path (gens s g) ++ [(g_kind (gens s g), k)])).
  { intros g v k L E. split.
    - rewrite (c_cue s K g v (Some k) L (or_intror E)), selector_app.
      rewrite (r_base s R g v (Some k) L (or_intror E)). reflexivity.
    - apply (r_key s R g v k L). right. exact E. }
  induction W as [|v p stg made st H IH|v g' k st H IH E|v g' k stg made st H IH E M
                 |v stg made f st H IH U L O C M|g' rv k f st H IH U L E N].
  - split.
    + intros v p c [I|[]]; discriminate.
    + intros v p stg made [I|[]]; discriminate.
  - destruct IH as (A & B). split.
    + intros v1 p1 c1 [I|I]; [|auto]. injection I as <- <- <-.
      destruct (B v p stg made (or_introl eq_refl)) as (X & Y & _). auto.
    + intros v1 p1 stg1 made1 [I|I]; [discriminate|exact (B _ _ _ _ I)].
  - destruct IH as (A & B). split.
    + intros v1 p1 c1 [I|I]; [|auto]. injection I as <- <- <-.
      destruct (G g' v k) as (X & Y); auto. inversion H; auto.
    + intros v1 p1 stg1 made1 [I|I]; [discriminate|exact (B _ _ _ _ I)].
  - destruct IH as (A & B). split.
    + intros v1 p1 c1 [I|I]; [discriminate|auto].
    + intros v1 p1 stg1 made1 [I|I]; [|exact (B _ _ _ _ I)]. injection I as <- <- <- <-.
      destruct (G g' v k) as (X & Y); auto. inversion H; auto.
  - destruct IH as (A & B). split.
    + intros v1 p1 c1 [I|I]; [discriminate|auto].
    + intros v1 p1 stg1 made1 [I|I]; [|exact (B _ _ _ _ I)]. injection I as <- <- <- <-.
      split; [rewrite C; reflexivity|]. split; [apply admitted_nil|exact M].
  - destruct IH as (A & B). split.
    + intros v1 p1 c1 [I|I]; [discriminate|auto].
    + intros v1 p1 stg1 made1 [I|I]; [discriminate|exact (B _ _ _ _ I)].
Qed.

Lemma right_ext s s' : gens s' = gens s -> n_gens s' = n_gens s -> right s -> right s'.
Proof.
  intros E F [A B C]. split; unfold at_ in *; rewrite ?E, ?F; auto.
Qed.

(** A generator gets another phase. *)
Lemma right_phase s s' g ph :
  right s -> g < n_gens s -> n_gens s' = n_gens s -> gens s' = gens (with_phase s g ph) ->
  (ph = Ended \/ exists rv k, at_ s g rv k) ->
  (forall rv k, ph = Suspended rv (Some k) \/ ph = Running rv (Some k) ->
     admitted filtered (g_path (gens s g) ++ [(g_kind (gens s g), k)])) ->
  right s'.
Proof.
  intros [A B C] L F E P Q. split; unfold at_ in *; rewrite E, F; cbn.
  - intros g1 v k L1. destruct (Nat.eq_dec g1 g) as [->|N].
    + rewrite set_same. cbn. intros H. destruct P as [->|(rv & k' & P)].
      * destruct H; discriminate.
      * apply (A g rv k'); auto.
    + rewrite set_other by auto. apply A; auto.
  - intros g1 L1. destruct (Nat.eq_dec g1 g) as [->|N].
    + rewrite set_same. cbn. auto.
    + rewrite set_other by auto. auto.
  - intros g1 v k L1. destruct (Nat.eq_dec g1 g) as [->|N].
    + rewrite set_same. cbn. intros H. apply (Q v k H).
    + rewrite set_other by auto. apply C; auto.
Qed.

(** A generator is made. *)
Lemma right_new s s' kd v p :
  right s -> admitted filtered p -> gens s' = gens (new_gen s kd v p) -> n_gens s' = S (n_gens s) -> right s'.
Proof.
  intros [A B C] Ap E F. split; unfold at_ in *; rewrite E, F; cbn.
  - intros g1 w k L1. destruct (Nat.eq_dec g1 (n_gens s)) as [->|N].
    + rewrite set_same. cbn. intros [H|H]; discriminate.
    + rewrite set_other by auto. apply A. lia.
  - intros g1 L1. destruct (Nat.eq_dec g1 (n_gens s)) as [->|N].
    + rewrite set_same. exact Ap.
    + rewrite set_other by auto. apply B. lia.
  - intros g1 w k L1. destruct (Nat.eq_dec g1 (n_gens s)) as [->|N].
    + rewrite set_same. cbn. intros [H|H]; discriminate.
    + rewrite set_other by auto. apply C. lia.
Qed.

Lemma step_right s s' : inv s -> right s -> step filtered s s' -> timely s s' -> right s'.
Proof.
  intros I R S T. pose proof (inv_core s I) as K. pose proof (i_wf s I) as W.
  destruct (frame_paths s (stack s) K R W) as (FU & FM).
  destruct S; try (apply (right_ext s); [reflexivity|reflexivity|exact R]).
  - (* next_fresh *)
    destruct (T g H2 H3) as (v & p & stg & made & J & G).
    { cbn. rewrite set_same. cbn. discriminate. }
    { cbn. rewrite set_same. cbn. discriminate. }
    destruct (FM v p stg made J) as (Ec & Ap & M). destruct (M g G) as (_ & Ev & Ep).
    destruct R as [A B C]. split; unfold at_; cbn.
    + intros g1 w k L1. destruct (Nat.eq_dec g1 g) as [->|N].
      * rewrite set_same. cbn. intros _. rewrite Ev, Ep. exact Ec.
      * rewrite set_other by auto. apply A; auto.
    + intros g1 L1. destruct (Nat.eq_dec g1 g) as [->|N].
      * rewrite set_same. cbn. auto.
      * rewrite set_other by auto. auto.
    + intros g1 w k L1. destruct (Nat.eq_dec g1 g) as [->|N].
      * rewrite set_same. cbn. intros [X|X]; discriminate.
      * rewrite set_other by auto. apply C; auto.
  - eapply (right_phase s _ g (Running rv None)); auto; [right; exists rv, None; left; exact H3|].
    intros rv' k' [X|X]; discriminate.
  - destruct (pop_some _ _ _ _ H4) as (c & Ec & ->).
    eapply (right_phase s _ g (Running rv None)); auto; [right; exists rv, (Some k); left; exact H3|].
    intros rv' k' [X|X]; discriminate.
  - eapply (right_phase s _ g Ended); auto.
    intros rv' k' [X|X]; discriminate.
  - (* map_coll *)
    assert (J : In (Map v p Unpacking made) (stack s)) by (rewrite H; left; reflexivity).
    apply (right_new s _ Items v p R); [apply (FM v p _ _ J)|reflexivity|reflexivity].
  - assert (J : In (Map v p Collecting made) (stack s)) by (rewrite H; left; reflexivity).
    apply (right_new s _ Props v p R); [apply (FM v p _ _ J)|reflexivity|reflexivity].
  - rewrite H in W. destruct (resume_top s g st W) as (f & st2 & E & U & W2 & L & N).
    eapply (right_phase s _ g Ended); auto.
    intros rv' k' [X|X]; discriminate.
  - (* gen_item *)
    rewrite H in W. destruct (resume_top s g st W) as (f & st2 & E & U & W2 & L & N).
    apply (right_phase s _ g (Running rv (Some k))); auto.
    + right. exists rv, None. right. exact H1.
    + intros rv' k' [X|X]; [discriminate|]. injection X as <- <-. rewrite H2.
      apply admitted_snoc; [apply (r_path s R g L)|discriminate].
  - (* gen_prop *)
    rewrite H in W. destruct (resume_top s g st W) as (f & st2 & E & U & W2 & L & N).
    apply (right_phase s _ g (Running rv (Some k))); auto.
    + right. exists rv, None. right. exact H1.
    + intros rv' k' [X|X]; [discriminate|]. injection X as <- <-. rewrite H2.
      apply admitted_snoc; [apply (r_path s R g L)|]. intros _.
      pose proof (c_cue s K g rv None L (or_intror H1)) as C. cbn [opt] in C. rewrite app_nil_r in C.
      rewrite (r_base s R g rv None L (or_intror H1)) in C. rewrite <- C. exact H3.
  - destruct (pop_some _ _ _ _ H3) as (c & Ec & ->).
    rewrite H in W. destruct (resume_top s g st W) as (f & st2 & E & U & W2 & L & N).
    eapply (right_phase s _ g Ended); auto.
    intros rv' k' [X|X]; discriminate.
  - rewrite H in W. destruct (resume_top s g st W) as (f & st2 & E & U & W2 & L & N).
    eapply (right_phase s _ g Ended); auto.
    intros rv' k' [X|X]; discriminate.
  - destruct (pop_some _ _ _ _ H3) as (c & Ec & ->).
    rewrite H in W. destruct (resume_top s g st W) as (f & st2 & E & U & W2 & L & N).
    eapply (right_phase s _ g (Suspended rv None)); auto; [right; exists rv, (Some k); right; exact H1|].
    intros rv' k' [X|X]; discriminate.
  - rewrite H in W. destruct (resume_top s g st W) as (f & st2 & E & U & W2 & L & N).
    eapply (right_phase s _ g (Suspended rv (Some k))); auto; [right; exists rv, (Some k); right; exact H1|].
    intros rv' k' [X|X]; [|discriminate]. injection X as <- <-. apply (r_key s R g rv); auto. right. exact H1.
  - destruct (pop_some _ _ _ _ H2) as (c & Ec & ->).
    rewrite H in W. destruct (resume_top s g st W) as (f & st2 & E & U & W2 & L & N).
    eapply (right_phase s _ g (Running rv None)); auto; [right; exists rv, (Some k); right; exact H1|].
    intros rv' k' [X|X]; discriminate.
Qed.

Lemma reach_right s : reach filtered timely s -> inv s /\ right s.
Proof.
  induction 1 as [|s s' H IH S T].
  - split; [apply start_inv|]. split; cbn; intros; lia.
  - destruct IH as (I & R). split; [eapply step_inv; eauto|eapply step_right; eauto].
Qed.
End Right.
