(** Lemmas about the property/record state machine of PropModel. *)
From Coq Require Import List NArith Bool Lia Permutation String.
From Verif Require Import Prelude PropModel.
Import ListNotations.

Arguments PRet {A W}. Arguments PRaise {A W}. Arguments PGet {A W}.
Arguments PSet {A W}. Arguments PDel {A W}. Arguments PWorld {A W}.
Arguments DNone {A W}. Arguments DVal {A W}. Arguments DFun {A W}. Arguments DMeth {A W}.
Arguments mkProp {A W}. Arguments p_lazy {A W}. Arguments p_set {A W}.
Arguments p_required {A W}. Arguments p_isa {A W}. Arguments p_coerce {A W}.
Arguments p_check {A W}. Arguments p_default {A W}. Arguments p_v1none {A W}.
Arguments p_eqv1 {A W}.
Arguments mkState {A W}. Arguments slots {A W}. Arguments world {A W}. Arguments calls {A W}.
Arguments upd {A}. Arguments store {A W}. Arguments unstore {A W}. Arguments set_world {A W}.
Arguments note {A W}. Arguments is_none {A}. Arguments is_unset {A}. Arguments no_isa {A W}.
Arguments run_check {A W}. Arguments type_safe_value {A W}. Arguments find {A W}.
Arguments safe_set {A W}. Arguments safe_del {A W}. Arguments setattr {A W}.
Arguments delattr {A W}. Arguments run {A W}. Arguments get_default {A W}.
Arguments getattr {A W}. Arguments init_prop {A W}. Arguments eager_init {A W}.
Arguments eager_properties {A W}. Arguments init_given {A W}. Arguments init_missing {A W}.
Arguments empty_state {A W}. Arguments record_init {A W}. Arguments step {A W}.
Arguments history {A W}. Arguments OGet {A}. Arguments OSet {A}. Arguments ODel {A}.
Arguments Got {A}. Arguments Done {A}.

Section P.
Context {A W : Type}.
Notation V := (pval A).
Notation prop := (prop A W).
Notation state := (state A W).
Notation prog := (prog A W).
Notation cls := (cls A W).

Lemma upd_same (s : str -> option V) n x : upd s n x n = x.
Proof. unfold upd. now rewrite str_eqb_refl. Qed.

Lemma upd_other (s : str -> option V) n m x : n <> m -> upd s n x m = s m.
Proof. unfold upd. intros H. apply str_eqb_neq in H. now rewrite H. Qed.

(** Which slots a program may write. *)
Inductive writes_ok (oks : str -> V -> Prop) (okd : str -> Prop) : prog -> Prop :=
| WRet v : writes_ok oks okd (PRet v)
| WRaise e : writes_ok oks okd (PRaise e)
| WGet n k : (forall r, writes_ok oks okd (k r)) -> writes_ok oks okd (PGet n k)
| WSet n v k : oks n v -> (forall r, writes_ok oks okd (k r)) -> writes_ok oks okd (PSet n v k)
| WDel n k : okd n -> (forall r, writes_ok oks okd (k r)) -> writes_ok oks okd (PDel n k)
| WWorld f k : (forall w, writes_ok oks okd (k w)) -> writes_ok oks okd (PWorld f k).

Lemma writes_any (p : prog) : writes_ok (fun _ _ => True) (fun _ => True) p.
Proof. induction p; constructor; auto. Qed.

Definition class_writes (oks : str -> V -> Prop) (okd : str -> Prop) (C : cls) : Prop :=
  forall n p m, find n C = Some p -> p_default p = DMeth m -> writes_ok oks okd m.

Lemma class_writes_any C : class_writes (fun _ _ => True) (fun _ => True) C.
Proof. intros n p m _ _. apply writes_any. Qed.

(** A reflexive transitive relation kept by every elementary change is kept by every
    attribute read, however deeply the defaults nest. *)
Section Preserve.
Variable C : cls.
Variable R : state -> state -> Prop.
Variable oks : str -> V -> Prop.
Variable okd : str -> Prop.
Hypothesis Rrefl : forall st, R st st.
Hypothesis Rtrans : forall a b c, R a b -> R b c -> R a c.
Hypothesis Rset : forall n v st r st', oks n v -> setattr C n v st = (r, st') -> R st st'.
Hypothesis Rdel : forall n st r st', okd n -> delattr C n st = (r, st') -> R st st'.
Hypothesis Rworld : forall w st, R st (set_world w st).
Hypothesis Rnote : forall n p st, find n C = Some p -> slots st n = None -> R st (note n st).
Hypothesis Rlazy : forall f n p st v st1 nv w,
  find n C = Some p -> p_lazy p = true -> slots st n = None ->
  get_default C (getattr C f) n p st = (Ok v, st1) -> R st st1 ->
  type_safe_value p v false (world st1) = (Ok nv, w) ->
  R st (store n nv (set_world w st1)).
Hypothesis CW : class_writes oks okd C.

Lemma run_R (get : str -> state -> res V * state) :
  (forall n st r st', get n st = (r, st') -> R st st') ->
  forall p st r st', writes_ok oks okd p -> run C get p st = (r, st') -> R st st'.
Proof.
  intros G p. induction p; intros st r st' Wr H0; inversion Wr; subst; simpl in H0.
  - inversion H0; subst; auto.
  - inversion H0; subst; auto.
  - destruct (get n st) as [r1 st1] eqn:E. eapply Rtrans. eapply G; eauto. eapply H; eauto.
  - destruct (setattr C n v st) as [r1 st1] eqn:E. eapply Rtrans. eapply Rset; eauto. eapply H; eauto.
  - destruct (delattr C n st) as [r1 st1] eqn:E. eapply Rtrans. eapply Rdel; eauto. eapply H; eauto.
  - eapply Rtrans. apply Rworld. eapply H; eauto.
Qed.

Lemma getattr_R : forall f n st r st', getattr C f n st = (r, st') -> R st st'.
Proof.
  induction f as [|f IH]; intros n st r st' H; simpl in H.
  - inversion H; subst; auto.
  - destruct (slots st n) eqn:Es; [inversion H; subst; auto|].
    destruct (find n C) as [p|] eqn:Ef; [|inversion H; subst; auto].
    destruct (p_lazy p) eqn:El.
    + destruct (get_default C (getattr C f) n p st) as [r1 st1] eqn:Ed.
      assert (R1 : R st st1).
      { unfold get_default in Ed. destruct (p_default p) eqn:Edf.
        - inversion Ed; subst; auto.
        - inversion Ed; subst; auto.
        - destruct (f0 (world st)) as [r2 w] eqn:E2. inversion Ed; subst.
          eapply Rtrans. eapply Rnote; eauto. apply Rworld.
        - eapply Rtrans. eapply Rnote; eauto. eapply run_R; eauto. }
      destruct r1 as [v|e]; [|inversion H; subst; auto].
      destruct (type_safe_value p v false (world st1)) as [r2 w] eqn:Et.
      destruct r2 as [nv|e]; inversion H; subst.
      * eapply Rlazy; eauto.
      * eapply Rtrans; eauto.
    + destruct (p_set p); inversion H; subst; auto.
Qed.

Lemma get_default_R f n p st r st' :
  find n C = Some p -> R st (note n st) ->
  get_default C (getattr C f) n p st = (r, st') -> R st st'.
Proof.
  intros Ef Hn Ed. unfold get_default in Ed. destruct (p_default p) eqn:Edf.
  - inversion Ed; subst; auto.
  - inversion Ed; subst; auto.
  - destruct (f0 (world st)) as [r2 w] eqn:E2. inversion Ed; subst.
    eapply Rtrans; eauto.
  - eapply Rtrans; [exact Hn|]. eapply run_R; eauto. apply getattr_R.
Qed.

Definition op_ok (o : op A) : Prop :=
  match o with OGet _ => True | OSet n v => oks n v | ODel n => okd n end.

Lemma step_R f o st r st' : op_ok o -> step C f o st = (r, st') -> R st st'.
Proof.
  destruct o as [n|n v|n]; simpl; intros O H.
  - destruct (getattr C f n st) eqn:E. inversion H; subst. eapply getattr_R; eauto.
  - destruct (setattr C n v st) eqn:E. inversion H; subst. eapply Rset; eauto.
  - destruct (delattr C n st) eqn:E. inversion H; subst. eapply Rdel; eauto.
Qed.

Lemma history_R f os : forall st r st', Forall op_ok os -> history C f os st = (r, st') -> R st st'.
Proof.
  induction os as [|o t IH]; simpl; intros st r st' F H.
  - inversion H; subst; auto.
  - inversion F; subst. destruct (step C f o st) as [r1 st1] eqn:E1.
    destruct (history C f t st1) as [rs st2] eqn:E2. inversion H; subst.
    eapply Rtrans. eapply step_R; eauto. eapply IH; eauto.
Qed.
End Preserve.

Lemma all_ok_any (os : list (op A)) : Forall (op_ok (fun _ _ => True) (fun _ => True)) os.
Proof. induction os as [|[]]; constructor; simpl; auto. Qed.

(** ** type_safe_value *)

(** What it means for a value to be acceptable for a property: the declared type holds, the
    check says yes, and a required untyped property does not hold None. *)
Definition accepted (p : prop) (v : V) : Prop :=
  (forall isa, p_isa p = Some isa -> isa v = true) /\
  (forall c, p_check p = Some c -> c v = Ok true) /\
  (p_required p = true -> p_isa p = None -> v <> PNone).

Lemma run_check_ok (p : prop) (v nv : V) : run_check p v = Ok nv ->
  nv = v /\ (forall c, p_check p = Some c -> c v = Ok true).
Proof.
  unfold run_check. destruct (p_check p) as [c|].
  - destruct (c v) as [[]|] eqn:E; try discriminate. intros H. inversion H. subst.
    split; auto. intros c' Hc. now inversion Hc; subst.
  - intros H; inversion H. split; auto. discriminate.
Qed.

Lemma tsv_cases (p : prop) (v : V) b w r w' :
  type_safe_value p v b w = (r, w') ->
  (r = Err PropRequired /\ w' = w /\ v = PNone /\ p_required p = true /\ p_isa p = None) \/
  (w' = w /\ r = run_check p v /\
     (p_required p = true -> p_isa p = None -> v <> PNone) /\
     (forall isa, p_isa p = Some isa -> isa v = true)) \/
  (exists isa c, p_isa p = Some isa /\ isa v = false /\ p_coerce p v w = (c, w') /\
     match c with
     | CRaise _ => r = Err CoerceErr
     | CRet nv | CSubtype nv =>
         r = (if isa nv then run_check p nv
              else if b && is_none nv && negb (p_required p) then Ok PUnset
              else Err ValueCoercionErr)
     end).
Proof.
  unfold type_safe_value. intros H.
  destruct (is_none v && p_required p && no_isa p) eqn:E.
  - left. inversion H; subst. apply andb_prop in E as [E E2]. apply andb_prop in E as [E0 E1].
    unfold no_isa in E2. destruct (p_isa p); [discriminate|]. destruct v; try discriminate. auto 6.
  - right. destruct (p_isa p) as [isa|] eqn:Ei.
    + destruct (isa v) eqn:Ev.
      * left. inversion H; subst. repeat split; auto; try discriminate.
        intros i Hi. now inversion Hi; subst.
      * right. exists isa. destruct (p_coerce p v w) as [c w2] eqn:Ec.
        exists c.
        destruct c as [nv|nv|e]; inversion H; subst; repeat split; auto;
        destruct (isa nv); simpl; auto.
    + left. inversion H; subst. repeat split; auto; try discriminate.
      intros R _ ->. simpl in E. unfold no_isa in E. rewrite R, Ei in E. discriminate.
Qed.

Lemma tsv_accepted p v w nv w' :
  type_safe_value p v false w = (Ok nv, w') -> accepted p nv.
Proof.
  intros H. apply tsv_cases in H as [(E&_)|[(E&Er&HR&HI)|(isa&c&Ei&Ev&Ec&Hc)]].
  - discriminate.
  - symmetry in Er. apply run_check_ok in Er as [-> Hc]. repeat split; auto.
  - assert (Hn : forall x, Ok nv = (if isa x then run_check p x
              else if false && is_none x && negb (p_required p) then Ok PUnset
              else Err ValueCoercionErr) -> accepted p nv).
    { intros x Hx. destruct (isa x) eqn:Ex; [|discriminate].
      symmetry in Hx. apply run_check_ok in Hx as [-> Hk].
      split; [|split]; auto.
      - intros i Hi. congruence.
      - intros _ Hi. congruence. }
    destruct c; [eauto|eauto|discriminate].
Qed.

Lemma tsv_accepted_or_unset p v b w nv w' :
  type_safe_value p v b w = (Ok nv, w') -> nv = PUnset \/ accepted p nv.
Proof.
  intros H. apply tsv_cases in H as [(E&_)|[(E&Er&HR&HI)|(isa&c&Ei&Ev&Ec&Hc)]].
  - discriminate.
  - right. symmetry in Er. apply run_check_ok in Er as [-> Hc]. repeat split; auto.
  - assert (Hn : forall x, Ok nv = (if isa x then run_check p x
              else if b && is_none x && negb (p_required p) then Ok PUnset
              else Err ValueCoercionErr) -> nv = PUnset \/ accepted p nv).
    { intros x Hx. destruct (isa x) eqn:Ex.
      - right. symmetry in Hx. apply run_check_ok in Hx as [-> Hk].
        split; [|split]; auto.
        + intros i Hi. congruence.
        + intros _ Hi. congruence.
      - left. destruct (b && is_none x && negb (p_required p)); congruence. }
    destruct c; [eauto|eauto|discriminate].
Qed.

(** An accepted value is passed through untouched, and the coercion is not consulted. *)
Lemma tsv_idem p v b w : accepted p v -> type_safe_value p v b w = (Ok v, w).
Proof.
  intros (HI & HC & HR). unfold type_safe_value.
  assert (E : is_none v && p_required p && no_isa p = false).
  { destruct v; auto. destruct (p_required p) eqn:Er; auto. unfold no_isa.
    destruct (p_isa p) eqn:Ei; auto. exfalso. now apply HR. }
  rewrite E.
  assert (K : run_check p v = Ok v).
  { unfold run_check. destruct (p_check p) as [c|]; auto. now rewrite (HC c eq_refl). }
  destruct (p_isa p) as [isa|]; [rewrite (HI isa eq_refl)|]; now rewrite K.
Qed.

(** ** Assignment and deletion *)

Lemma safe_set_cases p n v st r st' :
  safe_set p n v st = (r, st') ->
  (exists nv w, r = Ok tt /\ accepted p nv /\ st' = store n nv (set_world w st)) \/
  (exists e w, r = Err e /\ st' = set_world w st).
Proof.
  unfold safe_set. destruct (type_safe_value p v false (world st)) as [r0 w] eqn:E.
  destruct r0 as [nv|e]; intros H; inversion H; subst.
  - left. exists nv, w. repeat split; auto; eapply tsv_accepted in E; apply E.
  - right. eauto.
Qed.

Lemma safe_del_cases (p : prop) n (st : state) r st' :
  safe_del p n st = (r, st') ->
  (exists v, r = Ok tt /\ p_required p = false /\ slots st n = Some v /\ st' = unstore n st) \/
  (st' = st /\ ((p_required p = true /\ r = Err PropRequired) \/
                (p_required p = false /\ slots st n = None /\ r = Err KeyErr))).
Proof.
  unfold safe_del. destruct (p_required p) eqn:Er.
  - intros H; inversion H; subst. right. auto.
  - destruct (slots st n) eqn:Es; intros H; inversion H; subst; [left|right]; eauto 8.
Qed.

(** Every assignment either stores one slot, clears one slot, or touches no slot. *)
Lemma setattr_cases C n v (st : state) r st' :
  setattr C n v st = (r, st') ->
  (exists nv w, r = Ok tt /\ st' = store n nv (set_world w st) /\
     match find n C with
     | Some p => p_set p <> RO /\ (p_set p <> Unsafe -> accepted p nv) /\
                 (p_set p = Unsafe -> nv = v)
     | None => nv = v
     end) \/
  (exists w p, r = Ok tt /\ st' = unstore n (set_world w st) /\
     find n C = Some p /\ p_set p = V1 /\ p_required p = false /\
     (v = PNone \/ p_eqv1 p v = true)) \/
  (exists e w, r = Err e /\ st' = set_world w st).
Proof.
  assert (SW : forall s : state, s = set_world (world s) s) by (intros []; reflexivity).
  unfold setattr. destruct (find n C) as [p|] eqn:Ef.
  - destruct (p_set p) eqn:Ep.
    + intros H; injection H as <- <-. left. exists v, (world st). rewrite <- SW.
      repeat split; congruence.
    + intros H. apply safe_set_cases in H as [(nv&w&->&Ha&->)|(e&w&->&->)].
      * left. exists nv, w. repeat split; try congruence; apply Ha.
      * right; right. eauto.
    + intros H; injection H as <- <-. right; right. exists ReadOnlyErr, (world st).
      now rewrite <- SW.
    + destruct (safe_set p n v st) as [r1 st1] eqn:Es. intros H.
      apply safe_set_cases in Es as [(nv&w&->&Ha&->)|(e&w&->&->)].
      * injection H as <- <-. left. exists nv, w. repeat split; try congruence; apply Ha.
      * destruct (is_coercion_err e && (is_none v || p_eqv1 p v)) eqn:Ec.
        -- apply safe_del_cases in H as [(x&->&Hr&Hs&->)|(->&Hr)].
           ++ right; left. exists w, p. repeat split; auto.
              apply andb_prop in Ec as [_ Ec]. apply orb_prop in Ec as [Ec|Ec]; auto.
              destruct v; try discriminate; auto.
           ++ right; right. destruct Hr as [[_ ->]|[_ [_ ->]]]; eauto.
        -- injection H as <- <-. right; right. eauto.
  - intros H; injection H as <- <-. left. exists v, (world st). now rewrite <- SW.
Qed.

Lemma delattr_cases C n (st : state) r st' :
  delattr C n st = (r, st') ->
  (exists v, r = Ok tt /\ slots st n = Some v /\ st' = unstore n st /\
     match find n C with
     | Some p => p_set p <> RO /\ (p_set p <> Unsafe -> p_required p = false)
     | None => True
     end) \/
  (exists e, r = Err e /\ st' = st).
Proof.
  unfold delattr. destruct (find n C) as [p|] eqn:Ef.
  - destruct (p_set p) eqn:Ep.
    + destruct (slots st n) eqn:Es; intros H; inversion H; subst; eauto.
      left. exists p0. repeat split; congruence.
    + intros H. apply safe_del_cases in H as [(x&->&Hr&Hs&->)|(->&Hr)].
      * left. exists x. repeat split; auto; congruence.
      * right. destruct Hr as [[_ ->]|[_ [_ ->]]]; eauto.
    + intros H; inversion H; subst; eauto.
    + intros H. apply safe_del_cases in H as [(x&->&Hr&Hs&->)|(->&Hr)].
      * left. exists x. repeat split; auto; congruence.
      * right. destruct Hr as [[_ ->]|[_ [_ ->]]]; eauto.
  - destruct (slots st n) eqn:Es; intros H; inversion H; subst; eauto 8.
Qed.

Lemma slots_store n v (st : state) m : slots (store n v st) m = if str_eqb n m then Some v else slots st m.
Proof. reflexivity. Qed.
Lemma slots_unstore n (st : state) m : slots (unstore n st) m = if str_eqb n m then None else slots st m.
Proof. reflexivity. Qed.

(** ** Construction *)

Section Init.
Variable C : cls.
Variable R : state -> state -> Prop.
Hypothesis Rrefl : forall st, R st st.
Hypothesis Rtrans : forall a b c, R a b -> R b c -> R a c.
Hypothesis Rset : forall n v st r st', setattr C n v st = (r, st') -> R st st'.
Hypothesis Rdel : forall n st r st', delattr C n st = (r, st') -> R st st'.
Hypothesis Rworld : forall w st, R st (set_world w st).
Hypothesis Rnote : forall n p st, find n C = Some p -> R st (note n st).
Hypothesis Rstore : forall n p st nv, find n C = Some p -> accepted p nv -> R st (store n nv st).

Lemma getattr_Ri : forall f n st r st', getattr C f n st = (r, st') -> R st st'.
Proof.
  apply getattr_R with (oks := fun _ _ => True) (okd := fun _ => True); eauto using class_writes_any.
  intros. eapply Rtrans; [eassumption|]. eapply Rtrans; [apply Rworld|].
  eapply Rstore; eauto. eapply tsv_accepted; eauto.
Qed.

Lemma get_default_Ri f n p st r st' :
  find n C = Some p -> get_default C (getattr C f) n p st = (r, st') -> R st st'.
Proof.
  intros Ef. apply get_default_R with (oks := fun _ _ => True) (okd := fun _ => True);
    eauto using class_writes_any.
  intros. eapply Rtrans; [eassumption|]. eapply Rtrans; [apply Rworld|].
  eapply Rstore; eauto. eapply tsv_accepted; eauto.
Qed.

Lemma init_prop_Ri f n p g st r st' :
  find n C = Some p -> init_prop C f n p g st = (r, st') -> R st st'.
Proof.
  intros Ef. unfold init_prop.
  assert (B : forall v st,
    (let (r0, w) := if is_unset v then (Ok PUnset, world st) else type_safe_value p v true (world st) in
     match r0 with
     | Ok nv => if is_unset nv then if p_required p then (Err PropRequired, set_world w st)
                                    else (Ok tt, set_world w st)
                else (Ok tt, store n nv (set_world w st))
     | Err e => (Err e, set_world w st) end) = (r, st') -> R st st').
  { intros v s H.
    destruct (if is_unset v then (Ok PUnset, world s) else type_safe_value p v true (world s))
      as [r0 w] eqn:E.
    destruct r0 as [nv|e]; [|inversion H; subst; auto].
    destruct (is_unset nv) eqn:Eu.
    - destruct (p_required p); inversion H; subst; auto.
    - inversion H; subst. eapply Rtrans; [apply Rworld|]. eapply Rstore; eauto.
      destruct (is_unset v).
      + inversion E; subst. discriminate.
      + apply tsv_accepted_or_unset in E as [->|Ha]; [discriminate|exact Ha]. }
  destruct g as [v|].
  - apply B.
  - destruct (p_lazy p); [intros H; inversion H; subst; auto|].
    destruct (get_default C (getattr C f) n p st) as [r1 st1] eqn:Ed.
    apply get_default_Ri in Ed; auto.
    destruct r1 as [v|e]; [|intros H; inversion H; subst; auto].
    intros H. eapply Rtrans; [exact Ed|]. eapply B; eauto.
Qed.

Lemma init_given_Ri f kw : forall st r st', init_given C f kw st = (r, st') -> R st st'.
Proof.
  induction kw as [|[n v] t IH]; cbn [init_given]; intros st r st' H.
  - inversion H; subst; auto.
  - destruct (find n C) as [p|] eqn:Ef; [|inversion H; subst; auto].
    destruct (init_prop C f n p (Some v) st) as [r1 st1] eqn:E.
    apply init_prop_Ri in E; auto.
    destruct r1; [|inversion H; subst; auto]. eapply Rtrans; [exact E|]. eapply IH; exact H.
Qed.

Lemma init_missing_Ri f ns : forall st r st', init_missing C f ns st = (r, st') -> R st st'.
Proof.
  induction ns as [|n t IH]; cbn [init_missing]; intros st r st' H.
  - inversion H; subst; auto.
  - destruct (find n C) as [p|] eqn:Ef; [|inversion H; subst; auto].
    destruct (init_prop C f n p None st) as [r1 st1] eqn:E.
    apply init_prop_Ri in E; auto.
    destruct r1; [|inversion H; subst; auto]. eapply Rtrans; [exact E|]. eapply IH; exact H.
Qed.

Lemma record_init_Ri ord f d kw w r st' :
  record_init C ord f d kw w = (r, st') -> R (empty_state w) st'.
Proof.
  unfold record_init. intros H.
  assert (G : forall k, (let (r0, st1) := init_given C f k (empty_state w) in
    match r0 with
    | Ok _ => init_missing C f (ord (filter (fun n => negb (existsb (str_eqb n) (map fst k))) (eager_properties C))) st1
    | Err _ => (r0, st1) end) = (r, st') -> R (empty_state w) st').
  { intros k. destruct (init_given C f k (empty_state w)) as [r0 st1] eqn:E.
    apply init_given_Ri in E. destruct r0.
    - intros H'. eapply Rtrans; [exact E|]. eapply init_missing_Ri; eauto.
    - intros H'; inversion H'; subst; auto. }
  destruct d as [[|x d]|]; destruct kw as [|y kw]; try (eapply G; eassumption).
  inversion H; subst; auto.
Qed.
End Init.

End P.
