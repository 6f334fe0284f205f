(** C13 - C20: typed slots, required, read-only, lazy and v1 attributes, construction.

    In all theorems [C] is an arbitrary record class, [A] the type of Python values, [W] the
    state of the world; type tests, checks, coercions and defaults are arbitrary, and
    defaults may be methods that use the record re-entrantly (see PropModel). *)
From Coq Require Import String List NArith ZArith Bool Lia Permutation.
From Verif Require Import Prelude PropModel PropProofs.
Import ListNotations.

Section Props.
Context {A W : Type}.
Notation V := (pval A).
Notation prop := (prop A W).
Notation state := (state A W).
Notation prog := (prog A W).
Notation cls := (cls A W).

(** A record that exists: built by the constructor, then used in any way. *)
Definition reachable (C : cls) (st : state) : Prop :=
  exists ord f d kw w st0 f' os outs,
    (forall l, Permutation (ord l) l) /\
    record_init C ord f d kw w = (Ok tt, st0) /\ history C f' os st0 = (outs, st).

(** ** C13 *)

Definition type_safe (C : cls) (st : state) : Prop :=
  forall n p v, find n C = Some p -> p_set p <> Unsafe -> slots st n = Some v -> accepted p v.

Lemma ts_set C n v (st : state) r st' :
  setattr C n v st = (r, st') -> type_safe C st -> type_safe C st'.
Proof.
  intros H T. apply setattr_cases in H as [(nv&w&->&->&Hm)|[(w&p&->&->&Hf&_)|(e&w&->&->)]];
    intros m q x Hq Hu Hx; simpl in Hx.
  - unfold upd in Hx. destruct (str_eqb n m) eqn:E.
    + apply str_eqb_eq in E as ->. rewrite Hq in Hm. inversion Hx; subst. now apply Hm.
    + eapply T; eauto.
  - unfold upd in Hx. destruct (str_eqb n m); [discriminate|]. eapply T; eauto.
  - eapply T; eauto.
Qed.

Lemma ts_del C n (st : state) r st' :
  delattr C n st = (r, st') -> type_safe C st -> type_safe C st'.
Proof.
  intros H T. apply delattr_cases in H as [(v&->&Hs&->&Hm)|(e&->&->)]; auto.
  intros m q x Hq Hu Hx; simpl in Hx. unfold upd in Hx.
  destruct (str_eqb n m); [discriminate|]. eapply T; eauto.
Qed.

Lemma ts_store C n p nv (st : state) :
  find n C = Some p -> accepted p nv -> type_safe C st -> type_safe C (store n nv st).
Proof.
  intros Hf Ha T m q x Hq Hu Hx. simpl in Hx. unfold upd in Hx. destruct (str_eqb n m) eqn:E.
  - apply str_eqb_eq in E as ->. congruence.
  - eapply T; eauto.
Qed.

Definition ts_rel C (s s' : state) := type_safe C s -> type_safe C s'.

Lemma ts_history C f os (st : state) outs st' :
  history C f os st = (outs, st') -> type_safe C st -> type_safe C st'.
Proof.
  intros H. apply (history_R C (ts_rel C)
    (fun _ _ => True) (fun _ => True)) in H; unfold ts_rel; auto using class_writes_any, all_ok_any.
  - intros. eapply ts_set; eauto.
  - intros. eapply ts_del; eauto.
  - intros f0 n p s v s1 nv w Hf _ _ _ HR Ht T. apply (ts_store C n p);
      [exact Hf | eapply tsv_accepted; eauto | exact (HR T)].
Qed.

Lemma ts_init C ord f d kw w r (st : state) :
  record_init C ord f d kw w = (r, st) -> type_safe C st.
Proof.
  intros H. apply (record_init_Ri C (ts_rel C)) in H; unfold ts_rel in *; auto.
  - apply H. intros n p v _ _ Hs. discriminate.
  - intros. eapply ts_set; eauto.
  - intros. eapply ts_del; eauto.
  - intros. eapply ts_store; eauto.
Qed.

(** Every set slot of a property with checked assignment (safe, read-only, v1; lazy or not)
    holds an accepted value, after any history, including the operations that raised. *)
Theorem C13_type_safe : forall (C : cls) st, reachable C st ->
  forall n p v, find n C = Some p -> p_set p <> Unsafe -> slots st n = Some v ->
    (forall isa, p_isa p = Some isa -> isa v = true) /\
    (forall chk, p_check p = Some chk -> chk v = Ok true) /\
    (p_required p = true -> p_isa p = None -> v <> PNone).
Proof.
  intros C st (ord&f&d&kw&w&st0&f'&os&outs&_&Hi&Hh) n p v Hf Hu Hs.
  assert (T : type_safe C st) by (eapply ts_history; eauto using ts_init).
  exact (T n p v Hf Hu Hs).
Qed.

(** And every read of such an attribute that returns gives an accepted value, or the none
    value of an unset v1 attribute. *)
Theorem C13_reads : forall (C : cls) st, reachable C st ->
  forall f n p v st', find n C = Some p -> p_set p <> Unsafe ->
    getattr C f n st = (Ok v, st') ->
    (p_set p = V1 /\ p_lazy p = false /\ slots st n = None /\ v = p_v1none p) \/
    ((forall isa, p_isa p = Some isa -> isa v = true) /\
     (forall chk, p_check p = Some chk -> chk v = Ok true)).
Proof.
  intros C st Hr f n p v st' Hf Hu Hg.
  destruct f as [|f]; [discriminate|]. simpl in Hg.
  destruct (slots st n) as [x|] eqn:Es.
  - inversion Hg; subst. right.
    destruct (C13_type_safe C st' Hr n p v Hf Hu Es) as (H1&H2&_). auto.
  - rewrite Hf in Hg. destruct (p_lazy p).
    + right. destruct (get_default C (getattr C f) n p st) as [[d|] st1]; [|discriminate].
      destruct (type_safe_value p d false (world st1)) as [[nv|] w] eqn:E; [|discriminate].
      inversion Hg; subst. apply tsv_accepted in E as (H1&H2&_). auto.
    + left. destruct (p_set p); inversion Hg; subst; auto. 
Qed.

(** ** C14 *)

Definition keeps_required (C : cls) (s s' : state) : Prop :=
  forall n p, find n C = Some p -> p_required p = true -> p_set p <> Unsafe ->
    slots s n <> None -> slots s' n <> None.

Lemma kr_set C n v (st : state) r st' : setattr C n v st = (r, st') -> keeps_required C st st'.
Proof.
  intros H m q Hq Hr Hu Hs.
  apply setattr_cases in H as [(nv&w&->&->&Hm)|[(w&p&->&->&Hf&_&Hnr&_)|(e&w&->&->)]]; simpl; auto.
  - unfold upd. destruct (str_eqb n m); congruence.
  - unfold upd. destruct (str_eqb n m) eqn:E; auto. apply str_eqb_eq in E as ->. congruence.
Qed.

Lemma kr_del C n (st : state) r st' : delattr C n st = (r, st') -> keeps_required C st st'.
Proof.
  intros H m q Hq Hr Hu Hs.
  apply delattr_cases in H as [(v&->&Hx&->&Hm)|(e&->&->)]; simpl; auto.
  unfold upd. destruct (str_eqb n m) eqn:E; auto. apply str_eqb_eq in E as ->.
  rewrite Hq in Hm. destruct Hm as [_ Hm]. specialize (Hm Hu). congruence.
Qed.

Lemma kr_store C n nv (st : state) : keeps_required C st (store n nv st).
Proof.
  intros m q Hq Hr Hu Hs. simpl. unfold upd. destruct (str_eqb n m); congruence.
Qed.

Lemma kr_refl C (s : state) : keeps_required C s s.
Proof. now intros n p _ _ _. Qed.
Lemma kr_trans C (a b c : state) : keeps_required C a b -> keeps_required C b c -> keeps_required C a c.
Proof. intros H1 H2 n p Hf Hr Hu Hs. eauto. Qed.

Lemma kr_world C w (s : state) : keeps_required C s (set_world w s).
Proof. now intros n p _ _ _. Qed.
Lemma kr_note C n (s : state) : keeps_required C s (note n s).
Proof. now intros m p _ _ _. Qed.

Lemma kr_history C f os (st : state) outs st' :
  history C f os st = (outs, st') -> keeps_required C st st'.
Proof.
  intros H. apply (history_R C (keeps_required C)
    (fun _ _ => True) (fun _ => True)) in H;
    eauto using class_writes_any, all_ok_any, kr_refl, kr_trans, kr_set, kr_del, kr_store, kr_world, kr_note.
Qed.

Lemma init_prop_required C f n p g (st st' : state) :
  init_prop C f n p g st = (Ok tt, st') -> p_required p = true ->
  (g <> None \/ p_lazy p = false) -> slots st' n <> None.
Proof.
  intros H Hr Hg. unfold init_prop in H.
  assert (B : forall v st,
    (let (r0, w) := if is_unset v then (Ok PUnset, world st) else type_safe_value p v true (world st) in
     match r0 with
     | Ok nv => if is_unset nv then if p_required p then (Err PropRequired, set_world w st)
                                    else (Ok tt, set_world w st)
                else (Ok tt, store n nv (set_world w st))
     | Err e => (Err e, set_world w st) end) = (Ok tt, st') -> slots st' n <> None).
  { intros v s.
    destruct (if is_unset v then (Ok PUnset, world s) else type_safe_value p v true (world s))
      as [r0 w] eqn:E.
    destruct r0 as [nv|e]; [|discriminate]. rewrite Hr.
    destruct (is_unset nv); [discriminate|]. intros K; inversion K. simpl.
    rewrite upd_same. discriminate. }
  destruct g as [v|].
  - eapply B; eauto.
  - destruct Hg as [Hg|Hg]; [congruence|]. rewrite Hg in H.
    destruct (get_default C (getattr C f) n p st) as [[v|e] st1]; [|discriminate].
    eapply B; eauto.
Qed.

Lemma kr_init_given C f kw : forall (st st' : state),
  init_given C f kw st = (Ok tt, st') ->
  keeps_required C st st' /\
  forall n p, In n (map fst kw) -> find n C = Some p -> p_required p = true ->
    p_set p <> Unsafe -> slots st' n <> None.
Proof.
  induction kw as [|[n v] t IH]; cbn [init_given]; intros st st' H.
  - inversion H; subst. split; [apply kr_refl|]. simpl. tauto.
  - destruct (find n C) as [p|] eqn:Ef; [|discriminate].
    destruct (init_prop C f n p (Some v) st) as [r1 st1] eqn:E.
    destruct r1 as [[]|]; [|discriminate].
    destruct (IH _ _ H) as [K1 K2]. split.
    + eapply kr_trans; [|exact K1].
      eapply (init_prop_Ri C (keeps_required C));
        eauto using kr_refl, kr_trans, kr_set, kr_del, kr_store, kr_world, kr_note.
    + intros m q Hin. simpl in Hin. destruct Hin as [<-|Hin]; intros Hq Hr Hu.
      * rewrite Ef in Hq; inversion Hq; subst.
        eapply K1; eauto. eapply init_prop_required; eauto. left; discriminate.
      * eauto.
Qed.

Lemma kr_init_missing C f ns : forall (st st' : state),
  init_missing C f ns st = (Ok tt, st') ->
  keeps_required C st st' /\
  forall n p, In n ns -> find n C = Some p -> p_required p = true -> p_lazy p = false ->
    p_set p <> Unsafe -> slots st' n <> None.
Proof.
  induction ns as [|n t IH]; cbn [init_missing]; intros st st' H.
  - inversion H; subst. split; [apply kr_refl|]. simpl. tauto.
  - destruct (find n C) as [p|] eqn:Ef; [|discriminate].
    destruct (init_prop C f n p None st) as [r1 st1] eqn:E.
    destruct r1 as [[]|]; [|discriminate].
    destruct (IH _ _ H) as [K1 K2]. split.
    + eapply kr_trans; [|exact K1].
      eapply (init_prop_Ri C (keeps_required C));
        eauto using kr_refl, kr_trans, kr_set, kr_del, kr_store, kr_world, kr_note.
    + intros m q [<-|Hin] Hq Hr Hl Hu.
      * rewrite Ef in Hq; inversion Hq; subst.
        eapply K1; eauto. eapply init_prop_required; eauto.
      * eauto.
Qed.

Lemma find_In n (C : cls) p : find n C = Some p -> In (n, p) C.
Proof.
  induction C as [|[m q] t IH]; simpl; [discriminate|].
  destruct (str_eqb m n) eqn:E; intros H.
  - apply str_eqb_eq in E. inversion H; subst. auto.
  - auto.
Qed.

Lemma existsb_str n l : existsb (str_eqb n) l = true <-> In n l.
Proof.
  rewrite existsb_exists. split.
  - intros (x&Hx&E). apply str_eqb_eq in E. now subst.
  - intros H. exists n. split; auto. apply str_eqb_refl.
Qed.

Lemma missing_spec (C : cls) given n :
  In n (filter (fun n => negb (existsb (str_eqb n) given)) (eager_properties C)) <->
  In n (eager_properties C) /\ ~ In n given.
Proof.
  rewrite filter_In. rewrite <- (existsb_str n given). destruct (existsb (str_eqb n) given); simpl.
  - split; [intros [_ H]; discriminate | intros [_ H]; now destruct H].
  - split; [intros [H _]; split; [exact H | discriminate] | intros [H _]; auto].
Qed.

Lemma eager_In n (C : cls) p : find n C = Some p -> eager_init p = true -> In n (eager_properties C).
Proof.
  intros H E. unfold eager_properties. apply in_map_iff. exists (n, p). split; auto.
  apply filter_In. split; auto using find_In.
Qed.

Lemma record_init_unfold C ord f d kw w (st : state) :
  record_init C ord f d kw w = (Ok tt, st) ->
  exists k st1, (k = kw \/ d = Some k) /\
    init_given C f k (empty_state w) = (Ok tt, st1) /\
    init_missing C f (ord (filter (fun n => negb (existsb (str_eqb n) (map fst k))) (eager_properties C))) st1 = (Ok tt, st).
Proof.
  unfold record_init. intros H.
  destruct d as [[|x d]|]; destruct kw as [|y kw]; try discriminate;
  match type of H with (let (_, _) := init_given _ _ ?k _ in _) = _ =>
    exists k; destruct (init_given C f k (empty_state w)) as [[[]|e] st1] eqn:E;
    [exists st1; split; auto | discriminate] end.
Qed.

(** Construction succeeds only if every required property (other than lazy ones) ends up
    with a value, and no history unsets it again. *)
Theorem C14_required_present : forall (C : cls) st, reachable C st ->
  forall n p, find n C = Some p -> p_required p = true -> p_lazy p = false ->
    p_set p <> Unsafe -> slots st n <> None.
Proof.
  intros C st (ord&f&d&kw&w&st0&f'&os&outs&Hord&Hi&Hh) n p Hf Hr Hl Hu.
  eapply kr_history; eauto.
  apply record_init_unfold in Hi as (k&st1&_&Hg&Hm).
  apply kr_init_given in Hg as [_ Hg]. apply kr_init_missing in Hm as [Hk Hm].
  destruct (in_dec str_eq_dec n (map fst k)) as [Hin|Hin].
  - eapply Hk; eauto.
  - eapply Hm; eauto. eapply Permutation_in; [apply Permutation_sym, Hord|].
    apply missing_spec. split; auto. eapply eager_In; eauto.
    unfold eager_init. now rewrite Hl, Hr.
Qed.

(** The same, seen from the caller: leaving out a required property that has no default, or
    passing None for one that has no declared type, makes the constructor raise. *)
Theorem C14_constructor_rejects : forall (C : cls) ord f kw w n p,
  (forall l, Permutation (ord l) l) ->
  find n C = Some p -> p_required p = true -> p_lazy p = false -> p_set p <> Unsafe ->
  (~ In n (map fst kw) /\ p_default p = DNone \/ In (n, PNone) kw /\ p_isa p = None) ->
  exists e st, record_init C ord f None kw w = (Err e, st).
Proof.
  intros C ord f kw w n p Hord Hf Hr Hl Hu Hc.
  destruct (record_init C ord f None kw w) as [[[]|e] st] eqn:E; [exfalso|eauto].
  apply record_init_unfold in E as (k&st1&[Ek|Ek]&Hg&Hm); [subst k|discriminate].
  destruct Hc as [[Hin Hd]|[Hin Hi]].
  - assert (Hin' : In n (ord (filter (fun n => negb (existsb (str_eqb n) (map fst kw))) (eager_properties C)))).
    { eapply Permutation_in; [apply Permutation_sym, Hord|]. apply missing_spec. split; auto.
      eapply eager_In; eauto. unfold eager_init. now rewrite Hl, Hr. }
    revert Hin' st1 Hg Hm. generalize (ord (filter (fun n => negb (existsb (str_eqb n) (map fst kw))) (eager_properties C))).
    intros l Hl'. assert (forall st1, init_missing C f l st1 = (Ok tt, st) -> False); [|eauto].
    induction l as [|m t IH]; [easy|]. cbn [init_missing]. intros st1 Hm.
    destruct Hl' as [->|Hin'].
    + rewrite Hf in Hm. unfold init_prop, get_default in Hm. rewrite Hl, Hd in Hm. simpl in Hm.
      rewrite Hr in Hm. discriminate.
    + destruct (find m C); [|discriminate].
      destruct (init_prop C f m _ None st1) as [[]]; [|discriminate]. eauto.
  - clear Hm. revert Hg. generalize (@empty_state A W w). induction kw as [|[m x] t IH]; [easy|].
    cbn [init_given]. intros s Hg. destruct Hin as [Heq|Hin].
    + inversion Heq; subst. rewrite Hf in Hg. unfold init_prop, type_safe_value in Hg. simpl in Hg.
      unfold no_isa in Hg. rewrite Hr, Hi in Hg. simpl in Hg. discriminate.
    + destruct (find m C); [|discriminate].
      destruct (init_prop C f m _ (Some x) s) as [[]]; [|discriminate]. eauto.
Qed.

(** ** C15 *)

Theorem C15_failed_write_changes_nothing : forall C (st st' : state) n v e,
  setattr C n v st = (Err e, st') \/ delattr C n st = (Err e, st') ->
  forall m, slots st' m = slots st m.
Proof.
  intros C st st' n v e [H|H] m.
  - apply setattr_cases in H as [(nv&w&H&_)|[(w&p&H&_)|(e'&w&_&->)]]; try discriminate. reflexivity.
  - apply delattr_cases in H as [(x&H&_)|(e'&_&->)]; try discriminate. reflexivity.
Qed.

(** A successful assignment or deletion changes no other slot. *)
Theorem C15_write_frame : forall C (st st' : state) n v r,
  setattr C n v st = (r, st') \/ delattr C n st = (r, st') ->
  forall m, m <> n -> slots st' m = slots st m.
Proof.
  intros C st st' n v r [H|H] m Hm.
  - apply setattr_cases in H as [(nv&w&_&->&_)|[(w&p&_&->&_)|(e'&w&_&->)]]; simpl; auto;
      apply upd_other; congruence.
  - apply delattr_cases in H as [(x&_&_&->&_)|(e'&_&->)]; simpl; auto; apply upd_other; congruence.
Qed.

(** ** C16 *)

(** [v] is a value of the property's default, as run at some moment and accepted. *)
Definition computed_default (C : cls) (n : str) (p : prop) (v : V) : Prop :=
  exists f st0 st1 v0 w,
    get_default C (getattr C f) n p st0 = (Ok v0, st1) /\
    type_safe_value p v0 false (world st1) = (Ok v, w).

Definition ro_step (C : cls) (n : str) (p : prop) (s s' : state) : Prop :=
  slots s' n = slots s n \/
  (p_lazy p = true /\ slots s n = None /\ exists v, slots s' n = Some v /\ computed_default C n p v).

Lemma ro_history C n p f os (st : state) outs st' :
  find n C = Some p -> p_set p = RO ->
  history C f os st = (outs, st') -> ro_step C n p st st'.
Proof.
  intros Hf Hp H.
  apply (history_R C (ro_step C n p) (fun _ _ => True) (fun _ => True)) in H;
    auto using class_writes_any, all_ok_any; unfold ro_step; clear H.
  - auto.
  - intros a b c [H1|H1] [H2|H2].
    + left; congruence.
    + right. destruct H2 as (?&?&?). rewrite <- H1. auto.
    + right. rewrite H2. auto.
    + right. destruct H1 as (?&?&?), H2 as (?&?&?). auto.
  - intros m v s r s' _ E. left.
    destruct (str_eq_dec n m) as [<-|Hn].
    + unfold setattr in E. rewrite Hf, Hp in E. now inversion E.
    + eapply C15_write_frame; eauto.
  - intros m s r s' _ E. left.
    destruct (str_eq_dec n m) as [<-|Hn].
    + unfold delattr in E. rewrite Hf, Hp in E. now inversion E.
    + eapply (C15_write_frame C s s' m PNone); eauto.
  - auto.
  - auto.
  - intros f0 m q s v s1 nv w Hm Hq Hs Hd HR Ht. simpl.
    destruct (str_eq_dec n m) as [<-|Hn].
    + right. rewrite Hf in Hm; inversion Hm; subst. repeat split; auto. exists nv.
      split; [apply upd_same|]. exists f0, s, s1, v, w. auto.
    + rewrite upd_other by congruence. exact HR.
Qed.

(** A set read-only slot keeps its value through every history; an unset one stays unset,
    unless the property is lazy and then it can only receive its computed default. *)
Theorem C16_read_only : forall (C : cls) n p f os (st : state) outs st',
  find n C = Some p -> p_set p = RO -> history C f os st = (outs, st') ->
  (forall v, slots st n = Some v -> slots st' n = Some v) /\
  (slots st n = None -> p_lazy p = false -> slots st' n = None) /\
  (slots st n = None -> forall v, slots st' n = Some v -> computed_default C n p v).
Proof.
  intros C n p f os st outs st' Hf Hp H.
  destruct (ro_history _ _ _ _ _ _ _ _ Hf Hp H) as [E|(L&Hn&v&Hv&Hd)].
  - repeat split; congruence.
  - repeat split; try congruence.
Qed.

(** Every direct assignment or deletion of a read-only attribute raises. *)
Theorem C16_raises : forall (C : cls) n p (st : state) v, find n C = Some p -> p_set p = RO ->
  setattr C n v st = (Err ReadOnlyErr, st) /\ delattr C n st = (Err ReadOnlyErr, st).
Proof. intros C n p st v Hf Hp. unfold setattr, delattr. now rewrite Hf, Hp. Qed.

(** ** C17 *)

(** Number of times the default of [n] has been called. *)
Definition ncalls (n : str) (st : state) : nat := count_occ str_eq_dec (calls st) n.

(** No default method of the class assigns or deletes attribute [n]. *)
Definition nobody_writes (n : str) (C : cls) : Prop :=
  class_writes (fun m _ => m <> n) (fun m => m <> n) C.

Definition op_writes (n : str) (o : op A) : Prop :=
  match o with OGet _ => False | OSet m _ => m = n | ODel m => m = n end.

Theorem C17_set_slot_read : forall (C : cls) f n v (st : state),
  slots st n = Some v -> getattr C (S f) n st = (Ok v, st).
Proof. intros C f n v st H. simpl. now rewrite H. Qed.

Theorem C17_read_stores : forall (C : cls) f n p v (st st' : state),
  find n C = Some p -> p_lazy p = true -> getattr C f n st = (Ok v, st') ->
  slots st' n = Some v.
Proof.
  intros C f n p v st st' Hf Hl H. destruct f; [discriminate|]. simpl in H.
  destruct (slots st n) eqn:Es; [inversion H; subst; auto|]. rewrite Hf, Hl in H.
  destruct (get_default C (getattr C f) n p st) as [[d|] st1]; [|discriminate].
  destruct (type_safe_value p d false (world st1)) as [[nv|] w]; inversion H; subst.
  simpl. apply upd_same.
Qed.

(** After a successful read, through any history of reads of any attributes and of writes to
    other attributes, every later read gives the same value and the default is not called
    again. *)
Theorem C17_computed_once : forall (C : cls) f n p v (st st1 : state) f' os outs st2 f'',
  find n C = Some p -> p_lazy p = true -> nobody_writes n C ->
  getattr C f n st = (Ok v, st1) ->
  Forall (fun o => ~ op_writes n o) os ->
  history C f' os st1 = (outs, st2) ->
  getattr C (S f'') n st2 = (Ok v, st2) /\ ncalls n st2 = ncalls n st1.
Proof.
  intros C f n p v st st1 f' os outs st2 f'' Hf Hl Hw Hg Hos Hh.
  apply C17_read_stores with (p := p) in Hg; auto.
  assert (K : slots st1 n = Some v -> slots st2 n = Some v /\ ncalls n st2 = ncalls n st1).
  { revert Hh.
    apply (history_R C (fun s s' => slots s n = Some v -> slots s' n = Some v /\ ncalls n s' = ncalls n s)
       (fun m _ => m <> n) (fun m => m <> n)); auto.
    - intros a b c H1 H2 Ha. destruct (H1 Ha) as [Hb E1]. destruct (H2 Hb). split; congruence.
    - intros m x s r s' Hm E Hs. split.
      + rewrite <- Hs. eapply C15_write_frame; eauto.
      + apply setattr_cases in E as [(nv&w&_&->&_)|[(w&q&_&->&_)|(e&w&_&->)]]; reflexivity.
    - intros m s r s' Hm E Hs. split.
      + rewrite <- Hs. eapply (C15_write_frame C s s' m PNone); eauto.
      + apply delattr_cases in E as [(y&_&_&->&_)|(e&_&->)]; reflexivity.
    - intros m q s _ Hs Hn. split; auto. unfold ncalls. simpl.
      destruct (str_eq_dec m n); congruence.
    - intros f0 m q s x s1 nv w _ _ Hs _ HR _ Hn. destruct (HR Hn) as [H1 H2].
      simpl. split; auto. rewrite upd_other; congruence.
    - eapply Forall_impl; [|exact Hos]. intros [m|m x|m] Ho; simpl in *; auto. }
  destruct (K Hg) as [K1 K2]. split; auto. now apply C17_set_slot_read.
Qed.

(** A default is called for an unset slot only, and every read of an unset lazy slot calls
    it (when it is callable). *)
Theorem C17_unset_read_calls : forall (C : cls) f n p (st : state) r st',
  find n C = Some p -> p_lazy p = true -> slots st n = None ->
  (exists g, p_default p = DFun g) \/ (exists m, p_default p = DMeth m) ->
  getattr C (S f) n st = (r, st') ->
  exists l, calls st' = l ++ n :: calls st.
Proof.
  intros C f n p st r st' Hf Hl Hs Hd H. simpl in H. rewrite Hs, Hf, Hl in H.
  destruct (get_default C (getattr C f) n p st) as [r1 st1] eqn:Ed.
  assert (G : exists l, calls st1 = l ++ n :: calls st).
  { unfold get_default in Ed. destruct Hd as [[g Hd]|[m Hd]]; rewrite Hd in Ed.
    - destruct (g (world st)). inversion Ed; subst. now exists [].
    - change (n :: calls st) with (calls (note n st)).
      apply (run_R C (fun s s' => exists l, calls s' = l ++ calls s)
        (fun _ _ => True) (fun _ => True)) in Ed; auto using writes_any.
      all: try (intros; now exists []).
      + intros a b c [l1 H1] [l2 H2]. exists (l2 ++ l1). rewrite H2, H1. now rewrite app_assoc.
      + intros k x s r' s' _ E. exists [].
        apply setattr_cases in E as [(nv&w&_&->&_)|[(w&q&_&->&_)|(e&w&_&->)]]; reflexivity.
      + intros k s r' s' _ E. exists [].
        apply delattr_cases in E as [(y&_&_&->&_)|(e&_&->)]; reflexivity.
      + apply (getattr_R C (fun s s' => exists l, calls s' = l ++ calls s)
          (fun _ _ => True) (fun _ => True)); auto using class_writes_any.
        all: try (intros; now exists []).
        * intros a b c [l1 H1] [l2 H2]. exists (l2 ++ l1). rewrite H2, H1. now rewrite app_assoc.
        * intros k x s r' s' _ E. exists [].
          apply setattr_cases in E as [(nv&w&_&->&_)|[(w&q&_&->&_)|(e&w&_&->)]]; reflexivity.
        * intros k s r' s' _ E. exists [].
          apply delattr_cases in E as [(y&_&_&->&_)|(e&_&->)]; reflexivity.
        * intros. now exists [n0]. }
  destruct r1 as [v|e].
  - destruct (type_safe_value p v false (world st1)) as [[nv|] w]; inversion H; subst; exact G.
  - inversion H; subst; exact G.
Qed.

(** When the default is a plain function one read of the unset slot calls it exactly once. *)
Theorem C17_function_called_once : forall (C : cls) f n p g (st : state) r st',
  find n C = Some p -> p_lazy p = true -> slots st n = None -> p_default p = DFun g ->
  getattr C (S f) n st = (r, st') -> calls st' = n :: calls st.
Proof.
  intros C f n p g st r st' Hf Hl Hs Hd H. simpl in H. rewrite Hs, Hf, Hl in H.
  unfold get_default in H. rewrite Hd in H. destruct (g (world st)) as [[v|e] w].
  - destruct (type_safe_value p v false _) as [[nv|] w']; now inversion H.
  - now inversion H.
Qed.

(** No read calls the default of an attribute that is set, or is not lazy. *)
Theorem C17_set_slot_never_called : forall (C : cls) n f m (st : state) r st',
  nobody_writes n C -> slots st n <> None ->
  getattr C f m st = (r, st') -> ncalls n st' = ncalls n st.
Proof.
  intros C n f m st r st' Hw Hs H.
  assert (K : (fun s s' : state => slots s n <> None -> slots s' n <> None /\ ncalls n s' = ncalls n s) st st');
    [|now apply K].
  revert H.
  apply (getattr_R C (fun s s' => slots s n <> None -> slots s' n <> None /\ ncalls n s' = ncalls n s)
       (fun m _ => m <> n) (fun m => m <> n)); auto.
  - intros a b c H1 H2 Ha. destruct (H1 Ha) as [Hb E1]. destruct (H2 Hb). split; congruence.
  - intros k x s r' s' Hm E Hk. split.
    + erewrite C15_write_frame; eauto.
    + apply setattr_cases in E as [(nv&w&_&->&_)|[(w&q&_&->&_)|(e&w&_&->)]]; reflexivity.
  - intros k s r' s' Hm E Hk. split.
    + erewrite (C15_write_frame C s s' k PNone); eauto.
    + apply delattr_cases in E as [(y&_&_&->&_)|(e&_&->)]; reflexivity.
  - intros k q s _ Hk Hn. split; auto. unfold ncalls. simpl.
    destruct (str_eq_dec k n); congruence.
  - intros f0 k q s x s1 nv w _ _ Hk _ HR _ Hn. destruct (HR Hn) as [H1 H2].
    simpl. split; auto. unfold upd. destruct (str_eqb k n); congruence.
Qed.

(** A read of an unset lazy slot whose default is not acceptable (or raises) raises, and the
    read itself stores nothing: all slots are as the default left them; a default that is
    not a method leaves all of them alone. *)
Theorem C17_bad_default_not_stored : forall (C : cls) f n p (st : state) e st',
  find n C = Some p -> p_lazy p = true ->
  getattr C (S f) n st = (Err e, st') ->
  (exists r st1, get_default C (getattr C f) n p st = (r, st1) /\
     forall m, slots st' m = slots st1 m) /\
  ((forall m, p_default p <> DMeth m) -> forall m, slots st' m = slots st m).
Proof.
  intros C f n p st e st' Hf Hl H. simpl in H. destruct (slots st n) eqn:Es; [discriminate|].
  rewrite Hf, Hl in H.
  destruct (get_default C (getattr C f) n p st) as [r1 st1] eqn:Ed.
  assert (G : forall m, slots st' m = slots st1 m).
  { destruct r1 as [v|e1].
    - destruct (type_safe_value p v false (world st1)) as [[nv|] w]; inversion H; subst; reflexivity.
    - inversion H; subst; reflexivity. }
  split; [eauto|].
  intros Hd m. rewrite G. unfold get_default in Ed. destruct (p_default p) eqn:Epd.
  - now inversion Ed.
  - now inversion Ed.
  - destruct (f0 (world st)). now inversion Ed.
  - now destruct (Hd p0).
Qed.

(** ** C18 *)

(** The declared type turns [v] down: it is not of the type, and the coercion raises or
    gives something that is not of the type either. *)
Definition type_rejects (p : prop) (v : V) (w : W) : Prop :=
  exists isa, p_isa p = Some isa /\ isa v = false /\
    match fst (p_coerce p v w) with
    | CRaise _ => True
    | CRet nv | CSubtype nv => isa nv = false
    end.

Theorem C18_unset_reads_none : forall (C : cls) f n p (st : state),
  find n C = Some p -> p_set p = V1 -> p_lazy p = false -> slots st n = None ->
  getattr C (S f) n st = (Ok (p_v1none p), st).
Proof. intros C f n p st Hf Hp Hl Hs. simpl. now rewrite Hs, Hf, Hl, Hp. Qed.

Lemma tsv_rejects p (v : V) w : type_rejects p v w ->
  exists e w', type_safe_value p v false w = (Err e, w') /\ is_coercion_err e = true.
Proof.
  intros (isa&Hi&Hv&Hc). unfold type_safe_value, no_isa. rewrite Hi, Hv.
  rewrite Bool.andb_false_r. destruct (p_coerce p v w) as [[nv|nv|e] w']; simpl in *.
  - rewrite Hc. simpl. eauto.
  - rewrite Hc. simpl. eauto.
  - eauto.
Qed.

(** Assigning None or the none value when the type rejects it: clears a set slot, raises
    KeyError on an unset one and PropertyRequired on a required one; no other slot changes
    and afterwards the attribute reads as its none value, unless it is required. *)
Theorem C18_assign_none : forall (C : cls) n p (st st' : state) v r,
  find n C = Some p -> p_set p = V1 ->
  v = PNone \/ p_eqv1 p v = true ->
  type_rejects p v (world st) ->
  setattr C n v st = (r, st') ->
  (forall m, m <> n -> slots st' m = slots st m) /\
  (p_required p = true -> r = Err PropRequired /\ slots st' n = slots st n) /\
  (p_required p = false -> slots st' n = None /\
     r = (match slots st n with Some _ => Ok tt | None => Err KeyErr end)).
Proof.
  intros C n p st st' v r Hf Hp Hv Hrej H.
  split; [intros; eapply C15_write_frame; eauto|].
  destruct (tsv_rejects p v (world st) Hrej) as (e&w&Ht&He).
  unfold setattr, safe_set in H. rewrite Hf, Hp, Ht, He in H.
  assert (Hb : is_none v || p_eqv1 p v = true).
  { destruct Hv as [->| ->]; simpl; auto. now rewrite orb_true_r. }
  rewrite Hb in H. simpl in H. unfold safe_del in H. simpl in H.
  split; intros Hr; rewrite Hr in H.
  - inversion H; subst; auto.
  - destruct (slots st n) eqn:Es; inversion H; subst; simpl; auto. split; auto. apply upd_same.
Qed.

(** Any other value that the type rejects raises and leaves every slot alone. *)
Theorem C18_other_rejected : forall (C : cls) n p (st st' : state) v r,
  find n C = Some p -> p_set p = V1 -> v <> PNone -> p_eqv1 p v = false ->
  type_rejects p v (world st) -> setattr C n v st = (r, st') ->
  (exists e, r = Err e) /\ forall m, slots st' m = slots st m.
Proof.
  intros C n p st st' v r Hf Hp Hn Hv Hrej H.
  destruct (tsv_rejects p v (world st) Hrej) as (e&w&Ht&He).
  assert (Hb : is_none v || p_eqv1 p v = false).
  { rewrite Hv. destruct v; simpl; congruence. }
  unfold setattr, safe_set in H. rewrite Hf, Hp, Ht, He, Hb in H. simpl in H.
  inversion H; subst. split; eauto.
Qed.

(** ** C19 *)

Theorem C19_reassign_own_value : forall C (st : state), reachable C st ->
  forall n p v, find n C = Some p -> p_set p = Safe \/ p_set p = V1 ->
    slots st n = Some v ->
    exists st', setattr C n v st = (Ok tt, st') /\
      (forall m, slots st' m = slots st m) /\ world st' = world st /\ calls st' = calls st.
Proof.
  intros C st Hr n p v Hf Hp Hs.
  assert (Ha : accepted p v).
  { apply (C13_type_safe C st Hr n p v Hf); auto. destruct Hp; congruence. }
  assert (K : safe_set p n v st = (Ok tt, store n v (set_world (world st) st))).
  { unfold safe_set. now rewrite (tsv_idem p v false (world st) Ha). }
  exists (store n v (set_world (world st) st)). split.
  - unfold setattr. rewrite Hf. destruct Hp as [Hp|Hp]; rewrite Hp; rewrite K; reflexivity.
  - repeat split; auto. intros m. simpl. unfold upd. destruct (str_eqb n m) eqn:E; auto.
    apply str_eqb_eq in E as <-. auto.
Qed.

(** ** C20 *)

Definition no_methods (C : cls) : Prop :=
  forall n p m, find n C = Some p -> p_default p <> DMeth m.

(** What a value offered at construction becomes: an accepted value, being the offered one
    or its coercion; or no value, for an optional property, if the offered value was the
    "not set" marker or the coercion gave None (or the marker). *)
Definition initialised (p : prop) (v : V) (x : option V) : Prop :=
  match x with
  | Some nv => accepted p nv /\ nv <> PUnset /\
      (nv = v \/ exists isa w w', p_isa p = Some isa /\ isa v = false /\
         (p_coerce p v w = (CRet nv, w') \/ p_coerce p v w = (CSubtype nv, w')))
  | None => p_required p = false /\
      (v = PUnset \/ exists isa w w' y, p_isa p = Some isa /\ isa v = false /\
         (y = PNone \/ y = PUnset) /\
         (p_coerce p v w = (CRet y, w') \/ p_coerce p v w = (CSubtype y, w')))
  end.

Definition default_gives (p : prop) (v : V) : Prop :=
  match p_default p with
  | DNone => v = PUnset
  | DVal x => v = x
  | DFun f => exists w w', f w = (Ok v, w')
  | DMeth _ => False
  end.

Definition eager (p : prop) : Prop :=
  p_lazy p = false /\ (p_required p = true \/ p_default p <> DNone).

Lemma init_base (p : prop) n (v : V) (st : state) st' :
  (let (r0, w) := if is_unset v then (Ok PUnset, world st) else type_safe_value p v true (world st) in
     match r0 with
     | Ok nv => if is_unset nv then if p_required p then (Err PropRequired, set_world w st)
                                    else (Ok tt, set_world w st)
                else (Ok tt, store n nv (set_world w st))
     | Err e => (Err e, set_world w st) end) = (Ok tt, st') ->
  exists x, initialised p v x /\
    (forall m, slots st' m = if str_eqb n m then match x with Some _ => x | None => slots st m end else slots st m).
Proof.
  intros H.
  destruct (if is_unset v then (Ok PUnset, world st) else type_safe_value p v true (world st))
    as [r0 w] eqn:E.
  destruct r0 as [nv|e]; [|discriminate].
  destruct (is_unset nv) eqn:Eu.
  - destruct (p_required p) eqn:Er; [discriminate|]. inversion H; subst. exists None. split.
    + simpl. split; auto. destruct (is_unset v) eqn:Ev; [destruct v; try discriminate; auto|].
      destruct nv; try discriminate.
      apply tsv_cases in E as [(E&_)|[(_&E&_)|(isa&c&Hi&Hv&Hc&E)]]; [discriminate| |].
      * symmetry in E. apply run_check_ok in E as [<- _]. discriminate.
      * right. exists isa, (world st), w.
        destruct c as [y|y|e]; [exists y|exists y|discriminate]; repeat split; auto.
        all: destruct (isa y); [symmetry in E; apply run_check_ok in E as [-> _]; auto|].
        all: destruct y; simpl in E; try discriminate; auto.
    + intros m. simpl. now destruct (str_eqb n m).
  - inversion H; subst. exists (Some nv). split.
    + simpl. destruct (is_unset v) eqn:Ev; [inversion E; subst; discriminate|].
      split; [|split].
      * apply tsv_accepted_or_unset in E as [->|Ha]; [discriminate|exact Ha].
      * now intros ->.
      * apply tsv_cases in E as [(E&_)|[(_&E&_)|(isa&c&Hi&Hv&Hc&E)]]; [discriminate| |].
        -- symmetry in E. apply run_check_ok in E as [<- _]. auto.
        -- right. exists isa, (world st), w. repeat split; auto.
           destruct c as [y|y|e]; [left|right|discriminate].
           all: assert (nv = y); [|congruence].
           all: destruct (isa y); [symmetry in E; now apply run_check_ok in E as [-> _]|].
           all: destruct (true && is_none y && negb (p_required p)); inversion E; subst; discriminate.
    + intros m. simpl. unfold upd. reflexivity.
Qed.

Lemma init_prop_given C f n p v (st st' : state) :
  init_prop C f n p (Some v) st = (Ok tt, st') ->
  exists x, initialised p v x /\
    (forall m, slots st' m = if str_eqb n m then match x with Some _ => x | None => slots st m end else slots st m).
Proof. unfold init_prop. apply init_base. Qed.

Lemma init_prop_default C f n p (st st' : state) :
  (forall m, p_default p <> DMeth m) -> p_lazy p = false ->
  init_prop C f n p None st = (Ok tt, st') ->
  exists v x, default_gives p v /\ initialised p v x /\
    (forall m, slots st' m = if str_eqb n m then match x with Some _ => x | None => slots st m end else slots st m).
Proof.
  intros Hd Hl. unfold init_prop. rewrite Hl. unfold get_default, default_gives.
  destruct (p_default p) eqn:Ed.
  - intros H. apply init_base in H as (x&?&?). eauto.
  - intros H. apply init_base in H as (x&?&?). eauto.
  - destruct (f0 (world st)) as [[v|e] w] eqn:Ef; [|discriminate].
    intros H. apply init_base in H as (x&?&?). exists v, x. split; eauto.
  - now destruct (Hd p0).
Qed.

Lemma init_given_exact C f kw : forall (st st' : state),
  NoDup (map fst kw) -> init_given C f kw st = (Ok tt, st') ->
  (forall n, ~ In n (map fst kw) -> slots st' n = slots st n) /\
  (forall n, In n (map fst kw) -> slots st n = None ->
     exists p v, find n C = Some p /\ In (n, v) kw /\ initialised p v (slots st' n)).
Proof.
  induction kw as [|[n v] t IH]; cbn [init_given map fst]; intros st st' ND H.
  - inversion H; subst. split; auto. intros n [].
  - inversion ND as [|? ? Hn ND']; subst.
    destruct (find n C) as [p|] eqn:Ef; [|discriminate].
    destruct (init_prop C f n p (Some v) st) as [[[]|e] st1] eqn:E; [|discriminate].
    apply init_prop_given in E as (x&Hx&Hs). destruct (IH _ _ ND' H) as [F G]. split.
    + intros m Hm. rewrite F by (simpl in Hm; tauto). rewrite Hs.
      destruct (str_eqb n m) eqn:E; auto. apply str_eqb_eq in E. subst. simpl in Hm. tauto.
    + intros m [<-|Hm] Hnone.
      * exists p, v. split; [auto|]. split; [now left|]. rewrite F by auto. rewrite Hs.
        rewrite str_eqb_refl. destruct x; [exact Hx|]. now rewrite Hnone.
      * destruct (G m Hm) as (q&u&?&?&?).
        { rewrite Hs. destruct (str_eqb n m) eqn:E; auto. apply str_eqb_eq in E. now subst. }
        exists q, u. auto using in_cons.
Qed.

Lemma init_missing_exact C f ns : forall (st st' : state),
  no_methods C -> NoDup ns -> (forall n p, In n ns -> find n C = Some p -> p_lazy p = false) ->
  init_missing C f ns st = (Ok tt, st') ->
  (forall n, ~ In n ns -> slots st' n = slots st n) /\
  (forall n, In n ns -> slots st n = None ->
     exists p v, find n C = Some p /\ default_gives p v /\ initialised p v (slots st' n)).
Proof.
  induction ns as [|n t IH]; cbn [init_missing]; intros st st' NM ND NL H.
  - inversion H; subst. split; auto. intros n [].
  - inversion ND as [|? ? Hn ND']; subst.
    destruct (find n C) as [p|] eqn:Ef; [|discriminate].
    destruct (init_prop C f n p None st) as [[[]|e] st1] eqn:E; [|discriminate].
    apply init_prop_default in E as (v&x&Hv&Hx&Hs); [|intros; eapply NM; eauto|eapply NL; eauto; now left].
    destruct (IH _ _ NM ND' (fun m q Hm => NL m q (or_intror Hm)) H) as [F G]. split.
    + intros m Hm. rewrite F by (simpl in Hm; tauto). rewrite Hs.
      destruct (str_eqb n m) eqn:E; auto. apply str_eqb_eq in E. subst. simpl in Hm. tauto.
    + intros m [<-|Hm] Hnone.
      * exists p, v. split; [auto|]. split; [auto|]. rewrite F by auto. rewrite Hs.
        rewrite str_eqb_refl. destruct x; [exact Hx|]. now rewrite Hnone.
      * destruct (G m Hm) as (q&u&?&?&?).
        { rewrite Hs. destruct (str_eqb n m) eqn:E; auto. apply str_eqb_eq in E. now subst. }
        exists q, u. auto.
Qed.

Lemma NoDup_filter_fst (g : str * prop -> bool) (C : cls) :
  NoDup (map fst C) -> NoDup (map fst (filter g C)).
Proof.
  induction C as [|[n p] t IH]; simpl; intros ND; auto. inversion ND; subst.
  destruct (g (n, p)); simpl; auto. constructor; auto.
  intros Hin. apply H1. apply in_map_iff in Hin as ([m q]&<-&Hq). apply filter_In in Hq as [Hq _].
  apply in_map_iff. exists (m, q). auto.
Qed.

Lemma In_find n p (C : cls) : NoDup (map fst C) -> In (n, p) C -> find n C = Some p.
Proof.
  induction C as [|[m q] t IH]; simpl; intros ND H; [easy|]. inversion ND; subst.
  destruct H as [H|H].
  - inversion H; subst. now rewrite str_eqb_refl.
  - destruct (str_eqb m n) eqn:E; auto. apply str_eqb_eq in E. subst.
    exfalso. apply H2. apply in_map_iff. exists (n, p). auto.
Qed.

Lemma eager_iff (p : prop) : eager_init p = true <-> eager p.
Proof.
  unfold eager_init, eager. destruct (p_lazy p); [split; [discriminate|now intros []]|].
  destruct (p_required p); simpl; [tauto|]. destruct (p_default p); simpl;
    split; try discriminate; try (intros; split; auto; right; discriminate); auto.
  intros [_ [H|H]]; congruence.
Qed.

Lemma eager_properties_iff n (C : cls) : NoDup (map fst C) ->
  (In n (eager_properties C) <-> exists p, find n C = Some p /\ eager_init p = true).
Proof.
  intros ND. unfold eager_properties. split.
  - intros H. apply in_map_iff in H as ([m p]&<-&H). apply filter_In in H as [H E]. simpl in *.
    exists p. split; auto using In_find.
  - intros (p&Hf&E). eapply eager_In; eauto.
Qed.

(** After a successful construction every slot is accounted for: a passed property holds
    what the passed value is initialised to, a property not passed that is required or has a
    default (and is not lazy) holds what its default is initialised to, anything else is
    unset; and only declared names were passed. *)
Theorem C20_exact : forall (C : cls) ord f kw w (st : state),
  no_methods C -> NoDup (map fst C) -> NoDup (map fst kw) ->
  (forall l, Permutation (ord l) l) ->
  record_init C ord f None kw w = (Ok tt, st) ->
  forall n,
    match find n C with
    | None => slots st n = None /\ ~ In n (map fst kw)
    | Some p =>
        (exists v, In (n, v) kw /\ initialised p v (slots st n)) \/
        (~ In n (map fst kw) /\ eager p /\ exists v, default_gives p v /\ initialised p v (slots st n)) \/
        (~ In n (map fst kw) /\ ~ eager p /\ slots st n = None)
    end.
Proof.
  intros C ord f kw w st NM NC NK Hord H n.
  apply record_init_unfold in H as (k&st1&[->|]&Hg&Hm); [|discriminate].
  apply init_given_exact in Hg as [F1 G1]; auto.
  set (ms := filter (fun n => negb (existsb (str_eqb n) (map fst kw))) (eager_properties C)) in *.
  assert (NDm : NoDup (ord ms)).
  { eapply Permutation_NoDup; [apply Permutation_sym, Hord|]. apply NoDup_filter.
    now apply NoDup_filter_fst. }
  assert (Inm : forall m, In m (ord ms) <-> (exists p, find m C = Some p /\ eager_init p = true) /\ ~ In m (map fst kw)).
  { intros m. rewrite <- eager_properties_iff by auto. rewrite <- missing_spec. fold ms.
    split; apply Permutation_in; auto using Permutation_sym. }
  apply init_missing_exact in Hm as [F2 G2]; auto.
  2:{ intros m p Hmm Hf. apply Inm in Hmm as [(q&Hq&E) _]. rewrite Hf in Hq. inversion Hq; subst.
      apply eager_iff in E. apply E. }
  destruct (find n C) as [p|] eqn:Ef.
  - destruct (in_dec str_eq_dec n (map fst kw)) as [Hin|Hin].
    + left. destruct (G1 n Hin eq_refl) as (q&v&Hq&Hv&Hx). rewrite Ef in Hq. inversion Hq; subst.
      exists v. split; auto. rewrite F2; auto. rewrite Inm. tauto.
    + right. destruct (eager_init p) eqn:Ee.
      * left. split; auto. split; [now apply eager_iff|].
        destruct (G2 n) as (q&v&Hq&Hv&Hx).
        { apply Inm. eauto. }
        { rewrite F1; auto. }
        rewrite Ef in Hq. inversion Hq; subst. eauto.
      * right. split; auto. split; [rewrite <- eager_iff; congruence|].
        rewrite F2, F1; auto. rewrite Inm. intros [(q&Hq&E) _]. congruence.
  - assert (Hin : ~ In n (map fst kw)).
    { intros Hin. destruct (G1 n Hin eq_refl) as (q&v&Hq&_). congruence. }
    split; auto. rewrite F2, F1; auto. rewrite Inm. intros [(q&Hq&E) _]. congruence.
Qed.

(** Unknown names are rejected; so are a dict and keywords at once. *)
Theorem C20_unknown_rejected : forall (C : cls) ord f kw w n,
  In n (map fst kw) -> find n C = None ->
  exists e st, record_init C ord f None kw w = (Err e, st).
Proof.
  intros C ord f kw w n Hin Hf.
  destruct (record_init C ord f None kw w) as [[[]|e] st] eqn:E; [exfalso|eauto].
  apply record_init_unfold in E as (k&st1&[->|]&Hg&_); [|discriminate].
  revert Hg. generalize (@empty_state A W w). induction kw as [|[m x] t IH]; [easy|].
  cbn [init_given]. intros s Hg. destruct Hin as [<-|Hin].
  - simpl in Hf. rewrite Hf in Hg. discriminate.
  - destruct (find m C); [|discriminate].
    destruct (init_prop C f m _ (Some x) s) as [[]]; [|discriminate]. eauto.
Qed.

Theorem C20_ambiguous_rejected : forall (C : cls) ord f d kw w,
  d <> [] -> kw <> [] ->
  record_init C ord f (Some d) kw w = (Err AmbiguousCons, empty_state w).
Proof. intros C ord f d kw w Hd Hk. destruct d; [easy|]. destruct kw; easy. Qed.

(** Passing a dict is the same as passing its items as keywords. *)
Theorem C20_dict_or_keywords : forall (C : cls) ord f d w,
  record_init C ord f (Some d) [] w = record_init C ord f None d w.
Proof. intros C ord f [|x d] w; reflexivity. Qed.

(** *** Order independence *)

(** Deterministic class: coercions and defaults give the same answer every time, leave the
    world alone, and defaults do not look at the instance. *)
Definition deterministic (C : cls) : Prop :=
  forall n p, find n C = Some p ->
    (forall v, exists c, forall w, p_coerce p v w = (c, w)) /\
    match p_default p with
    | DFun f => exists r, forall w, f w = (r, w)
    | DMeth _ => False
    | _ => True
    end.

Lemma tsv_det (p : prop) v b w :
  (exists c, forall w, p_coerce p v w = (c, w)) -> snd (type_safe_value p v b w) = w.
Proof.
  intros [c Hc]. unfold type_safe_value. destruct (_ && _); auto.
  destruct (p_isa p) as [isa|]; auto. destruct (isa v); auto. rewrite Hc. now destruct c.
Qed.

(** The net effect of initialising one property in world [w]. *)
Definition effect (w : W) (p : prop) (g : option V) : res (option V) :=
  let base v :=
    match (if is_unset v then Ok PUnset else fst (type_safe_value p v true w)) with
    | Err e => Err e
    | Ok nv => if is_unset nv then if p_required p then Err PropRequired else Ok None
               else Ok (Some nv)
    end in
  match g with
  | Some v => base v
  | None => if p_lazy p then Ok None
            else match p_default p with
                 | DNone => base PUnset
                 | DVal v => base v
                 | DFun f => match fst (f w) with Ok v => base v | Err e => Err e end
                 | DMeth _ => Err UserErr
                 end
  end.

Lemma init_prop_effect C f n p g (st : state) r st' :
  deterministic C -> find n C = Some p -> init_prop C f n p g st = (r, st') ->
  world st' = world st /\
  match effect (world st) p g with
  | Err e => r = Err e
  | Ok x => r = Ok tt /\ forall m, slots st' m = if str_eqb n m then match x with Some _ => x | None => slots st m end else slots st m
  end.
Proof.
  intros D Hf. destruct (D n p Hf) as [Dc Dd]. unfold init_prop, effect.
  assert (B : forall v (s : state),
    (let (r0, w) := if is_unset v then (Ok PUnset, world s) else type_safe_value p v true (world s) in
     match r0 with
     | Ok nv => if is_unset nv then if p_required p then (Err PropRequired, set_world w s)
                                    else (Ok tt, set_world w s)
                else (Ok tt, store n nv (set_world w s))
     | Err e => (Err e, set_world w s) end) = (r, st') ->
    world st' = world s /\
    match (match (if is_unset v then Ok PUnset else fst (type_safe_value p v true (world s))) with
    | Err e => Err e
    | Ok nv => if is_unset nv then if p_required p then Err PropRequired else Ok None
               else Ok (Some nv)
    end) with
    | Err e => r = Err e
    | Ok x => r = Ok tt /\ forall m, slots st' m = if str_eqb n m then match x with Some _ => x | None => slots s m end else slots s m
    end).
  { intros v s. pose proof (tsv_det p v true (world s) (Dc v)) as Ew.
    destruct (is_unset v).
    - simpl. destruct (p_required p); intros H; inversion H; subst; simpl; split; auto.
      split; auto. intros m. now destruct (str_eqb n m).
    - destruct (type_safe_value p v true (world s)) as [r0 w0]. simpl in Ew. subst w0. simpl.
      destruct r0 as [nv|e]; [|intros H; inversion H; subst; simpl; auto].
      destruct (is_unset nv).
      + destruct (p_required p); intros H; inversion H; subst; simpl; split; auto.
        split; auto. intros m. now destruct (str_eqb n m).
      + intros H; inversion H; subst; simpl. split; auto. }
  destruct g as [v|]; [apply B|].
  destruct (p_lazy p).
  - intros H; inversion H; subst. split; auto. split; auto. intros m. now destruct (str_eqb n m).
  - unfold get_default. destruct (p_default p); try (apply B).
    + destruct Dd as [r0 Hr]. rewrite Hr. simpl. destruct r0 as [v|e].
      * intros H. apply (B v (set_world (world st) (note n st))) in H. exact H.
      * intros H; inversion H; subst. auto.
    + contradiction.
Qed.

Local Opaque effect.

(** All jobs of a construction succeed. *)
Definition job := (str * option V)%type.
Definition job_effect (C : cls) (w : W) (j : job) : res (option V) :=
  match find (fst j) C with None => Err PropNotKnown | Some p => effect w p (snd j) end.
Definition job_ok C w j := is_ok (job_effect C w j) = true.

Fixpoint lookup {B} (n : str) (l : list (str * B)) : option B :=
  match l with [] => None | (m, b) :: t => if str_eqb m n then Some b else lookup n t end.

Lemma lookup_perm {B} (l l' : list (str * B)) : Permutation l l' -> NoDup (map fst l) ->
  forall n, lookup n l = lookup n l'.
Proof.
  induction 1 as [|[a b] l l' P IH|[a b] [c d] l|l1 l2 l3 P1 IH1 P2 IH2]; simpl; intros ND n; auto.
  - inversion ND; subst. destruct (str_eqb a n); auto.
  - inversion ND; subst. simpl in H1. destruct (str_eqb a n) eqn:E1, (str_eqb c n) eqn:E2; auto.
    apply str_eqb_eq in E1, E2. subst. tauto.
  - rewrite IH1 by auto. apply IH2. eapply Permutation_NoDup; [|exact ND]. now apply Permutation_map.
Qed.

Definition slot_spec C w (js : list job) (s : state) n : option V :=
  match lookup n js with
  | Some g => match job_effect C w (n, g) with Ok (Some v) => Some v | _ => slots s n end
  | None => slots s n
  end.

Lemma lookup_notin {B} n (l : list (str * B)) : ~ In n (map fst l) -> lookup n l = None.
Proof.
  induction l as [|[m b] t IH]; simpl; auto. intros H. destruct (str_eqb m n) eqn:E.
  - apply str_eqb_eq in E. tauto.
  - apply IH. tauto.
Qed.

Lemma init_given_effect C f kw : forall (st : state) r st',
  deterministic C -> NoDup (map fst kw) -> init_given C f kw st = (r, st') ->
  let js := map (fun nv => (fst nv, Some (snd nv))) kw in
  world st' = world st /\
  (r = Ok tt <-> Forall (job_ok C (world st)) js) /\
  (r = Ok tt -> forall n, slots st' n = slot_spec C (world st) js st n).
Proof.
  induction kw as [|[n v] t IH]; intros st r st' D ND H; cbn [init_given] in H; simpl.
  - inversion H; subst. repeat split; auto.
  - inversion ND as [|? ? Hn ND']; subst.
    destruct (find n C) as [p|] eqn:Ef.
    2:{ inversion H; subst. repeat split; try discriminate; auto.
        intros F. inversion F; subst. unfold job_ok, job_effect in H2. simpl in H2.
        rewrite Ef in H2. discriminate. }
    destruct (init_prop C f n p (Some v) st) as [r1 st1] eqn:E.
    apply init_prop_effect in E as [Ew E]; auto.
    destruct (effect (world st) p (Some v)) as [x|e] eqn:Ee.
    + destruct E as [-> Hs]. apply IH in H as (W1&O1&S1); auto. rewrite Ew in *.
      split; auto. split.
      * rewrite O1. split; intros F; [constructor; auto|now inversion F].
        unfold job_ok, job_effect. simpl. now rewrite Ef, Ee.
      * intros Hr m. rewrite (S1 Hr). unfold slot_spec. simpl.
        destruct (str_eqb n m) eqn:Enm.
        -- apply str_eqb_eq in Enm as <-. rewrite lookup_notin.
           2:{ rewrite map_map. exact Hn. }
           rewrite Hs, str_eqb_refl. unfold job_effect. simpl. rewrite Ef, Ee. now destruct x.
        -- assert (K : slots st1 m = slots st m) by (rewrite Hs, Enm; auto). rewrite K. reflexivity.
    + subst r1. inversion H; subst. repeat split; try discriminate; auto.
      intros F. inversion F; subst. unfold job_ok, job_effect in H2. simpl in H2.
      rewrite Ef, Ee in H2. discriminate.
Qed.

Lemma init_missing_effect C f ns : forall (st : state) r st',
  deterministic C -> NoDup ns -> init_missing C f ns st = (r, st') ->
  let js := map (fun n => (n, None)) ns in
  world st' = world st /\
  (r = Ok tt <-> Forall (job_ok C (world st)) js) /\
  (r = Ok tt -> forall n, slots st' n = slot_spec C (world st) js st n).
Proof.
  induction ns as [|n t IH]; intros st r st' D ND H; cbn [init_missing] in H; simpl.
  - inversion H; subst. repeat split; auto.
  - inversion ND as [|? ? Hn ND']; subst.
    destruct (find n C) as [p|] eqn:Ef.
    2:{ inversion H; subst. repeat split; try discriminate; auto.
        intros F. inversion F; subst. unfold job_ok, job_effect in H2. simpl in H2.
        rewrite Ef in H2. discriminate. }
    destruct (init_prop C f n p None st) as [r1 st1] eqn:E.
    apply init_prop_effect in E as [Ew E]; auto.
    destruct (effect (world st) p None) as [x|e] eqn:Ee.
    + destruct E as [-> Hs]. apply IH in H as (W1&O1&S1); auto. rewrite Ew in *.
      split; auto. split.
      * rewrite O1. split; intros F; [constructor; auto|now inversion F].
        unfold job_ok, job_effect. simpl. now rewrite Ef, Ee.
      * intros Hr m. rewrite (S1 Hr). unfold slot_spec. simpl.
        destruct (str_eqb n m) eqn:Enm.
        -- apply str_eqb_eq in Enm as <-. rewrite lookup_notin.
           2:{ rewrite map_map. simpl. now rewrite map_id. }
           rewrite Hs, str_eqb_refl. unfold job_effect. simpl. rewrite Ef, Ee. now destruct x.
        -- assert (K : slots st1 m = slots st m) by (rewrite Hs, Enm; auto). rewrite K. reflexivity.
    + subst r1. inversion H; subst. repeat split; try discriminate; auto.
      intros F. inversion F; subst. unfold job_ok, job_effect in H2. simpl in H2.
      rewrite Ef, Ee in H2. discriminate.
Qed.

(** Neither the order of the keywords nor the order in which the missing defaults are filled
    in matters: both constructions succeed with the same slots, or both raise. *)
Theorem C20_order_independent : forall (C : cls) ord ord' f f' kw kw' w r st r' st',
  deterministic C -> NoDup (map fst C) -> NoDup (map fst kw) -> Permutation kw kw' ->
  (forall l, Permutation (ord l) l) -> (forall l, Permutation (ord' l) l) ->
  record_init C ord f None kw w = (r, st) ->
  record_init C ord' f' None kw' w = (r', st') ->
  (r = Ok tt <-> r' = Ok tt) /\ (r = Ok tt -> forall n, slots st n = slots st' n).
Proof.
  intros C ord ord' f f' kw kw' w r st r' st' D NC NK P Ho Ho' H H'.
  set (mis := fun k : list (str * V) => filter (fun n => negb (existsb (str_eqb n) (map fst k))) (eager_properties C)).
  assert (Unf : forall o g k rr ss, record_init C o g None k w = (rr, ss) ->
    (let (r0, st1) := init_given C g k (empty_state w) in
    match r0 with Ok _ => init_missing C g (o (mis k)) st1 | Err _ => (r0, st1) end) = (rr, ss)).
  { intros o g k rr ss K. destruct k; exact K. }
  apply Unf in H. apply Unf in H'.
  assert (NK' : NoDup (map fst kw')).
  { eapply Permutation_NoDup; [|exact NK]. now apply Permutation_map. }
  assert (Nmis : forall o k, (forall l, Permutation (o l) l) -> NoDup (o (mis k))).
  { intros o k Po. eapply Permutation_NoDup; [apply Permutation_sym, Po|]. apply NoDup_filter.
    now apply NoDup_filter_fst. }
  assert (Pmis : Permutation (ord (mis kw)) (ord' (mis kw'))).
  { rewrite Ho, Ho'. unfold mis. erewrite filter_ext; [apply Permutation_refl|].
    intros n. simpl. f_equal.
    assert (X : forall l l', Permutation l l' -> existsb (str_eqb n) l = existsb (str_eqb n) l').
    { intros l l' PP. apply eq_iff_eq_true. rewrite !existsb_str.
      split; apply Permutation_in; auto using Permutation_sym. }
    apply X. now apply Permutation_map. }
  destruct (init_given C f kw (empty_state w)) as [r1 s1] eqn:E1.
  destruct (init_given C f' kw' (empty_state w)) as [r2 s2] eqn:E2.
  apply init_given_effect in E1 as (W1&O1&S1); auto.
  apply init_given_effect in E2 as (W2&O2&S2); auto. simpl in W1, W2, O1, O2, S1, S2.
  assert (PJ : Permutation (map (fun nv : str * V => (fst nv, Some (snd nv))) kw)
                           (map (fun nv : str * V => (fst nv, Some (snd nv))) kw')) by now apply Permutation_map.
  assert (EO : r1 = Ok tt <-> r2 = Ok tt).
  { rewrite O1, O2. split; intros F; rewrite Forall_forall in *; intros x Hx; apply F;
      eapply Permutation_in; [apply Permutation_sym, PJ|exact Hx|apply PJ|exact Hx]. }
  assert (ND1 : NoDup (map fst (map (fun nv : str * V => (fst nv, Some (snd nv))) kw))).
  { rewrite map_map. exact NK. }
  destruct r1 as [[]|e1], r2 as [[]|e2].
  - assert (ES : forall n, slots s1 n = slots s2 n).
    { intros n. rewrite S1, S2 by auto. unfold slot_spec. rewrite (lookup_perm _ _ PJ ND1 n). reflexivity. }
    apply init_missing_effect in H as (W3&O3&S3); auto.
    apply init_missing_effect in H' as (W4&O4&S4); auto. rewrite W1 in *. rewrite W2 in *.
    assert (PM : Permutation (map (fun n => (n, @None V)) (ord (mis kw))) (map (fun n => (n, @None V)) (ord' (mis kw'))))
      by now apply Permutation_map.
    assert (ND2 : NoDup (map fst (map (fun n => (n, @None V)) (ord (mis kw))))).
    { rewrite map_map. simpl. rewrite map_id. apply Nmis, Ho. }
    assert (EO2 : r = Ok tt <-> r' = Ok tt).
    { rewrite O3, O4. split; intros F; rewrite Forall_forall in *; intros x Hx; apply F;
        eapply Permutation_in; [apply Permutation_sym, PM|exact Hx|apply PM|exact Hx]. }
    split; auto. intros Hr n. rewrite S3 by auto. rewrite S4 by (now apply EO2).
    unfold slot_spec. rewrite (lookup_perm _ _ PM ND2 n), ES. reflexivity.
  - exfalso. destruct EO as [K _]. specialize (K eq_refl). discriminate.
  - exfalso. destruct EO as [_ K]. specialize (K eq_refl). discriminate.
  - inversion H; inversion H'; subst. split; [split; discriminate|discriminate].
Qed.

End Props.

Arguments reachable {A W}.

(** * Concrete cases

    Values are integers; the world is a counter.  [isa int >= 0] with a coercion that
    doubles negative numbers' absolute value, gives None for -1 and raises for -2 and -7. *)
Section Examples.
Local Open Scope Z_scope.
Import ZArith.
Notation ZV := (pval Z).
Definition ex_isa (v : ZV) : bool := match v with PV z => 0 <=? z | _ => false end.
Definition ex_coerce (v : ZV) (w : nat) : cres Z * nat :=
  match v with
  | PV (-1) => (CRet PNone, S w)
  | PV (-3) => (CSubtype (PV 3), w)
  | PV (-2) | PV (-7) => (CRaise UserErr, S w)
  | PV z => (CRet (PV (-2 * z)), S w)
  | _ => (CRet PNone, w)
  end.
Definition ex_check (v : ZV) : res bool :=
  match v with PV z => if z =? 13 then Err UserErr else Ok (z <? 1000) | _ => Ok true end.
Definition ex_prop lz st rq df : prop Z nat :=
  mkProp lz st rq (Some ex_isa) ex_coerce (Some ex_check) df (PV (-7)) 
         (fun v => match v with PV z => z =? (-7) | _ => false end).
Definition S_ (s : string) := s2l s.
Local Open Scope string_scope.
(** The lazy default reads "id", assigns "name", and counts its calls in the world. *)
Definition ex_meth : prog Z nat :=
  PGet (S_ "id") (fun r =>
  PSet (S_ "name") (PV 5) (fun _ =>
  PWorld S (fun w => match r with Ok (PV z) => PRet (PV (z + 100 * Z.of_nat w)) | _ => PRaise UserErr end))).
Definition ex_fun (w : nat) : res ZV * nat := (Ok (PV (Z.of_nat w)), S w).
Definition ex_class : cls Z nat :=
  [(S_ "id", ex_prop false RO true DNone);
   (S_ "name", ex_prop false Safe false (DVal (PV (-10))));
   (S_ "req", ex_prop false Safe true (DFun ex_fun));
   (S_ "lz", ex_prop true Safe false (DMeth ex_meth));
   (S_ "lr", ex_prop true RO false (DFun ex_fun));
   (S_ "v", ex_prop false V1 false DNone);
   (S_ "u", ex_prop false Unsafe false DNone)].
Definition rid (l : list str) := l.
Definition ex_st0 := snd (record_init ex_class rid 9 None [(S_ "id", PV (-4)); (S_ "v", PV 1)] O).
Definition ex_ops : list (op Z) :=
  [OSet (S_ "name") (PV (-2)); OSet (S_ "name") (PV 13); OGet (S_ "lz"); OSet (S_ "id") (PV 1);
   ODel (S_ "req"); OGet (S_ "lz"); OSet (S_ "v") (PV (-7)); OGet (S_ "v"); OSet (S_ "u") (PV (-5));
   OSet (S_ "v") PNone; OGet (S_ "lr")].
Definition ex_h := history ex_class 9 ex_ops ex_st0.
Definition ex_st := snd ex_h.

Example ex_constructed :
  record_init ex_class rid 9 None [(S_ "id", PV (-4)); (S_ "v", PV 1)] O = (Ok tt, ex_st0) /\
  map (slots ex_st0) [S_ "id"; S_ "name"; S_ "req"; S_ "lz"; S_ "lr"; S_ "v"; S_ "u"] =
  [Some (PV 8); Some (PV 20); Some (PV 2); None; None; Some (PV 1); None].
Proof. split; [|vm_compute; reflexivity]. unfold ex_st0. vm_compute. reflexivity. Qed.

(** A history with coercion failures, a raising check, a lazy method that assigns another
    attribute, refused writes, clearing a v1 attribute (and clearing it twice). *)
Example ex_history :
  fst ex_h =
  [Done (Err CoerceErr); Done (Err UserErr); Got (Ok (PV 408)); Done (Err ReadOnlyErr);
   Done (Err PropRequired); Got (Ok (PV 408)); Done (Ok tt); Got (Ok (PV (-7))); Done (Ok tt);
   Done (Err KeyErr); Got (Ok (PV 6))] /\
  map (slots ex_st) [S_ "id"; S_ "name"; S_ "req"; S_ "lz"; S_ "lr"; S_ "v"; S_ "u"] =
  [Some (PV 8); Some (PV 5); Some (PV 2); Some (PV 408); Some (PV 6); None; Some (PV (-5))] /\
  calls ex_st = [S_ "lr"; S_ "lz"; S_ "req"].
Proof. vm_compute. repeat split; reflexivity. Qed.

Example ex_reachable : reachable ex_class ex_st.
Proof.
  exists rid, 9%nat, None, [(S_ "id", PV (-4)); (S_ "v", PV 1)], O, ex_st0, 9%nat, ex_ops, (fst ex_h).
  split; [intros l; apply Permutation_refl|]. split; [apply ex_constructed|].
  unfold ex_st, ex_h. destruct (history ex_class 9 ex_ops ex_st0); reflexivity.
Qed.

Example C13_case : exists p v, find (S_ "lz") ex_class = Some p /\ p_set p <> Unsafe /\
  slots ex_st (S_ "lz") = Some v /\ p_isa p = Some ex_isa.
Proof.
  eexists; exists (PV 408). split; [reflexivity|]. split; [discriminate|].
  split; [vm_compute; reflexivity|reflexivity].
Qed.

Example C14_case : exists p, find (S_ "req") ex_class = Some p /\ p_required p = true /\
  p_lazy p = false /\ p_set p <> Unsafe.
Proof. eexists. repeat split; try reflexivity. discriminate. Qed.

Example C14_reject_case : exists st,
  record_init ex_class rid 9 None [(S_ "name", PV 1)] O = (Err PropRequired, st).
Proof. eexists. vm_compute. reflexivity. Qed.

Example C15_case : exists st', setattr ex_class (S_ "name") (PV (-2)) ex_st = (Err CoerceErr, st') /\
  slots ex_st (S_ "name") = Some (PV 5) /\ world st' <> world ex_st.
Proof. eexists. split; [vm_compute; reflexivity|]. split; [vm_compute; reflexivity|discriminate]. Qed.

Example C16_case : exists p, find (S_ "lr") ex_class = Some p /\ p_set p = RO /\ p_lazy p = true /\
  slots ex_st0 (S_ "lr") = None /\ slots ex_st (S_ "lr") = Some (PV 6).
Proof. eexists. repeat split; try reflexivity; vm_compute; reflexivity. Qed.

Example C17_case : nobody_writes (S_ "lz") ex_class /\
  Forall (fun o => ~ op_writes (S_ "lz") o) ex_ops /\
  exists st1, getattr ex_class 9 (S_ "lz") ex_st0 = (Ok (PV 308), st1).
Proof.
  split; [|split].
  - intros n p m Hf Hm. unfold ex_class in Hf. simpl find in Hf.
    repeat match type of Hf with
    | (if ?b then _ else _) = _ => destruct b; [inversion Hf; subst; simpl in Hm; inversion Hm; clear Hm|]
    end; try discriminate.
    constructor. intros r. constructor; [discriminate|]. intros _. constructor. intros w.
    destruct r as [[| |z]|]; constructor.
  - repeat constructor; simpl; try discriminate; tauto.
  - eexists. vm_compute. reflexivity.
Qed.

Example C18_case : exists p, find (S_ "v") ex_class = Some p /\ p_set p = V1 /\
  type_rejects p PNone (world ex_st0) /\ slots ex_st0 (S_ "v") = Some (PV 1) /\
  slots ex_st (S_ "v") = None.
Proof.
  eexists. split; [reflexivity|]. split; [reflexivity|]. split.
  - exists ex_isa. repeat split.
  - split; vm_compute; reflexivity.
Qed.

Example C19_case : exists p, find (S_ "name") ex_class = Some p /\ p_set p = Safe /\
  slots ex_st (S_ "name") = Some (PV 5).
Proof. eexists. repeat split. Qed.

(** For C20: the same class without the method default. *)
Definition ex_class2 : cls Z nat :=
  [(S_ "id", ex_prop false RO true DNone);
   (S_ "name", ex_prop false Safe false (DVal (PV (-10))));
   (S_ "opt", ex_prop false Safe false DNone);
   (S_ "lr", ex_prop true RO false (DFun ex_fun))].

Example C20_case :
  no_methods ex_class2 /\ NoDup (map fst ex_class2) /\
  let r := record_init ex_class2 (@rev str) 9 None [(S_ "opt", PV (-1)); (S_ "id", PV 3)] O in
  fst r = Ok tt /\
  map (slots (snd r)) [S_ "id"; S_ "name"; S_ "opt"; S_ "lr"] = [Some (PV 3); Some (PV 20); None; None].
Proof.
  split; [|split].
  - intros n p m Hf. unfold ex_class2 in Hf. simpl find in Hf.
    repeat match type of Hf with
    | (if ?b then _ else _) = _ => destruct b; [inversion Hf; subst; discriminate|]
    end; discriminate.
  - repeat constructor; simpl; intuition discriminate.
  - vm_compute. auto.
Qed.

Definition ex_class3 : cls Z nat :=
  [(S_ "a", mkProp false Safe true (Some ex_isa) (fun v w => (CRet (PV 4), w)) None DNone PNone (fun _ => false));
   (S_ "b", mkProp false Safe false (Some ex_isa) (fun v w => (CRet (PV 5), w)) None (DFun (fun w => (Ok (PV (-1)), w))) PNone (fun _ => false));
   (S_ "c", mkProp false Safe false None (fun v w => (CRet v, w)) None (DVal PNone) PNone (fun _ => false))].

Example C20_order_case :
  deterministic ex_class3 /\
  let r1 := record_init ex_class3 (@rev str) 9 None [(S_ "a", PV (-1)); (S_ "c", PV 3)] O in
  let r2 := record_init ex_class3 rid 9 None [(S_ "c", PV 3); (S_ "a", PV (-1))] O in
  fst r1 = Ok tt /\ fst r2 = Ok tt /\
  map (slots (snd r1)) [S_ "a"; S_ "b"; S_ "c"] = [Some (PV 4); Some (PV 5); Some (PV 3)].
Proof.
  split.
  - intros n p Hf. unfold ex_class3 in Hf. simpl find in Hf.
    repeat match type of Hf with
    | (if ?b then _ else _) = _ => destruct b; [inversion Hf; subst; simpl; split; eauto|]
    end; discriminate.
  - vm_compute. auto.
Qed.

(** ** Findings *)

(** [required=True] is not enforced for a lazy property: the constructor accepts a record
    without it, and the slot stays unset. *)
Theorem C14_lazy_required_refuted :
  exists (C : cls Z nat) st n p, reachable C st /\ find n C = Some p /\ p_required p = true /\
    p_set p <> Unsafe /\ slots st n = None.
Proof.
  exists [(S_ "a", ex_prop true Safe true DNone)], (empty_state O), (S_ "a"). eexists.
  split; [|split; [reflexivity|repeat split; discriminate]].
  exists rid, 1%nat, None, [], O, (empty_state O), 1%nat, [], [].
  split; [intros l; apply Permutation_refl|]. split; reflexivity.
Qed.

(** Reading a lazy property that has neither a default nor a declared type does not raise
    AttributeError: it stores and returns the private "not set" marker as if it were a
    value, even if the property is required. *)
Theorem C17_lazy_without_default_refuted :
  exists (C : cls Z nat) st n p st', reachable C st /\ find n C = Some p /\
    p_lazy p = true /\ p_default p = DNone /\ p_required p = true /\
    getattr C 2 n st = (Ok PUnset, st') /\ slots st' n = Some PUnset.
Proof.
  exists [(S_ "a", mkProp true Safe true None ex_coerce None DNone PNone (fun _ => false))],
    (empty_state O), (S_ "a"). do 2 eexists.
  split; [|repeat split].
  exists rid, 1%nat, None, [], O, (empty_state O), 1%nat, [], [].
  split; [intros l; apply Permutation_refl|]. split; reflexivity.
Qed.

(** Assigning None to a v1 attribute that is already unset raises KeyError. *)
Theorem C18_unset_none_keyerror :
  exists (C : cls Z nat) st n p st', reachable C st /\ find n C = Some p /\ p_set p = V1 /\
    p_required p = false /\ getattr C 1 n st = (Ok (p_v1none p), st) /\
    setattr C n (p_v1none p) st = (Err KeyErr, st').
Proof.
  exists [(S_ "v", ex_prop false V1 false DNone)], (empty_state O), (S_ "v"). do 2 eexists.
  split; [|repeat split].
  exists rid, 1%nat, None, [], O, (empty_state O), 1%nat, [], [].
  split; [intros l; apply Permutation_refl|]. split; reflexivity.
Qed.
End Examples.

Print Assumptions C13_type_safe.
Print Assumptions C13_reads.
Print Assumptions C14_required_present.
Print Assumptions C14_constructor_rejects.
Print Assumptions C15_failed_write_changes_nothing.
Print Assumptions C15_write_frame.
Print Assumptions C16_read_only.
Print Assumptions C16_raises.
Print Assumptions C17_set_slot_read.
Print Assumptions C17_read_stores.
Print Assumptions C17_computed_once.
Print Assumptions C17_unset_read_calls.
Print Assumptions C17_function_called_once.
Print Assumptions C17_set_slot_never_called.
Print Assumptions C17_bad_default_not_stored.
Print Assumptions C18_unset_reads_none.
Print Assumptions C18_assign_none.
Print Assumptions C18_other_rejected.
Print Assumptions C19_reassign_own_value.
Print Assumptions C20_exact.
Print Assumptions C20_unknown_rejected.
Print Assumptions C20_ambiguous_rejected.
Print Assumptions C20_dict_or_keywords.
Print Assumptions C20_order_independent.
Print Assumptions C14_lazy_required_refuted.
Print Assumptions C17_lazy_without_default_refuted.
Print Assumptions C18_unset_none_keyerror.
