(** C56: properties of several types in visits and casts. *)
From Coq Require Import String List NArith ZArith Bool Permutation.
From Verif Require Import Prelude SelPathModel GenModel PickleModel AutoModel JsonModel JsonSpec VisitModel
  VisitSpec VisitProps UnionModel.
Import ListNotations.
Local Open Scope list_scope.

(** the exceptions that are TypeErrors (exc.py:82, 145, 159, 166, 426, 437, 449) *)
Definition TypeErrors : list exn :=
  [TypeErr; CoerceErr; ValueCoercionErr; CollItemCoerceErr; CollCoerceErr; SubtypeCoerceErr; SubtypeNoCoerce].
Lemma type_error_in e : type_error e = true <-> In e TypeErrors.
Proof. split; [destruct e; simpl; intuition discriminate|]. simpl. intuition subst; reflexivity. Qed.
Lemma type_error_not e : type_error e = false <-> ~ In e TypeErrors.
Proof. rewrite <- type_error_in. destruct (type_error e); intuition congruence. Qed.

Section Props.
Variable W : world.
Variable apply : list elem -> option prop -> pyv -> out pyv.
Variable cue : list elem.
Variable p : prop.
Variable x : mapper.                 (* the value, and cls.map of it as any class *)
Notation mapped c := (snd x c cue).
Notation union ts := (map_type_union W apply cue p x ts).

(** ** Specification *)

(** the class [c] is tried in vain *)
Definition vain (c : nat) : Prop :=
  (exists m, mapped c = Val m /\ py_true m = false) \/
  (exists q e, mapped c = Exc q e /\ In e TypeErrors).

(** the Record classes [cs] of the tuple that are tried, in order: those the value is an instance of,
    or all of them if there is none *)
Definition Tried (ts : list utype) (cs : list nat) : Prop :=
  let rs := flat_map (fun t => match t with URec c => [c] | _ => [] end) ts in
  ((exists c, In c rs /\ instance W (fst x) c = true) /\ cs = filter (instance W (fst x)) rs) \/
  ((forall c, In c rs -> instance W (fst x) c = false) /\ cs = rs).
Definition Matches (ts : list utype) : Prop :=
  exists c, In (URec c) ts /\ instance W (fst x) c = true.

(** ** Proofs *)

Lemma record_types_in ts c : In c (record_types ts) <-> In (URec c) ts.
Proof.
  induction ts as [|[d|f] t IH]; cbn.
  - tauto.
  - rewrite IH. split; intros [H|H]; auto; left; congruence.
  - rewrite IH. split; [auto|]. intros [H|H]; auto. discriminate.
Qed.
Lemma record_types_spec ts : record_types ts = flat_map (fun t => match t with URec c => [c] | _ => [] end) ts.
Proof. induction ts as [|[d|f] t IH]; cbn; congruence. Qed.

Lemma try_vain cs c post m0 : Forall vain cs ->
  exists m1, try_types cue x (cs ++ c :: post) m0 = try_types cue x (c :: post) m1.
Proof.
  revert m0. induction cs as [|d t IH]; intros m0 H; [now exists m0|].
  inversion H as [|? ? V Vt]; subst. cbn [app try_types].
  destruct V as [(m & -> & E)|(q & e & -> & E)]; [|apply type_error_in in E]; rewrite E; apply IH; auto.
Qed.
Lemma try_all_vain cs m0 : Forall vain cs -> py_true m0 = false ->
  exists m, try_types cue x cs m0 = Val m /\ py_true m = false.
Proof.
  revert m0. induction cs as [|d t IH]; intros m0 H E0; [now exists m0|].
  inversion H as [|? ? V Vt]; subst. cbn [try_types].
  destruct V as [(m & -> & E)|(q & e & -> & E)]; [|apply type_error_in in E]; rewrite E; apply IH; auto.
Qed.
Lemma tried_cases ts cs : Tried ts cs ->
  (Matches ts /\ cs <> [] /\ union ts = try_types cue x cs PNone) \/
  (~ Matches ts /\ union ts = obind (try_types cue x cs PNone)
                    (fun m => if py_true m then Val m else apply cue (Some p) (fst x))).
Proof.
  unfold Tried. rewrite <- record_types_spec. unfold map_type_union.
  intros [((c & I & E) & ->)|(N & ->)].
  - left. assert (M : In c (filter (instance W (fst x)) (record_types ts))) by (apply filter_In; auto).
    split; [exists c; split; auto; now apply record_types_in|].
    destruct (filter (instance W (fst x)) (record_types ts)); [destruct M|]. split; [discriminate|reflexivity].
  - right. split.
    + intros (c & I & E). apply record_types_in in I. rewrite (N c I) in E. discriminate.
    + assert (F : filter (instance W (fst x)) (record_types ts) = []).
      { destruct (filter (instance W (fst x)) (record_types ts)) as [|d t] eqn:F; auto.
        assert (I : In d (d :: t)) by now left. rewrite <- F in I. apply filter_In in I.
        destruct I as [I E]. rewrite (N d I) in E. discriminate. }
      now rewrite F.
Qed.

(** ** The theorems *)

(** The first class tried that maps the value to something true gives the result. *)
Theorem C56_first ts pre c post m : Tried ts (pre ++ c :: post) -> Forall vain pre ->
  mapped c = Val m -> py_true m = true -> union ts = Val m.
Proof.
  intros T V M B. destruct (try_vain pre c post PNone V) as (m1 & E). cbn [try_types] in E.
  rewrite M, B in E. destruct (tried_cases _ _ T) as [(_ & _ & ->)|(_ & ->)]; rewrite E; auto.
  cbn. now rewrite B.
Qed.

(** An exception that is no TypeError ends the search. *)
Theorem C56_error ts pre c post q e : Tried ts (pre ++ c :: post) -> Forall vain pre ->
  mapped c = Exc q e -> ~ In e TypeErrors -> union ts = Exc q e.
Proof.
  intros T V M B. apply type_error_not in B. destruct (try_vain pre c post PNone V) as (m1 & E). cbn [try_types] in E.
  rewrite M, B in E. destruct (tried_cases _ _ T) as [(_ & _ & ->)|(_ & ->)]; rewrite E; auto.
Qed.

(** If the value is an instance of no class and all are tried in vain, it is handed to [apply]. *)
Theorem C56_applied ts cs : Tried ts cs -> ~ Matches ts -> Forall vain cs ->
  union ts = apply cue (Some p) (fst x).
Proof.
  intros T N V. destruct (tried_cases _ _ T) as [(M & _)|(_ & ->)]; [contradiction|].
  destruct (try_all_vain cs PNone V eq_refl) as (m & -> & B). cbn. now rewrite B.
Qed.

(** If it is an instance of some and all of these are tried in vain, the result is the last mapping
    made, or None if each raised a TypeError: [apply] is not called. *)
Theorem C56_last ts cs : Tried ts cs -> Matches ts -> Forall vain cs ->
  (exists pre c post m, cs = pre ++ c :: post /\ mapped c = Val m /\ union ts = Val m /\
     forall d, In d post -> exists q e, mapped d = Exc q e) \/
  ((forall d, In d cs -> exists q e, mapped d = Exc q e) /\ union ts = Val PNone).
Proof.
  intros T M V. destruct (tried_cases _ _ T) as [(_ & _ & ->)|(N & _)]; [|contradiction].
  clear T M. assert (G : forall m0,
    (exists pre c post m, cs = pre ++ c :: post /\ mapped c = Val m /\ try_types cue x cs m0 = Val m /\
       forall d, In d post -> exists q e, mapped d = Exc q e) \/
    ((forall d, In d cs -> exists q e, mapped d = Exc q e) /\ try_types cue x cs m0 = Val m0)).
  { induction V as [|d t Vd Vt IH]; intros m0; [right; split; [intros d []|reflexivity]|].
    cbn [try_types]. destruct Vd as [(m & E & B)|(q & e & E & B)].
    - rewrite E, B. left. destruct (IH m) as [(pre & c & post & m' & -> & M & R & P)|(A & R)].
      + exists (d :: pre), c, post, m'. auto.
      + exists [], d, t, m. auto.
    - apply type_error_in in B. rewrite E, B. destruct (IH m0) as [(pre & c & post & m' & -> & M & R & P)|(A & R)].
      + left. exists (d :: pre), c, post, m'. auto.
      + right. split; auto. intros d' [<-|I]; eauto. }
  exact (G PNone).
Qed.

(** There are no other cases. *)
Theorem C56_cases ts : exists cs, Tried ts cs /\
  (Forall vain cs \/
   exists pre c post, cs = pre ++ c :: post /\ Forall vain pre /\
     ((exists m, mapped c = Val m /\ py_true m = true) \/
      (exists q e, mapped c = Exc q e /\ ~ In e TypeErrors))).
Proof.
  assert (T : exists cs, Tried ts cs).
  { unfold Tried. set (rs := flat_map _ ts).
    destruct (existsb (instance W (fst x)) rs) eqn:E.
    - apply existsb_exists in E. eexists. left. split; [exact E|reflexivity].
    - exists rs. right. split; auto. intros c I. destruct (instance W (fst x) c) eqn:F; auto.
      assert (H : existsb (instance W (fst x)) rs = true) by (apply existsb_exists; eauto). congruence. }
  destruct T as (cs & T). exists cs. split; auto. clear T.
  induction cs as [|c t IH]; [left; constructor|].
  assert (D : vain c \/ ((exists m, mapped c = Val m /\ py_true m = true) \/
      (exists q e, mapped c = Exc q e /\ ~ In e TypeErrors))).
  { unfold vain. destruct (mapped c) as [m|q e].
    - destruct (py_true m) eqn:B; eauto 6.
    - destruct (type_error e) eqn:B; [apply type_error_in in B|apply type_error_not in B]; eauto 6. }
  destruct D as [V|D].
  - destruct IH as [F|(pre & d & post & -> & F & D)].
    + left. now constructor.
    + right. exists (c :: pre), d, post. auto.
  - right. exists [], c, t. auto.
Qed.

(** A value that is an instance of just one class of the tuple is mapped as that class, wherever in the
    tuple it stands; only a TypeError is lost. *)
Theorem C56_one_class ts c : In (URec c) ts -> instance W (fst x) c = true ->
  (forall d, In (URec d) ts -> instance W (fst x) d = true -> d = c) ->
  (forall m, mapped c = Val m -> union ts = Val m) /\
  (forall q e, mapped c = Exc q e ->
     (In e TypeErrors -> union ts = Val PNone) /\ (~ In e TypeErrors -> union ts = Exc q e)).
Proof.
  intros I E U.
  assert (G : union ts = match mapped c with
             | Exc q e => if type_error e then Val PNone else Exc q e
             | m => m
             end).
  2:{ split; [intros m H; now rewrite G, H|]. intros q e H. rewrite G, H. rewrite <- type_error_in.
      destruct (type_error e); split; congruence. }
  revert I E U.
  intros I E U. unfold map_type_union.
  assert (A : forall d, In d (filter (instance W (fst x)) (record_types ts)) -> d = c).
  { intros d H. apply filter_In in H. destruct H as [H1 H2]. apply U; auto. now apply record_types_in. }
  assert (M : In c (filter (instance W (fst x)) (record_types ts))).
  { apply filter_In. split; auto. now apply record_types_in. }
  destruct (filter (instance W (fst x)) (record_types ts)) as [|d t]; [destruct M|].
  clear M I E U. set (l := d :: t) in *. assert (N : l <> []) by discriminate. clearbody l.
  assert (G : forall m0, try_types cue x l m0 = match l with
       | [] => Val m0
       | _ => match mapped c with Exc q e => if type_error e then Val m0 else Exc q e | m => m end
       end).
  { clear N. induction l as [|a l IH]; intros m0; auto. cbn [try_types].
    rewrite (A a (or_introl eq_refl)).
    assert (A' : forall d, In d l -> d = c) by (intros d' H; apply A; now right).
    destruct (mapped c) as [m|q e].
    - destruct (py_true m); auto. rewrite (IH A'). destruct l; auto.
    - destruct (type_error e); auto. rewrite (IH A'). destruct l; auto. }
  rewrite (G PNone). destruct l; [now destruct N|reflexivity].
Qed.

(** The order of the tuple does not matter if all its classes but one are tried in vain (and that one
    is tried at all). *)
Theorem C56_order ts ts' c m : Permutation ts ts' -> In (URec c) ts ->
  (Matches ts -> instance W (fst x) c = true) ->
  mapped c = Val m -> py_true m = true ->
  (forall d, In (URec d) ts -> d <> c -> vain d) ->
  union ts = Val m /\ union ts' = Val m.
Proof.
  intros P I Mc M B V.
  assert (G : forall us, In (URec c) us -> (Matches us -> instance W (fst x) c = true) ->
     (forall d, In (URec d) us -> d <> c -> vain d) -> union us = Val m).
  { clear - M B. intros us I Mc V. destruct (C56_cases us) as (cs & T & C).
    assert (Ic : In c cs).
    { destruct T as [((d & Id & Ed) & ->)|(_ & ->)]; rewrite <- record_types_spec in *.
      - apply filter_In. split; [now apply record_types_in|]. apply Mc. exists d. split; auto.
        now apply record_types_in.
      - now apply record_types_in. }
    assert (Sub : forall d, In d cs -> In (URec d) us).
    { intros d Hd. destruct T as [(_ & ->)|(_ & ->)]; rewrite <- record_types_spec in *.
      - apply filter_In in Hd. now apply record_types_in.
      - now apply record_types_in. }
    assert (NV : ~ vain c).
    { intros [(m' & E & F)|(q & e & E & _)]; congruence. }
    destruct C as [F|(pre & d & post & -> & F & D)].
    - rewrite Forall_forall in F. now apply F in Ic.
    - destruct (Nat.eq_dec d c) as [->|N].
      + exact (C56_first us pre c post m T F M B).
      + assert (Vd : vain d) by (apply V; auto; apply Sub, in_or_app; right; now left).
        exfalso. destruct Vd as [(m1 & E1 & F1)|(q1 & e1 & E1 & F1)], D as [(m2 & E2 & F2)|(q2 & e2 & E2 & F2)]; congruence. }
  split; [now apply G|]. apply G.
  - now apply (Permutation_in _ P).
  - intros (d & Id & Ed). apply Mc. exists d. split; auto. now apply (Permutation_in _ (Permutation_sym P)).
  - intros d Id. apply V. now apply (Permutation_in _ (Permutation_sym P)).
Qed.
End Props.

(** Casting what was visited gives the value back if its class is the first Record class of the
    tuple. *)
Theorem C56_round_trip W o parse by_key n c v q p ts pre post : v_filter o = None ->
  holds W o c v -> w_sub W c c = true -> py_true v = true ->
  ts = pre ++ URec c :: post -> (forall d, ~ In (URec d) pre) ->
  exists j, visit W o default_apply v c q = Val j /\
    (py_true j = true ->
     map_type_union W default_apply q p (v, visit W o default_apply v) ts = Val j /\
     map_type_union W default_apply q p
       (j, cast W o default_apply (call W parse by_key n) by_key j) ts = Val v).
Proof.
  intros NF H S B -> NP.
  destruct (C41_anywhere W o parse by_key n c v q NF H) as (j & Vj & Cj & Dj). exists j. split; auto.
  intros Bj.
  assert (R : record_types (pre ++ URec c :: post) = c :: record_types post).
  { clear - NP. induction pre as [|[d|f] t IH]; cbn; auto.
    - exfalso. apply (NP d). now left.
    - apply IH. intros d I. apply (NP d). now right. }
  assert (O : exists sl, v = PObj c sl).
  { destruct (C41_round_trip W o parse by_key n c v NF H) as (j' & V' & _).
    inversion H; eauto. }
  destruct O as (sl & O).
  split; unfold map_type_union; rewrite R; cbn [filter fst].
  - rewrite O at 1. cbn [instance]. rewrite S. cbn [try_types snd]. now rewrite Vj, Bj.
  - assert (I : forall d, instance W j d = false) by (intros d; destruct Dj as [(l & ->)|(l & ->)]; reflexivity).
    rewrite I. assert (F : filter (instance W j) (record_types post) = []).
    { clear R. induction (record_types post) as [|d t IH]; cbn [filter]; auto. now rewrite I. }
    rewrite F. cbn [try_types snd]. rewrite Cj, B. cbn. now rewrite B.
Qed.

(** ** Examples and refutations, with the classes of [VisitProps]: 0 Person, 1 list of Person, 4 a
    subclass of Person with [boss], 6 a record with a Person *)
Definition u_prop : prop := vprop "u" TAny false.
Definition u_visit (ap : list elem -> option prop -> pyv -> out pyv) (v : pyv) (ts : list utype) : out pyv :=
  map_type_union ex_world ap [] u_prop (v, visit ex_world default_opts ap v) ts.
Definition u_cast (j : pyv) (ts : list utype) : out pyv :=
  map_type_union ex_world default_apply [] u_prop
    (j, cast ex_world default_opts default_apply ex_rec (fun l => l) j) ts.
Definition u_str : utype := UOther (fun v => match v with PStr _ => true | _ => false end).

Example C56_case :
  u_visit default_apply ex_bo [u_str; URec 6; URec 0] = Val (PDict [(s2l "name", PStr (s2l "Bo")); (s2l "age", PInt 7)]) /\
  u_visit default_apply (PStr (s2l "Bo")) [URec 0; URec 6; u_str] = Val (PStr (s2l "Bo")) /\
  u_visit default_apply ex_boss [URec 4; URec 0] = Val (PDict [(s2l "name", PStr (s2l "Al")); (s2l "boss", PInt 1)]) /\
  u_cast (PDict [(s2l "name", PStr (s2l "Bo")); (s2l "age", PInt 7)]) [u_str; URec 0; URec 6] = Val ex_bo /\
  w_sub ex_world 0 0 = true /\ py_true ex_bo = true /\ holds ex_world default_opts 0 ex_bo.
Proof. repeat split; try (vm_compute; reflexivity). apply C41_injective_case. Qed.
(** an instance of no class, all tried in vain: see the text above *)
Example C56_case_vain : Forall (vain [] (PStr (s2l "Bo"), visit ex_world default_opts default_apply (PStr (s2l "Bo")))) [0; 6] /\
  Tried ex_world (PStr (s2l "Bo"), visit ex_world default_opts default_apply (PStr (s2l "Bo"))) [URec 0; URec 6; u_str] [0; 6].
Proof.
  split.
  - repeat constructor; exists (PDict []); vm_compute; auto.
  - right. split; [intros c I; reflexivity|reflexivity].
Qed.

(** An instance of a subclass is visited as the base class standing before it: its own properties are
    lost, although the class is in the tuple. *)
Theorem C56_subclass_refuted : exists v j,
  instance ex_world v 4 = true /\ visit ex_world default_opts default_apply v 4 [] = Val j /\
  u_visit default_apply v [URec 4; URec 0] = Val j /\
  exists j', u_visit default_apply v [URec 0; URec 4] = Val j' /\ j' <> j.
Proof.
  exists ex_boss. eexists. split; [reflexivity|]. split; [vm_compute; reflexivity|].
  split; [vm_compute; reflexivity|]. eexists. split; [vm_compute; reflexivity|]. discriminate.
Qed.

(** A value of a later class comes back from data as an instance of the first class, without any of
    its values. *)
Theorem C56_cast_refuted : exists v j,
  instance ex_world v 6 = true /\ u_visit default_apply v [URec 0; URec 6] = Val j /\
  u_cast j [URec 0; URec 6] = Val (PObj 0 []) /\ u_cast j [URec 6; URec 0] = Val v.
Proof.
  exists (PObj 6 [(s2l "who", ex_bo)]). eexists. split; [reflexivity|].
  split; [vm_compute; reflexivity|]. split; vm_compute; reflexivity.
Qed.

(** Text, in a tuple with [str] and a Record class, is visited as itself and cannot be cast back:
    VisitorGrokRecordError is no TypeError. *)
Theorem C56_cast_text_refuted : exists v,
  u_visit default_apply v [u_str; URec 0] = Val v /\ exists e, u_cast v [u_str; URec 0] = Exc [] e /\ ~ In e TypeErrors.
Proof.
  exists (PStr (s2l "Bo")). split; [vm_compute; reflexivity|]. eexists. split; [vm_compute; reflexivity|apply type_error_not; reflexivity].
Qed.

(** Text, in a tuple with [str] and a collection class, cannot even be visited: the AttributeError
    made instead of VisitorUnpackError (C48) is no TypeError. *)
Theorem C56_visit_text_refuted : exists v e,
  u_visit default_apply v [u_str; URec 1] = Exc [] e /\ ~ In e TypeErrors.
Proof.
  exists (PStr (s2l "Bo")). eexists. split; [vm_compute; reflexivity|apply type_error_not; reflexivity].
Qed.

(** A TypeError raised by [apply] within a record is lost, and the property with it, if the property
    has several types; with one type it is raised. *)
Theorem C56_lost_error_refuted : exists ap v e,
  u_visit ap v [URec 0] = Val PNone /\ ignored default_opts PNone = true /\
  map_prop ap [] (vprop "u" (TCls 0 None) false) (v, visit ex_world default_opts ap v) = Exc [] e.
Proof.
  exists (fun _ _ _ => Exc [] TypeErr), ex_bo, TypeErr. repeat split; vm_compute; reflexivity.
Qed.

Print Assumptions C56_first.
Print Assumptions C56_error.
Print Assumptions C56_applied.
Print Assumptions C56_last.
Print Assumptions C56_cases.
Print Assumptions C56_one_class.
Print Assumptions C56_order.
Print Assumptions C56_round_trip.
Print Assumptions C56_subclass_refuted.
Print Assumptions C56_cast_refuted.
Print Assumptions C56_cast_text_refuted.
Print Assumptions C56_visit_text_refuted.
Print Assumptions C56_lost_error_refuted.
