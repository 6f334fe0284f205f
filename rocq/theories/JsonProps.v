(** C37 - C39: marshalling to and from JSON. *)
From Coq Require Import String List NArith ZArith Arith Bool Lia.
From Verif Require Import Prelude GenModel PickleModel AutoModel JsonModel JsonSpec JsonPathSpec
  JsonProofs JsonPath JsonKeys.
Import ListNotations.
Local Open Scope string_scope.
Local Open Scope list_scope.

(** ** C37 *)

(** Marshalling out, unknown keys included, and loading the result gives the record itself, for every
    record that [fits] (JsonSpec). *)
Theorem C37_round_trip : forall W parse show by_key c v, fits W show c v ->
  exists j N, json_data W show true v = Ok j /\
    forall n, N <= n ->
      call W parse by_key n c j = Val v /\
      from_json W parse by_key (call W parse by_key n) c j = Val v.
Proof.
  intros W parse show by_key c v F.
  destruct (round_trip W parse show by_key c v F) as (_ & JC & j & N & M & D & B).
  exists j, N. split; [exact M|]. intros n L. split; [now apply B|].
  unfold from_json. assert (J : is_json W c = true) by (apply is_json_iff; exact JC). destruct D as [[l ->]|[l ->]]; cbn [decode obind]; rewrite J; now apply B.
Qed.

(** The same from the text of the document. *)
Theorem C37_text : forall W parse show by_key c v j text, fits W show c v ->
  json_data W show true v = Ok j -> parse text = Ok j ->
  exists N, forall n, N <= n -> call W parse by_key n c (PStr text) = Val v.
Proof.
  intros W parse show by_key c v j text F M P.
  destruct (round_trip W parse show by_key c v F) as (_ & JC & j' & N & M' & D & B).
  unfold json_data in M. rewrite M in M'. injection M' as <-.
  exists (S N). intros n L. destruct n as [|n]; [lia|]. specialize (B (S n) ltac:(lia)).
  cbn [call] in *. unfold call_class in *. unfold json_class in JC.
  destruct (w_kind W c); try tauto; cbn [decode]; rewrite P; cbn [obind];
    destruct D as [[l ->]|[l ->]]; exact B.
Qed.

Lemma mapm_ext_in {A B} (f g : A -> res B) l : (forall x, In x l -> f x = g x) -> mapm f l = mapm g l.
Proof.
  induction l as [|x t IH]; simpl; intros H; auto. rewrite (H x (or_introl eq_refl)), IH; auto.
Qed.

Lemma marshal_lean W show v : lean W v ->
  (forall full, marshal W show full false v = marshal W show full true v) /\
  match v with
  | PList l => forall x, In x l -> forall full, marshal W show full false x = marshal W show full true x
  | PDict l => forall k x, In (k, x) l -> forall full, marshal W show full false x = marshal W show full true x
  | _ => True
  end.
Proof.
  assert (PD : forall l, (forall k x, In (k, x) l -> marshal W show true false x = marshal W show true true x) ->
     mapm (fun kv : str * pyv => do x <- marshal W show true false (snd kv); Ok (fst kv, x)) l =
     mapm (fun kv : str * pyv => do x <- marshal W show true true (snd kv); Ok (fst kv, x)) l).
  { intros l H. apply mapm_ext_in. intros [k x] I. cbn [fst snd]. rewrite (H k x I). reflexivity. }
  induction 1 as [v H|l H IH|l H IH|l H IH|c sl K H IH HP HE|c sl K1 K2 H IH].
  - split; [|destruct v; tauto]. intros full. destruct v; try tauto; reflexivity.
  - split; [|intros x I; apply (IH x I)]. intros full. cbn [marshal].
    rewrite (mapm_ext_in _ (marshal W show true true)); auto. intros x I. apply (IH x I).
  - split; [|exact I]. intros full. cbn [marshal].
    rewrite (mapm_ext_in _ (marshal W show true true)); auto. intros x I. apply (IH x I).
  - split; [|intros k x I; apply (IH k x I)]. intros full. cbn [marshal]. rewrite PD; auto.
    intros k x I. apply (IH k x I).
  - split; [|exact I]. intros full. cbn [marshal].
    assert (S : map (fun kv => (fst kv, (snd kv, marshal W show true false (snd kv)))) sl =
                map (fun kv => (fst kv, (snd kv, marshal W show true true (snd kv)))) sl).
    { apply map_ext_in. intros [k x] I. cbn [fst snd]. now rewrite (proj1 (IH k x I)). }
    assert (U : map (fun kv => (fst kv, match snd kv with
                    | PDict l => Some (map (fun e => (fst e, marshal W show false false (snd e))) l)
                    | _ => None end)) sl =
                map (fun kv => (fst kv, match snd kv with
                    | PDict l => Some (map (fun e => (fst e, marshal W show false true (snd e))) l)
                    | _ => None end)) sl).
    { apply map_ext_in. intros [k x] I. cbn [fst snd]. f_equal. pose proof (proj2 (IH k x I)) as E.
      destruct x; auto. f_equal. apply map_ext_in. intros [k' y] J. cbn [fst snd]. now rewrite (E k' y J). }
    assert (EM : forall ps acc, (forall p, In p ps -> In p (w_props W c)) ->
       emit false ps (map (fun kv => (fst kv, (snd kv, marshal W show true true (snd kv)))) sl) acc =
       emit true ps (map (fun kv => (fst kv, (snd kv, marshal W show true true (snd kv)))) sl) acc).
    { induction ps as [|p ps IHp]; intros acc Ip; auto. cbn [emit negb andb].
      assert (Ip' : forall q, In q ps -> In q (w_props W c)) by (intros; apply Ip; simpl; auto).
      destruct (q_extraneous p) eqn:X.
      - destruct (find_name (q_name p) (map (fun kv => (fst kv, (snd kv, marshal W show true true (snd kv)))) sl)) as [[v jd]|] eqn:F;
          [|now apply IHp].
        apply find_name_in, in_map_iff in F as ([k x] & E & I). cbn [fst snd] in E. injection E as Ek _ _.
        rewrite (HE k x p I (Ip p (or_introl eq_refl)) (eq_sym Ek)) in X. discriminate.
      - destruct (find_name _ _) as [[v jd]|]; [|now apply IHp].
        destruct (key_in_doc p); [|now apply IHp].
        match goal with |- match ?r with _ => _ end = _ => destruct r as [j|e] end; [now apply IHp|].
        destruct (is_attr_err e); [now apply IHp|reflexivity]. }
    assert (NX : find_name unknown_name sl <> None ->
                 match find_prop unknown_name (w_props W c) with Some p => negb (q_extraneous p) | None => false end = true).
    { intros F. destruct (find_name unknown_name sl) as [x|] eqn:Fx; [|congruence]. apply find_name_in in Fx.
      destruct (find_prop unknown_name (w_props W c)) as [p|] eqn:FP.
      - apply find_name_in, in_map_iff in FP as (p' & E & Ip). injection E as En ->.
        now rewrite (HE _ _ p Fx Ip En).
      - destruct (HP _ _ Fx) as (p & Ip & En). apply find_name_none in FP. exfalso. apply FP.
        rewrite map_map. cbn [fst]. rewrite <- En. now apply in_map. }
    rewrite U, unknown_slot. rewrite S, EM by auto.
    destruct K as [K|K]; rewrite K; destruct (emit true _ _ []) as [jd|]; cbn [bind]; auto.
    destruct full; auto. destruct (find_name unknown_name sl) as [x|] eqn:F; cbn [option_map]; auto.
    rewrite NX by congruence. reflexivity.
  - split; [|exact I]. intros full. cbn [marshal].
    assert (V : map (fun kv => (fst kv, match snd kv with
                     | PList l => do l' <- mapm (marshal W show true false) l; Ok (PList l')
                     | PDict l => do l' <- mapm (fun e => do x <- marshal W show true false (snd e); Ok (fst e, x)) l; Ok (PDict l')
                     | _ => Err AttrErr end)) sl =
                map (fun kv => (fst kv, match snd kv with
                     | PList l => do l' <- mapm (marshal W show true true) l; Ok (PList l')
                     | PDict l => do l' <- mapm (fun e => do x <- marshal W show true true (snd e); Ok (fst e, x)) l; Ok (PDict l')
                     | _ => Err AttrErr end)) sl).
    { apply map_ext_in. intros [k x] I. cbn [fst snd]. f_equal. pose proof (proj2 (IH k x I)) as E.
      destruct x; auto.
      - rewrite (mapm_ext_in _ (marshal W show true true)); auto.
      - rewrite PD; auto. intros k' y J. exact (E k' y J true). }
    rewrite V. destruct (w_kind W c); try congruence; reflexivity.
Qed.

(** When no entry belongs to an extraneous property, this holds of the default output as well. *)
Theorem C37_default_output : forall W parse show by_key c v, fits W show c v -> lean W v ->
  exists j N, json_data W show false v = Ok j /\ forall n, N <= n -> call W parse by_key n c j = Val v.
Proof.
  intros W parse show by_key c v F L. destruct (C37_round_trip W parse show by_key c v F) as (j & N & M & B).
  exists j, N. split; [|intros n Ln; apply (B n Ln)].
  unfold json_data in *. rewrite <- M. apply (proj1 (marshal_lean W show v L) true).
Qed.

(** Properties excluded from JSON are not restored from any document: they are unset, or have their
    default. *)
Theorem C37_excluded : forall W parse by_key n c doc v p, tidy_class W c -> NoDup (map fst doc) ->
  call W parse by_key (S n) c (PDict doc) = Val v ->
  In p (w_props W c) -> q_name p <> s2l "unknown_json_keys" -> json_key p = None ->
  exists sl, v = PObj c sl /\
    (~ has_init p -> slot sl (q_name p) = None) /\
    (has_init p -> init_prop W (call W parse by_key n) p None = Val (slot sl (q_name p))).
Proof.
  intros W parse by_key n c doc v p T Nd E Ip Np Kp.
  destruct (load_doc W parse by_key n c doc v T Nd E) as (sl & ys & u & -> & R & _ & _ & _ & S).
  exists sl. split; auto. specialize (S p Ip Np).
  assert (F : find_name (q_name p) ys = None).
  { apply find_name_none. intros I. destruct (reads_names W _ _ _ _ _ R I) as (q & k & Iq & Nq & Kq).
    assert (q = p).
    { pose proof (find_prop_in _ q (tc_names W c T) Iq) as F1. pose proof (find_prop_in _ p (tc_names W c T) Ip) as F2. congruence. }
    congruence. }
  rewrite F in S. unfold slot. tauto.
Qed.

(** ** C38 *)

(** Loading: the unknown keys are exactly the keys of the document that no property reads, with their
    values. *)
Theorem C38_loaded : forall W parse by_key n c doc v, tidy_class W c -> NoDup (map fst doc) ->
  call W parse by_key n c (PDict doc) = Val v ->
  exists sl u, v = PObj c sl /\
    slot sl (s2l "unknown_json_keys") = match u with [] => None | _ => Some (PDict u) end /\
    NoDup (map fst u) /\
    forall k x, In (k, x) u <->
      In (k, x) doc /\ ~ exists p, In p (w_props W c) /\ json_key p = Some k.
Proof.
  intros W parse by_key n c doc v T Nd E. destruct n as [|n]; [discriminate|].
  destruct (load_doc W parse by_key n c doc v T Nd E) as (sl & ys & u & -> & R & U & Nu & S & _).
  exists sl, u. auto.
Qed.

(** Marshalling out: a key has the value of the property it belongs to if that property is set and
    converts; otherwise that of the unknown key. *)
Definition emits (W : world) (show : Z -> str) (sl : list (str * pyv)) (c : nat) (k : str) (j : pyv) : Prop :=
  exists p x, In p (w_props W c) /\ json_key p = Some k /\ slot sl (q_name p) = Some x /\
    match conv_out p with Some f => f x | None => json_data W show true x end = Ok j.

Theorem C38_marshalled : forall W show c sl jd, w_kind W c = KJson -> distinct_props W c ->
  json_data W show true (PObj c sl) = Ok jd ->
  exists l, jd = PDict l /\ forall k j, find_name k l = Some j <->
    emits W show sl c k j \/
    ((forall j', ~ emits W show sl c k j') /\
     exists u x, slot sl (s2l "unknown_json_keys") = Some (PDict u) /\ find_name k u = Some x /\
       to_json W show true x = Ok j).
Proof.
  intros W show c sl jd K [N U] E. unfold json_data in E. cbn [marshal] in E. rewrite K in E.
  change (map (fun kv => (fst kv, (snd kv, marshal W show true true (snd kv)))) sl)
    with (slots_of W show sl true) in E.
  destruct (emit true (w_props W c) (slots_of W show sl true) []) as [l|e] eqn:EM; cbn [bind] in E; [|discriminate].
  rewrite unknown_slot in E. cbn [orb] in E.
  assert (PE : forall k j, (exists p, In p (w_props W c) /\ json_key p = Some k /\ produces W show true sl p j)
                 <-> emits W show sl c k j).
  { intros k j. split.
    - intros (p & Ip & Kp & _ & x & Fx & O). exists p, x. auto.
    - intros (p & x & Ip & Kp & Fx & O). exists p. split; auto. split; auto. split; auto. exists x. auto. }
  assert (L : forall k, (exists j, emits W show sl c k j /\ find_name k l = Some j) \/
                        ((forall j, ~ emits W show sl c k j) /\ find_name k l = None)).
  { intros k. destruct (emit_find W show true sl _ _ _ N U EM k) as [(p & j & A1 & A2 & A3 & A4)|[A1 A2]].
    - left. exists j. split; auto. apply PE. eauto.
    - right. split; auto. intros j Q. apply PE in Q as (p & B1 & B2 & B3). exact (A1 p j B1 B2 B3). }
  assert (Fun : forall k j j', emits W show sl c k j -> emits W show sl c k j' -> j = j').
  { intros k j j' (p & x & A1 & A2 & A3 & A4) (p' & x' & B1 & B2 & B3 & B4).
    assert (p = p') by (eapply U; eauto). subst p'. rewrite A3 in B3. injection B3 as <-. rewrite A4 in B4. now injection B4. }
  unfold slot. change (s2l "unknown_json_keys") with unknown_name.
  destruct (find_name unknown_name sl) as [w|] eqn:F; cbn [option_map] in E.
  - destruct w as [| | | | | |u| | |]; try discriminate.
    destruct (add_unknown (map (fun e => (fst e, marshal W show false true (snd e))) u) l) as [l'|] eqn:A;
      cbn [bind] in E; [|discriminate].
    injection E as <-. exists l'. split; auto. intros k j.
    pose proof (add_unknown_find _ _ _ k A) as AF.
    rewrite (find_name_mapped (fun _ y => marshal W show false true y)) in AF.
    destruct (L k) as [(j0 & Q & FL)|[Q FL]]; rewrite FL in AF.
    + rewrite AF. split.
      * intros H; injection H as <-. auto.
      * intros [H|[H _]]; [|destruct (H j0 Q)]. f_equal. eapply Fun; eauto.
    + destruct (find_name k u) as [x|] eqn:FU; cbn [option_map] in AF.
      * destruct AF as (j0 & M & AF). rewrite AF. split.
        -- intros H; injection H as <-. right. split; auto. exists u, x. auto.
        -- intros [H|(_ & u' & x' & E1 & E2 & E3)]; [destruct (Q j H)|].
           injection E1 as <-. rewrite FU in E2. injection E2 as <-.
           change (marshal W show false true x = Ok j0) in M. unfold to_json in E3. rewrite E3 in M.
           now injection M as <-.
      * rewrite AF. split; [discriminate|].
        intros [H|(_ & u' & x' & E1 & E2 & E3)]; [destruct (Q j H)|].
        injection E1 as <-. congruence.
  - injection E as <-. exists l. split; auto. intros k j.
    destruct (L k) as [(j0 & Q & FL)|[Q FL]]; rewrite FL.
    + split.
      * intros H; injection H as <-. auto.
      * intros [H|[H _]]; [|destruct (H j0 Q)]. f_equal. eapply Fun; eauto.
    + split; [discriminate|]. intros [H|(_ & u' & x' & E1 & _)]; [destruct (Q j H)|discriminate].
Qed.

(** From document to record to document, every unknown key is kept. *)
Theorem C38_document : forall W parse show by_key n c doc v jd k x,
  tidy_class W c -> NoDup (map fst doc) -> call W parse by_key n c (PDict doc) = Val v ->
  json_data W show true v = Ok jd ->
  In (k, x) doc -> (forall p, In p (w_props W c) -> json_key p <> Some k) ->
  exists l j, jd = PDict l /\ find_name k l = Some j /\ to_json W show true x = Ok j /\ (jdata x -> j = x).
Proof.
  intros W parse show by_key n c doc v jd k x T Nd E M I NK.
  destruct (C38_loaded W parse by_key n c doc v T Nd E) as (sl & u & -> & S & Nu & U).
  destruct (C38_marshalled W show c sl jd (tc_kind W c T) (conj (tc_names W c T) (tc_keys W c T)) M)
    as (l & -> & L).
  assert (Iu : In (k, x) u).
  { apply U. split; auto. intros (p & Ip & Kp). exact (NK p Ip Kp). }
  assert (Fu : find_name k u = Some x) by now apply in_find_name.
  assert (NE : forall j', ~ emits W show sl c k j').
  { intros j' (p & y & Ip & Kp & _). exact (NK p Ip Kp). }
  assert (Su : slot sl (s2l "unknown_json_keys") = Some (PDict u)).
  { destruct u; [destruct Iu|exact S]. }
  (* marshalling succeeded, hence that of [x] did *)
  assert (MX : exists j, to_json W show true x = Ok j).
  { unfold json_data in M. cbn [marshal] in M. rewrite (tc_kind W c T) in M.
    change (map (fun kv => (fst kv, (snd kv, marshal W show true true (snd kv)))) sl)
      with (slots_of W show sl true) in M.
    destruct (emit true (w_props W c) (slots_of W show sl true) []) as [l0|e0] eqn:EM; cbn [bind] in M; [|discriminate].
    rewrite unknown_slot in M. unfold slot in Su. change (s2l "unknown_json_keys") with unknown_name in Su.
    rewrite Su in M. cbn [option_map orb] in M.
    destruct (add_unknown _ l0) as [l1|] eqn:A; cbn [bind] in M; [|discriminate].
    pose proof (add_unknown_find _ _ _ k A) as AF.
    rewrite (find_name_mapped (fun _ y => marshal W show false true y)), Fu in AF. cbn [option_map] in AF.
    assert (F0 : find_name k l0 = None).
    { destruct (emit_find W show true sl _ _ _ (tc_names W c T) (tc_keys W c T) EM k)
        as [(p & j & A1 & A2 & _)|[_ A2]]; [destruct (NK p A1 A2)|exact A2]. }
    rewrite F0 in AF. destruct AF as (j & J & _). eauto. }
  destruct MX as [j MX]. exists l, j. split; auto. split.
  { apply L. right. split; auto. exists u, x. auto. }
  split; auto. intros JX. unfold to_json in MX. rewrite (marshal_data W show x JX) in MX. congruence.
Qed.

(** ** C39 *)

(** The reported path is the path to the position where the error arose, and the reported error is
    the one raised there - by the json_in function of a property, or by a class for the value it is
    called with; and it is the first such position. *)
Theorem C39_exact : forall W parse by_key, (forall c, distinct_props W c) -> forall n c v path e,
  call W parse by_key n c v = Exc path e <->
  exists p1 p2 n' t', path = p1 ++ p2 /\ reach W parse by_key n (Load c v) p1 n' t' /\
    raised W parse by_key n' t' p2 e.
Proof.
  intros W parse by_key D n c v path e. split.
  - intros E. exact (path_sound W parse by_key D n c v path e E).
  - intros (p1 & p2 & n' & t' & -> & R & A). exact (path_complete W parse by_key D n _ p1 n' t' R p2 e A).
Qed.

Lemma reach_read W parse by_key n t path n' q x : reach W parse by_key n t path n' (Read q x) ->
  t = Read q x \/ exists c, In q (w_props W c).
Proof.
  intros R. remember (Read q x) as t' eqn:T. revert T.
  assert (F : forall n c doc p k y, first_at W parse by_key n (w_props W c) doc p k y -> In p (w_props W c)).
  { intros m c doc p k y (ps1 & ps2 & -> & _). rewrite in_app_iff; simpl; auto. }
  induction R as [n t|n c v doc p k y path n' t' K S Fi R IH|n c v doc p k y path n' t' K S Fi R IH
    |n c v l l1 y l2 s path n' t' K S EL Fi T R IH|n c v l1 k y l2 s path n' t' K S Fi T R IH
    |n p y z c co path n' t' C T J R IH]; intros E; auto.
  - right. destruct (IH E) as [Q|Q]; auto. rewrite E in Q. injection Q as -> ->. eauto.
  - right. destruct (IH E) as [Q|Q]; auto. rewrite E in Q. injection Q as -> ->. eauto.
  - right. destruct (IH E) as [Q|Q]; auto. rewrite E in Q. destruct T; discriminate.
  - right. destruct (IH E) as [Q|Q]; auto. rewrite E in Q. destruct T; discriminate.
  - right. destruct (IH E) as [Q|Q]; auto. rewrite E in Q. discriminate.
Qed.

(** Without json_in functions: following the path in the document leads to the value for which a class
    raised the error itself. *)
Theorem C39_position : forall W parse by_key, (forall c, distinct_props W c) ->
  (forall c p, In p (w_props W c) -> conv_in p = None) -> forall n c v path e,
  call W parse by_key n c v = Exc path e ->
  exists n' c' w, leads parse v path w /\
    (call W parse by_key n' c' w = Exc [] e \/
     from_json W parse by_key (call W parse by_key n') c' w = Exc [] e).
Proof.
  intros W parse by_key D NC n c v path e E.
  destruct (path_sound W parse by_key D n c v path e E) as (p1 & p2 & n' & t' & -> & R & A).
  pose proof (reach_leads W parse by_key n (Load c v) p1 n' t' NC I R) as L. cbn [task_value] in L.
  destruct A as [n' p x f p2 e CI F|n' c' w e X|n' c' w e X].
  - destruct (reach_read _ _ _ _ _ _ _ _ _ R) as [Q|[c' Q]]; [discriminate|].
    rewrite (NC c' p Q) in CI. discriminate.
  - exists n', c', w. rewrite app_nil_r. auto.
  - exists n', c', w. rewrite app_nil_r. auto.
Qed.

(** ** Example types *)

Definition mkprop (n : string) (t : vtype) : prop :=
  {| q_name := s2l n; q_json := true; q_jname := Some (s2l n); q_in := None; q_out := None; q_type := t;
     q_check := fun _ => true; q_required := false; q_default := None; q_extraneous := false |}.
(** JsonRecord.unknown_json_keys, json.py:280 *)
Definition unknown_prop : prop :=
  {| q_name := s2l "unknown_json_keys"; q_json := true; q_jname := None; q_in := None; q_out := None;
     q_type := TAny; q_check := fun _ => true; q_required := false; q_default := None; q_extraneous := true |}.
Definition t_str : vtype := TPrim (fun v => match v with PStr _ => true | _ => false end) (fun _ => Exc [] TypeErr).
Definition big : Z := 2 ^ 60.
Definition big_text : str := s2l "1152921504606846976".
Definition t_int : vtype :=
  TPrim (fun v => match v with PInt _ => true | _ => false end)
        (fun v => match v with PStr s => if str_eqb s big_text then Val (PInt big) else Exc [] ValueErr
                             | _ => Exc [] ValueErr end).
Definition t_tuple : vtype :=
  TPrim (fun v => match v with PTuple _ => true | _ => false end)
        (fun v => match v with PList l => Val (PTuple l) | _ => Exc [] TypeErr end).
Definition t_date : vtype := TPrim (fun v => match v with POpaque _ => true | _ => false end) (fun _ => Exc [] TypeErr).
(** a date with json_name, json_in and json_out *)
Definition date_prop : prop :=
  {| q_name := s2l "born"; q_json := true; q_jname := Some (s2l "dateOfBirth");
     q_in := Some (fun v => match v with PStr _ => Val (POpaque 7) | _ => Exc [] ValueErr end);
     q_out := Some (fun v => match v with POpaque _ => Ok (PStr (s2l "1970-01-07")) | _ => Err AttrErr end);
     q_type := t_date; q_check := fun _ => true; q_required := true; q_default := None; q_extraneous := false |}.
Definition secret_prop : prop :=
  {| q_name := s2l "secret"; q_json := true; q_jname := None; q_in := None; q_out := None; q_type := t_str;
     q_check := fun _ => true; q_required := false; q_default := None; q_extraneous := false |}.

(** class 0: a record with a list of records of class 0 (class 1); class 2 a record with a child of
    class 0; class 3 a plain record with a JSON name; class 4 a record with a property of class 3. *)
Definition renamed_prop : prop :=
  {| q_name := s2l "first_name"; q_json := true; q_jname := Some (s2l "firstName"); q_in := None; q_out := None;
     q_type := t_str; q_check := fun _ => true; q_required := false; q_default := None; q_extraneous := false |}.
Definition ex_world : world :=
  {| w_kind := fun c => match c with 0 | 2 | 4 => KJson | 1 => KJsonList | _ => KRecord end;
     w_props := fun c => match c with
       | 0 => [mkprop "name" t_str; mkprop "age" t_int; mkprop "tags" t_tuple; date_prop;
               mkprop "friends" (TCls 1 None); secret_prop; unknown_prop]
       | 2 => [mkprop "child" (TCls 0 None); mkprop "any" TAny; unknown_prop]
       | 3 => [renamed_prop]
       | 4 => [mkprop "inner" (TCls 3 None); unknown_prop]
       | _ => []
       end;
     w_item := fun _ => TCls 0 None;
     w_sub := Nat.eqb |}.
Definition no_parse : str -> res pyv := fun _ => Err ValueErr.
Definition ex_show : Z -> str := fun _ => big_text.
Definition same (l : list (str * pyv)) := l.
Definition ex_call := call ex_world no_parse same.

Ltac keys_distinct :=
  intros p p' k Ip Ip' Kp Kp'; simpl in Ip, Ip';
  repeat match goal with H : _ \/ _ |- _ => destruct H | H : False |- _ => destruct H end;
  subst; try reflexivity; exfalso; vm_compute in Kp, Kp'; congruence.

Lemma ex_distinct : forall c, distinct_props ex_world c.
Proof.
  intros c. destruct c as [|[|[|[|[|c]]]]]; (split; [|keys_distinct]);
    simpl; repeat (apply NoDup_cons; [simpl; intuition discriminate|]); apply NoDup_nil.
Qed.
Lemma ex_tidy : forall c, c = 0 \/ c = 2 \/ c = 4 -> tidy_class ex_world c.
Proof.
  intros c H. destruct (ex_distinct c) as [N U]. constructor; auto.
  - destruct H as [->|[->| ->]]; reflexivity.
  - exists unknown_prop. split; [destruct H as [->|[->| ->]]; simpl; auto 10|].
    repeat split; auto. intros [H1|H1]; [discriminate|apply H1; reflexivity].
Qed.

(** ** Examples *)

Definition ex_leaf : pyv :=
  PObj 0 [(s2l "name", PStr (s2l "Bo")); (s2l "born", POpaque 7);
          (s2l "unknown_json_keys", PDict [(s2l "x", PList [PInt 1; PNone])])].
Definition ex_rec : pyv :=
  PObj 0 [(s2l "name", PStr (s2l "Al")); (s2l "age", PInt big); (s2l "tags", PTuple [PStr (s2l "t")]);
          (s2l "born", POpaque 7);
          (s2l "friends", PObj 1 [(s2l "_values", PList [ex_leaf])])].

Ltac in_cases := repeat match goal with
  | H : In _ (_ :: _) |- _ => destruct H
  | H : In _ [] |- _ => destruct H
  | H : _ \/ _ |- _ => destruct H
  | H : False |- _ => destruct H
  end; subst.

Lemma ex_leaf_fits : fits ex_world ex_show 0 ex_leaf.
Proof.
  apply fits_record; [apply ex_tidy; auto|vm_compute; reflexivity| | |].
  - intros p x I NE S. simpl in I. in_cases; vm_compute in S; try discriminate; injection S as <-.
    + apply (fp_data _ _ _ _ (PStr (s2l "Bo")) (PStr (s2l "Bo"))); try reflexivity; try discriminate.
      * intros [H _]; discriminate.
      * apply form_data, jd_str.
      * left; split; reflexivity.
    + apply (fp_data _ _ _ _ (PStr (s2l "1970-01-07")) (POpaque 7)); try reflexivity; try discriminate.
      * intros (_ & H & _); discriminate.
      * left; split; reflexivity.
    + destruct NE. reflexivity.
  - intros p I H. simpl in I. in_cases; try (destruct H as [H|H]; [discriminate H|now destruct H]).
    vm_compute. discriminate.
  - intros x S. vm_compute in S. injection S as <-. eexists. split; [reflexivity|].
    split; [discriminate|]. split; [repeat constructor; intros []|].
    intros k y I. in_cases. injection H as <- <-. split.
    + apply jd_list. intros z Iz. in_cases; [apply jd_int; vm_compute; discriminate|apply jd_none].
    + intros p I. simpl in I. in_cases; vm_compute; discriminate.
Qed.

Example C37_case : fits ex_world ex_show 0 ex_rec /\
  json_data ex_world ex_show true ex_rec = Ok (PDict
    [(s2l "name", PStr (s2l "Al")); (s2l "age", PStr big_text); (s2l "tags", PList [PStr (s2l "t")]);
     (s2l "dateOfBirth", PStr (s2l "1970-01-07"));
     (s2l "friends", PList [PDict [(s2l "name", PStr (s2l "Bo")); (s2l "dateOfBirth", PStr (s2l "1970-01-07"));
                                   (s2l "x", PList [PInt 1; PNone])]])]).
Proof.
  split; [|vm_compute; reflexivity].
  apply fits_record; [apply ex_tidy; auto|vm_compute; reflexivity| | |].
  - intros p x I NE S. simpl in I. in_cases; vm_compute in S; try discriminate; injection S as <-.
    + apply (fp_data _ _ _ _ (PStr (s2l "Al")) (PStr (s2l "Al"))); try reflexivity; try discriminate.
      * intros [H _]; discriminate.
      * apply form_data, jd_str.
      * left; split; reflexivity.
    + apply (fp_data _ _ _ _ (PStr big_text) (PStr big_text)); try reflexivity; try discriminate.
      * intros [H _]; discriminate.
      * apply (form_big ex_show big). reflexivity.
      * right; repeat split; reflexivity.
    + apply (fp_data _ _ _ _ (PList [PStr (s2l "t")]) (PList [PStr (s2l "t")])); try reflexivity; try discriminate.
      * intros [H _]; discriminate.
      * apply form_tuple. intros y Iy. in_cases. apply jd_str.
      * right; repeat split; reflexivity.
    + apply (fp_data _ _ _ _ (PStr (s2l "1970-01-07")) (POpaque 7)); try reflexivity; try discriminate.
      * intros (_ & H & _); discriminate.
      * left; split; reflexivity.
    + eapply (fp_class _ _ _ 1 None); try reflexivity; try discriminate.
      apply fits_list; [reflexivity|intros p []|]. intros y Iy. in_cases.
      apply fi_class; [reflexivity|apply ex_leaf_fits].
  - intros p I H. simpl in I. in_cases; try (destruct H as [H|H]; [discriminate H|now destruct H]).
    vm_compute. discriminate.
  - intros x S. vm_compute in S. discriminate.
Qed.

Example C37_default_case : exists v, fits ex_world ex_show 2 v /\ lean ex_world v /\ v <> PObj 2 [].
Proof.
  exists (PObj 2 [(s2l "any", PBool true)]). split; [|split; [|discriminate]].
  - apply fits_record; [apply ex_tidy; auto|vm_compute; reflexivity| | |].
    + intros p x I NE S. simpl in I. in_cases; vm_compute in S; try discriminate; injection S as <-.
      apply (fp_data _ _ _ _ (PBool true) (PBool true)); try reflexivity; try discriminate.
      * intros [H _]; discriminate.
      * apply form_data, jd_bool.
    + intros p I H. simpl in I. in_cases; destruct H as [H|H]; try discriminate H; now destruct H.
    + intros x S. vm_compute in S. discriminate.
  - apply lean_record; auto.
    + intros n x I. in_cases. injection H as <- <-. now apply lean_leaf.
    + intros n x I. in_cases. injection H as <- <-. exists (mkprop "any" TAny). simpl; auto.
    + intros n x p [I|[]] Ip En. simpl in Ip. destruct Ip as [<-|[<-|[<-|[]]]]; try reflexivity.
      exfalso. rewrite <- En in I. discriminate.
Qed.

Definition ex_doc : list (str * pyv) :=
  [(s2l "name", PStr (s2l "Al")); (s2l "what", PDict [(s2l "a", PInt 3)]);
   (s2l "dateOfBirth", PStr (s2l "1970-01-07")); (s2l "secret", PBool true)].
Example C38_case : tidy_class ex_world 0 /\ NoDup (map fst ex_doc) /\
  ex_call 2 0 (PDict ex_doc) = Val (PObj 0
    [(s2l "name", PStr (s2l "Al")); (s2l "born", POpaque 7);
     (s2l "unknown_json_keys", PDict [(s2l "what", PDict [(s2l "a", PInt 3)]); (s2l "secret", PBool true)])]).
Proof.
  split; [apply ex_tidy; auto|]. split; [|vm_compute; reflexivity].
  repeat constructor; simpl; intuition discriminate.
Qed.
(** a property keeps its value although its key is among the unknown keys, too *)
Example C38_marshalled_case :
  json_data ex_world ex_show true (PObj 2
    [(s2l "any", PBool true); (s2l "unknown_json_keys", PDict [(s2l "any", PInt 1); (s2l "u", PInt 2)])])
  = Ok (PDict [(s2l "any", PBool true); (s2l "u", PInt 2)]).
Proof. vm_compute. reflexivity. Qed.

(** a failure three levels down: the second of the friends has a bad date *)
Example C39_case : forall n,
  ex_call (4 + n) 2 (PDict [(s2l "child", PDict
    [(s2l "dateOfBirth", PStr []);
     (s2l "friends", PList [PDict [(s2l "dateOfBirth", PStr [])]; PDict [(s2l "dateOfBirth", PInt 5)]])])])
  = Exc [SKey (s2l "child"); SKey (s2l "friends"); SIdx 1; SKey (s2l "dateOfBirth")] ValueErr.
Proof. intros n. vm_compute. reflexivity. Qed.
(** a list where a record is wanted *)
Example C39_position_case : forall n,
  ex_call (3 + n) 2 (PDict [(s2l "child", PList [])]) = Exc [SKey (s2l "child")] JsonRecordCoerce.
Proof. intros n. vm_compute. reflexivity. Qed.
Example C39_hypotheses : (forall c, distinct_props ex_world c) /\
  exists W, (forall c, distinct_props W c) /\ (forall c p, In p (w_props W c) -> conv_in p = None) /\
    w_props W 2 <> [].
Proof.
  split; [apply ex_distinct|].
  exists {| w_kind := w_kind ex_world;
            w_props := fun c => match c with 0 => [mkprop "name" t_str; unknown_prop] | S c' => w_props ex_world c end;
            w_item := w_item ex_world; w_sub := Nat.eqb |}.
  split; [|split; [|discriminate]].
  - intros c. destruct c as [|c]; [|exact (ex_distinct (S c))]. split; [|keys_distinct].
    simpl; repeat constructor; simpl; intuition discriminate.
  - intros c p I. destruct c as [|[|[|[|[|c]]]]]; simpl in I; in_cases; reflexivity.
Qed.

(** ** Findings *)

(** A big integer comes back as text. *)
Theorem C37_big_int_refuted : forall z n, (2 ^ 50 < Z.abs z)%Z ->
  exists j, json_data ex_world ex_show true (PObj 2 [(s2l "any", PInt z)]) = Ok j /\
    ex_call (1 + n) 2 j = Val (PObj 2 [(s2l "any", PStr (ex_show z))]).
Proof.
  intros z n H. exists (PDict [(s2l "any", PStr (ex_show z))]). split; [|vm_compute; reflexivity].
  unfold json_data. cbn [marshal map fst snd].
  destruct (Z.ltb_spec (2 ^ 50) (Z.abs z)); [|lia]. vm_compute. reflexivity.
Qed.

(** A record of a class that is not a JSON class, with a JSON name: marshalled under that name,
    loaded by the attribute name only, so that its own output is refused. *)
Theorem C37_plain_record_refuted : exists j, forall n,
  json_data ex_world ex_show true (PObj 4 [(s2l "inner", PObj 3 [(s2l "first_name", PStr [])])]) = Ok j /\
  ex_call (2 + n) 4 j = Exc [] CoerceErr.
Proof.
  exists (PDict [(s2l "inner", PDict [(s2l "firstName", PStr [])])]).
  intros n. split; vm_compute; reflexivity.
Qed.

(** A null where a record is wanted becomes an empty record. *)
Theorem C37_null_refuted : forall n, exists v,
  ex_call (2 + n) 4 (PDict [(s2l "inner", PNone)]) = Val v /\
  json_data ex_world ex_show true v = Ok (PDict [(s2l "inner", PDict [])]).
Proof.
  intros n. exists (PObj 4 [(s2l "inner", PObj 3 [])]). split; vm_compute; reflexivity.
Qed.

Definition one_class (ps : list prop) : world :=
  {| w_kind := fun _ => KJson; w_props := fun _ => ps; w_item := fun _ => TAny; w_sub := Nat.eqb |}.

(** A json_in function which gives a finished record of the wanted JSON class: the record is passed to
    the class again, as if it were JSON data, and refused. *)
Theorem C37_json_in_record_refuted : exists p x j, forall parse show by_key n,
  let W := one_class [p; unknown_prop] in
  json_data W show true (PObj 0 [(q_name p, x)]) = Ok j /\
  (forall f g y, conv_out p = Some f -> conv_in p = Some g -> f x = Ok y -> g y = Val x) /\
  call W parse by_key (2 + n) 0 j = Exc [SKey (q_name p)] JsonRecordCoerce.
Proof.
  exists {| q_name := s2l "r"; q_json := true; q_jname := Some (s2l "r"); q_in := Some (fun _ => Val (PObj 0 []));
            q_out := Some (fun _ => Ok (PStr [])); q_type := TCls 0 None; q_check := fun _ => true;
            q_required := false; q_default := None; q_extraneous := false |},
         (PObj 0 []), (PDict [(s2l "r", PStr [])]).
  intros parse show by_key n W. split; [reflexivity|]. split; [|reflexivity].
  intros f g y Hf Hg Hy. injection Hf as <-. injection Hg as <-. reflexivity.
Qed.

(** A json_out function which fails with AttributeError: the property is left out silently. *)
Theorem C37_attribute_error_refuted : exists p, forall show x,
  json_data (one_class [p; unknown_prop]) show true (PObj 0 [(q_name p, x)]) = Ok (PDict []).
Proof.
  exists {| q_name := s2l "r"; q_json := true; q_jname := Some (s2l "r"); q_in := None;
            q_out := Some (fun _ => Err AttrErr); q_type := TAny; q_check := fun _ => true;
            q_required := false; q_default := None; q_extraneous := false |}.
  intros show x. reflexivity.
Qed.

(** Two properties with the same JSON key: no document with that key can be loaded. *)
Theorem C37_same_key_refuted : exists p p', forall parse by_key n x,
  call (one_class [p; p'; unknown_prop]) parse by_key (1 + n) 0 (PDict [(s2l "k", x)]) = Exc [] KeyErr.
Proof.
  exists {| q_name := s2l "a"; q_json := true; q_jname := Some (s2l "k"); q_in := None; q_out := None;
            q_type := TAny; q_check := fun _ => true; q_required := false; q_default := None; q_extraneous := false |},
         {| q_name := s2l "b"; q_json := true; q_jname := Some (s2l "k"); q_in := None; q_out := None;
            q_type := TAny; q_check := fun _ => true; q_required := false; q_default := None; q_extraneous := false |}.
  intros parse by_key n x. vm_compute. reflexivity.
Qed.

(** [to_json] of a record, contrary to the documentation of JsonRecord (json.py:277-279), leaves the
    unknown keys out even when asked for extraneous data. *)
Theorem C38_to_json_refuted : forall W show c u, w_kind W c = KJson -> tidy_class W c ->
  to_json W show true (PObj c [(s2l "unknown_json_keys", PDict u)]) = Ok (PDict []).
Proof.
  intros W show c u K T. unfold to_json. cbn [marshal]. rewrite K.
  change (map (fun kv => (fst kv, (snd kv, marshal W show true true (snd kv)))) [(s2l "unknown_json_keys", PDict u)])
    with (slots_of W show [(s2l "unknown_json_keys", PDict u)] true).
  rewrite (emit_emitted W show _ _ []); [reflexivity| |constructor].
  destruct T as [_ N _ (pu & I & Nu & Ku & _)].
  assert (G : forall ps, incl ps (w_props W c) -> emitted W show [(s2l "unknown_json_keys", PDict u)] ps []).
  { induction ps as [|p ps IH]; intros Inc; [apply em_nil|]. apply em_skip.
    - destruct (str_eq_dec (q_name p) (s2l "unknown_json_keys")) as [E|E].
      + right. assert (p = pu); [|now subst].
        pose proof (find_prop_in _ p N (Inc p (or_introl eq_refl))) as F1.
        pose proof (find_prop_in _ pu N I) as F2. congruence.
      + left. cbn [find_name]. destruct (str_eqb (q_name p) (s2l "unknown_json_keys")) eqn:X; auto.
        apply str_eqb_eq in X. congruence.
    - apply IH. intros q Q. apply Inc. simpl; auto. }
  apply G. apply incl_refl.
Qed.

(** An ill-typed value is reported for the record it is in, not for its own key. *)
Theorem C39_type_error_refuted : forall n,
  ex_call (3 + n) 2 (PDict [(s2l "child", PDict [(s2l "dateOfBirth", PStr []); (s2l "name", PInt 5)])])
  = Exc [SKey (s2l "child")] CoerceErr.
Proof. intros n. vm_compute. reflexivity. Qed.
(** Within a record of a class that is not a JSON class, even the key of that record is missing. *)
Theorem C39_plain_record_refuted : forall n,
  ex_call (3 + n) 4 (PDict [(s2l "inner", PDict [(s2l "first_name", PInt 5)])]) = Exc [] CoerceErr.
Proof. intros n. vm_compute. reflexivity. Qed.

Print Assumptions C37_round_trip.
Print Assumptions C37_text.
Print Assumptions C37_default_output.
Print Assumptions C37_excluded.
Print Assumptions C38_loaded.
Print Assumptions C38_marshalled.
Print Assumptions C38_document.
Print Assumptions C39_exact.
Print Assumptions C39_position.
Print Assumptions C37_big_int_refuted.
Print Assumptions C37_plain_record_refuted.
Print Assumptions C37_null_refuted.
Print Assumptions C37_json_in_record_refuted.
Print Assumptions C37_attribute_error_refuted.
Print Assumptions C37_same_key_refuted.
Print Assumptions C38_to_json_refuted.
Print Assumptions C39_type_error_refuted.
Print Assumptions C39_plain_record_refuted.
