(** Proofs about visiting: cast undoes visit (C41). *)
From Coq Require Import String List NArith ZArith Arith Bool Lia Permutation.
From Verif Require Import Prelude SelPathModel FSModel MFSModel MFSProofs GenModel PickleModel AutoModel JsonModel JsonSpec JsonProofs
  VisitModel DiffFilter VisitSpec.
Import ListNotations.
Local Open Scope string_scope.
Local Open Scope list_scope.

Lemma find_mapped {A B} (f : A -> B) n (l : list (str * A)) :
  find_name n (map (fun kv => (fst kv, f (snd kv))) l) = option_map f (find_name n l).
Proof. exact (find_name_mapped (fun _ => f) n l). Qed.

Lemma omap_id {A} (l : list A) : omap (fun x => Val x) l = Val l.
Proof. induction l; simpl; auto. now rewrite IHl. Qed.

Section Proofs.
Variable W : world.
Variable o : vopts.
Variable apply : list elem -> option prop -> pyv -> out pyv.
Let visit := visit W o apply.
Let cast := cast W o apply.

(** ** Equations *)

Definition vmap (x : pyv) : mapper := (x, visit x).
Definition items_of (v : pyv) : option (list (elem * mapper)) :=
  match v with
  | PList l => Some (indexed 0 (map vmap l))
  | PDict l => Some (keyed (map (fun e => (fst e, vmap (snd e))) l))
  | _ => None
  end.
Definition vitems (c : nat) (cue : list elem) (v : option pyv) : out (option pyv) :=
  if is_coll W c then
    match option_map items_of v with
    | Some (Some l) => let* ms := map_collection o apply cue (w_item W c) l in
                       let* a := aggregate W c ms in Val (Some a)
    | _ => Exc [] VisitorUnpack
    end
  else Val None.

Lemma visit_obj c' sl c cue : visit (PObj c' sl) c cue =
  (let* coll := vitems c cue (find_name items_name sl) in
   let* props := map_record o apply cue (w_props W c) (fun n => option_map vmap (find_name n sl)) in
   reduce W o cue c props coll).
Proof.
  unfold visit. cbn [VisitModel.visit]. fold visit. unfold vitems.
  change (fun kv : str * pyv => (fst kv, match snd kv with
            | PList l => Some (indexed 0 (map (fun x => (x, visit x)) l))
            | PDict d => Some (keyed (map (fun e => (fst e, (snd e, visit (snd e)))) d))
            | _ => None end))
    with (fun kv : str * pyv => (fst kv, items_of (snd kv))).
  rewrite find_mapped.
  assert (E : forall ps, map_record o apply cue ps (fun n => find_name n (map (fun kv => (fst kv, (snd kv, visit (snd kv)))) sl))
      = map_record o apply cue ps (fun n => option_map vmap (find_name n sl))).
  { induction ps as [|p ps IH]; auto. cbn [map_record]. destruct (is_filtered o cue p); auto.
    rewrite (find_mapped vmap). now rewrite IH. }
  rewrite E. reflexivity.
Qed.

Lemma is_coll_iff c : is_coll W c = true <-> collection W c.
Proof. unfold is_coll, is_coll_kind, collection. destruct (w_kind W c); intuition congruence. Qed.
End Proofs.

(** ** C41 *)

Section RoundTrip.
Variable W : world.
Variable o : vopts.
Hypothesis NF : v_filter o = None.
Variable rec : nat -> pyv -> out pyv.
Variable by_key : list (str * pyv) -> list (str * pyv).
Notation visit := (visit W o default_apply).
Notation cast := (cast W o default_apply rec by_key).

Lemma filtered_hidden cue p : is_filtered o cue p = true <-> hidden o p.
Proof.
  unfold is_filtered, hidden. rewrite NF. destruct (v_extraneous o), (q_extraneous p); simpl; intuition congruence.
Qed.
Lemma filtered_any cue cue' p : is_filtered o cue p = is_filtered o cue' p.
Proof. unfold is_filtered. now rewrite NF. Qed.

Lemma ignored_left_out x : ignored o x = true <-> left_out o x.
Proof.
  unfold ignored, left_out. destruct x; try (split; [discriminate|intros [[H _]|[H _]]; discriminate H]).
  - split; [auto|]. intros [[_ H]|[H _]]; [auto|discriminate].
  - destruct s.
    + split; [auto|]. intros [[H _]|[_ H]]; [discriminate|auto].
    + split; [discriminate|]. intros [[H _]|[H _]]; discriminate H.
Qed.

(** [x], visited as [t] gives [j], which cast as [t] gives [x]: slots and items *)
Definition mapped_prop (p : prop) (x j : pyv) : Prop :=
  (forall cue, map_prop default_apply cue p (x, visit x) = Val j) /\
  (forall cue, map_prop default_apply cue p (j, cast j) = Val x) /\
  ignored o x = false /\ ignored o j = false.
Definition mapped_item (t : vtype) (x j : pyv) : Prop :=
  (forall cue, map_item default_apply cue t (x, visit x) = Val j) /\
  (forall cue, map_item default_apply cue t (j, cast j) = Val x) /\
  ignored o x = false /\ ignored o j = false.

Definition back (c : nat) (x : pyv) : Prop :=
  (exists sl, x = PObj c sl) /\
  exists j, (forall cue, visit x c cue = Val j) /\ (forall cue, cast j c cue = Val x) /\ ignored o j = false /\
    ((exists l, j = PList l) \/ exists l, j = PDict l).
Definition back_val (t : vtype) (x : pyv) : Prop :=
  isinstance W x t = true /\
  (forall p, q_type p = t -> exists j, mapped_prop p x j) /\ exists j, mapped_item t x j.

(** the entries of a record and what they are visited as *)
Inductive pairs (c : nat) (sl : list (str * pyv)) : list prop -> list (str * pyv) -> list (str * pyv) -> Prop :=
| pr_nil : pairs c sl [] [] []
| pr_skip p ps js xs : find_name (q_name p) sl = None -> pairs c sl ps js xs -> pairs c sl (p :: ps) js xs
| pr_put p ps js xs x j : find_name (q_name p) sl = Some x -> ~ hidden o p -> mapped_prop p x j ->
    pairs c sl ps js xs -> pairs c sl (p :: ps) ((q_name p, j) :: js) ((q_name p, x) :: xs).

Lemma pairs_visit c sl ps js xs : pairs c sl ps js xs -> forall cue,
  map_record o default_apply cue ps (fun n => option_map (vmap W o default_apply) (find_name n sl)) = Val js.
Proof.
  induction 1 as [|p ps js xs F H IH|p ps js xs x j F NH M H IH]; intros cue; auto; cbn [map_record].
  - destruct (is_filtered o cue p); auto. rewrite F. cbn [option_map]. auto.
  - destruct (is_filtered o cue p) eqn:E; [apply filtered_hidden in E; tauto|].
    rewrite F. cbn [option_map]. destruct M as (M1 & M2 & M3 & M4).
    change (vmap W o default_apply x) with (x, visit x). rewrite M1. cbn [obind]. rewrite IH. cbn [obind]. now rewrite M4.
Qed.

Lemma pairs_cast c sl ps js xs : pairs c sl ps js xs -> forall cue get,
  (forall n j, In (n, j) js -> get n = Some (j, cast j)) ->
  (forall p, In p ps -> ~ In (q_name p) (map fst js) -> get (q_name p) = None) ->
  NoDup (map q_name ps) ->
  map_record o default_apply cue ps get = Val xs.
Proof.
  induction 1 as [|p ps js xs F H IH|p ps js xs x j F NH M H IH]; intros cue get G G' N; auto; cbn [map_record].
  - assert (NJ : ~ In (q_name p) (map fst js)).
    { clear - H N. inversion N as [|? ? N1 N2]; subst. intros I. apply N1. clear N N1 N2.
      induction H as [|p' ps js xs F H IH|p' ps js xs x j F NH M H IH]; simpl in *; [tauto|auto|].
      destruct I as [I|I]; auto. }
    assert (E : map_record o default_apply cue ps get = Val xs).
    { inversion N; subst. apply IH; auto. intros q I J. apply G'; simpl; auto. }
    destruct (is_filtered o cue p); auto. rewrite (G' p); simpl; auto.
  - destruct (is_filtered o cue p) eqn:E; [apply filtered_hidden in E; tauto|].
    rewrite (G (q_name p) j) by (simpl; auto). destruct M as (M1 & M2 & M3 & M4). rewrite M2. cbn [obind].
    inversion N as [|? ? N1 N2]; subst.
    rewrite IH; auto.
    + cbn [obind]. now rewrite M3.
    + intros n i I. apply G. simpl; auto.
    + intros q I J. apply G'; [simpl; auto|]. simpl. intros [K|K]; [|auto].
      apply N1. rewrite K. now apply in_map.
Qed.

Lemma pairs_names c sl ps js xs : pairs c sl ps js xs -> incl (map fst js) (map q_name ps) /\ map fst js = map fst xs.
Proof.
  induction 1 as [|p ps js xs F H [IH1 IH2]|p ps js xs x j F NH M H [IH1 IH2]]; simpl; split; auto.
  - apply incl_refl.
  - apply incl_tl; auto.
  - intros a [<-|I]; [simpl; auto|]. right. auto.
  - now rewrite IH2.
Qed.
Lemma pairs_nodup c sl ps js xs : pairs c sl ps js xs -> NoDup (map q_name ps) -> NoDup (map fst js).
Proof.
  induction 1 as [|p ps js xs F H IH|p ps js xs x j F NH M H IH]; simpl; intros N.
  - constructor.
  - inversion N; auto.
  - inversion N; subst. constructor; auto. intros I. apply H2. exact (proj1 (pairs_names _ _ _ _ _ H) _ I).
Qed.
Lemma pairs_entries c sl ps js xs : pairs c sl ps js xs ->
  xs = flat_map (fun p => match slot sl (q_name p) with Some x => [(q_name p, x)] | None => [] end) ps.
Proof.
  unfold slot. induction 1 as [|p ps js xs F H IH|p ps js xs x j F NH M H IH]; simpl; auto; rewrite F; simpl; congruence.
Qed.

(** a slot holding [x] accepts it *)
Lemma init_same p x : isinstance W x (q_type p) = true -> q_check p x = true ->
  ~ (x = PNone /\ q_required p = true /\ q_type p = TAny) ->
  init_prop W rec p (Some x) = Val (Some x).
Proof.
  intros I C N. unfold init_prop, type_safe. rewrite I, C.
  assert (E : (match x, q_required p, q_type p with
               | PNone, true, TAny => Exc [] PropRequired
               | _, _, _ => Val (Some x) end) = Val (Some x)).
  { destruct x, (q_required p), (q_type p); auto. exfalso; apply N; auto. }
  rewrite E. reflexivity.
Qed.

Lemma record_back_pre c pre sl kw v : record_init W rec c [] kw = Val (PObj c v) -> sl = v ->
  record_init W rec c pre kw = Val (PObj c (pre ++ sl)).
Proof.
  unfold record_init. intros H <-.
  match type of H with (let* g := ?a in _) = _ => destruct a; cbn [obind] in *; [|discriminate] end.
  match type of H with (let* g := ?a in _) = _ => destruct a; cbn [obind] in *; [|discriminate] end.
  simpl in H. now injection H as <-.
Qed.

Definition good_slots (c : nat) (sl : list (str * pyv)) : Prop :=
  NoDup (map q_name (w_props W c)) /\ listed (w_props W c) sl /\
  (forall p, In p (w_props W c) -> q_name p <> items_name) /\
  (exists js, pairs c sl (w_props W c) js sl) /\
  (forall pre, record_init W rec c pre sl = Val (PObj c (pre ++ sl))).

Lemma listed_fst ps sl n x : listed ps sl -> In (n, x) sl -> exists p, In p ps /\ q_name p = n /\ find_name n sl = Some x.
Proof.
  intros L I. unfold listed in L. rewrite L in I. apply in_flat_map in I as (p & Ip & I).
  unfold slot in I. destruct (find_name (q_name p) sl) eqn:F; [|destruct I].
  destruct I as [E|[]]. injection E as <- <-. eauto.
Qed.

Lemma map_collection_ok t l js cue : forall i0 : list elem, True ->
  Forall2 (fun x j => mapped_item t x j) l js ->
  forall ks, length ks = length l ->
  map_collection o default_apply cue t (combine ks (map (vmap W o default_apply) l)) = Val (combine ks js).
Proof.
  intros _ _ H. induction H as [|x j l js M H IH]; intros [|k ks] E; try discriminate; auto.
  cbn [map combine map_collection]. destruct M as (M1 & M2 & M3 & M4).
  change (vmap W o default_apply x) with (x, visit x). rewrite M1. cbn [obind].
  rewrite IH by (simpl in E; lia). cbn [obind]. now rewrite M4.
Qed.
Lemma map_collection_back t l js cue :
  Forall2 (fun x j => mapped_item t x j) l js ->
  forall ks, length ks = length l ->
  map_collection o default_apply cue t (combine ks (map (fun x => (x, cast x)) js)) = Val (combine ks l).
Proof.
  intros H. induction H as [|x j l js M H IH]; intros [|k ks] E; try discriminate; auto.
  cbn [map combine map_collection]. destruct M as (M1 & M2 & M3 & M4).
  rewrite M2. cbn [obind].
  rewrite IH by (simpl in E; lia). cbn [obind]. now rewrite M3.
Qed.

Fixpoint idx (i n : nat) : list elem := match n with 0 => [] | S n => EInt (Z.of_nat i) :: idx (S i) n end.
Lemma idx_length i n : length (idx i n) = n.
Proof. revert i; induction n; simpl; intros; auto. Qed.
Lemma indexed_combine {A} i (l : list A) : indexed i l = combine (idx i (length l)) l.
Proof. revert i; induction l; simpl; intros; auto. now rewrite IHl. Qed.
Lemma keyed_combine {A} (l : list (str * A)) : keyed l = combine (map (fun e => EStr (fst e)) l) (map snd l).
Proof. unfold keyed. induction l as [|[k x] t IH]; simpl; auto. now rewrite IH. Qed.
Lemma snd_combine {A B} (l : list A) (m : list B) : length l = length m -> map snd (combine l m) = m.
Proof. revert m; induction l; intros [|b m]; simpl; intros; try discriminate; auto. now rewrite IHl by lia. Qed.
Lemma Forall2_len {A B} (R : A -> B -> Prop) l m : Forall2 R l m -> length l = length m.
Proof. induction 1; simpl; auto. Qed.
Lemma items_exist {A} (Q : A -> pyv -> Prop) l : (forall x, In x l -> exists j, Q x j) -> exists js, Forall2 Q l js.
Proof.
  induction l as [|x t IH]; intros H; [exists []; constructor|].
  destruct (H x (or_introl eq_refl)) as [j J]. destruct IH as [js Js]; [intros; apply H; simpl; auto|].
  exists (j :: js). constructor; auto.
Qed.
Lemma coerce_same c x : isinstance W x (w_item W c) = true -> coerce_item W rec c x = Val x.
Proof. intros H. unfold coerce_item. now rewrite H. Qed.

Lemma omap_same (c : nat) (ms : list (elem * pyv)) : (forall k x, In (k, x) ms -> isinstance W x (w_item W c) = true) ->
  omap (fun km => let* x := coerce_item W rec c (snd km) in Val (fst km, x)) ms = Val ms.
Proof.
  intros H. rewrite (omap_ok _ (fun x => x)), map_id; auto. intros [k x] I. cbn [fst snd].
  rewrite coerce_same by eauto. reflexivity.
Qed.

Lemma to_dict_ok (ks : list str) js : length ks = length js ->
  to_dict (combine (map EStr ks) js) = Val (PDict (combine ks js)).
Proof.
  intros E. unfold to_dict. rewrite (omap_ok _ (fun km => (match fst km with EStr k => k | _ => [] end, snd km))).
  - cbn [obind]. do 2 f_equal. revert js E. induction ks; intros [|j js]; simpl; intros; try discriminate; auto.
    now rewrite IHks by lia.
  - intros [k x] I. apply in_combine_l, in_map_iff in I as (k' & <- & _). reflexivity.
Qed.

Lemma in_combine_snd {A B} (l : list A) (m : list B) k x : In (k, x) (combine l m) -> In x m.
Proof. intros H. exact (in_combine_r _ _ _ _ H). Qed.

(** ** Collections *)

(** [a] is what the items [vs] are visited as *)
Definition items_round (c : nat) (vs a : pyv) : Prop :=
  is_coll W c = true /\
  (forall cue, vitems W o default_apply c cue (Some vs) = Val (Some a)) /\
  ((exists l js, vs = PList l /\ a = PList js /\ is_list_kind (w_kind W c) = true /\
     Forall2 (mapped_item (w_item W c)) l js /\
     (forall x, In x l -> isinstance W x (w_item W c) = true)) \/
   (exists l ks js, vs = PDict (combine ks l) /\ a = PDict (combine ks js) /\ length ks = length l /\
     is_list_kind (w_kind W c) = false /\
     Forall2 (mapped_item (w_item W c)) l js /\
     (forall x, In x l -> isinstance W x (w_item W c) = true))).

Lemma init_coll c vs a sl : items_round c vs a -> good_slots c sl ->
  (forall p, In p (w_props W c) -> q_name p <> values_name) ->
  coll_init W by_key rec c vs (filter (fun kv => negb (str_eqb (fst kv) values_name)) sl) = Val (PObj c ((items_name, vs) :: sl)).
Proof.
  intros (K & _ & R) (N & L & _ & _ & B) NV.
  assert (Fl : filter (fun kv : str * pyv => negb (str_eqb (fst kv) values_name)) sl = sl).
  { assert (G : forall l : list (str * pyv), (forall k x, In (k, x) l -> k <> values_name) ->
      filter (fun kv : str * pyv => negb (str_eqb (fst kv) values_name)) l = l).
    { induction l as [|[k x] t IH]; intros H; auto. cbn [filter fst].
      destruct (str_eqb k values_name) eqn:E.
      - apply str_eqb_eq in E. destruct (H k x); simpl; auto.
      - cbn [negb]. rewrite IH; auto. intros k' x' I. apply (H k' x'). simpl; auto. }
    apply G. intros k x I. destruct (listed_fst _ _ _ _ L I) as (p & Ip & <- & _). auto. }
  rewrite Fl. unfold coll_init.
  destruct R as [(l & js & -> & -> & LK & F & IS)|(l & ks & js & -> & -> & EL & LK & F & IS)]; rewrite LK.
  - cbn [list_items obind]. rewrite (omap_ok _ (fun x => x)), map_id.
    + cbn [obind]. apply (B [(items_name, PList l)]).
    + intros x I. now apply coerce_same, IS.
  - cbn [dict_items obind]. rewrite (omap_ok _ (fun x => x)), map_id.
    + cbn [obind]. apply (B [(items_name, PDict (combine ks l))]).
    + intros [k x] I. cbn [fst snd]. rewrite coerce_same by (apply IS; eapply in_combine_r; eauto). reflexivity.
Qed.

Lemma cast_items c vs a cue : items_round c vs a ->
  exists l, (match a with
             | PList js => l = indexed 0 (map (fun x => (x, cast x)) js)
             | PDict js => l = keyed (map (fun e => (fst e, (snd e, cast (snd e)))) js)
             | _ => False
             end) /\
  (let* ms := map_collection o default_apply cue (w_item W c) l in
   let* a := collect W rec c ms in Val (Some a)) = Val (Some vs).
Proof.
  intros (K & _ & R). destruct R as [(l & js & -> & -> & LK & F & IS)|(l & ks & js & -> & -> & EL & LK & F & IS)];
    eexists; (split; [reflexivity|]); pose proof (Forall2_len _ _ _ F) as E.
  - rewrite indexed_combine, map_length. rewrite (map_collection_back _ l); auto; [|now rewrite idx_length].
    cbn [obind]. unfold collect. rewrite omap_same.
    + cbn [obind]. unfold aggregate. rewrite LK. unfold to_list. rewrite snd_combine by (rewrite idx_length; auto). reflexivity.
    + intros k x I. apply IS. eapply in_combine_r; eauto.
  - assert (Ks : keyed (map (fun e => (fst e, (snd e, cast (snd e)))) (combine ks js)) = combine (map EStr ks) (map (fun x => (x, cast x)) js)).
    { assert (EJ : length ks = length js) by lia. clear - EJ. unfold keyed. revert js EJ.
      induction ks; intros [|j js]; simpl; intros; try discriminate; auto. now rewrite IHks by lia. }
    rewrite Ks. rewrite (map_collection_back _ l); auto; [|now rewrite map_length].
    cbn [obind]. unfold collect. rewrite omap_same.
    + cbn [obind]. unfold aggregate. rewrite LK. rewrite to_dict_ok by auto. reflexivity.
    + intros k x I. apply IS. eapply in_combine_r; eauto.
Qed.

Lemma is_record_hidden cue c : is_record W o cue c = false <-> forall p, In p (w_props W c) -> hidden o p.
Proof.
  unfold is_record. split.
  - intros H p I. apply (filtered_hidden cue). destruct (is_filtered o cue p) eqn:E; auto.
    assert (X : existsb (fun p => negb (is_filtered o cue p)) (w_props W c) = true).
    { apply existsb_exists. exists p. now rewrite E. }
    congruence.
  - intros H. destruct (existsb _ _) eqn:E; auto. apply existsb_exists in E as (p & I & X).
    apply H in I. apply (filtered_hidden cue) in I. now rewrite I in X.
Qed.
Lemma forallb_hidden cue c : forallb (is_filtered o cue) (w_props W c) = negb (is_record W o cue c).
Proof.
  unfold is_record. induction (w_props W c) as [|p t IH]; simpl; auto. rewrite IH. destruct (is_filtered o cue p); reflexivity.
Qed.
Lemma is_record_any cue cue' c : is_record W o cue c = is_record W o cue' c.
Proof. unfold is_record. induction (w_props W c) as [|p t IH]; simpl; auto. now rewrite IH, (filtered_any cue cue'). Qed.

Lemma get_js (js : list (str * pyv)) extra n :
  find_name n (map (fun kv => (fst kv, (snd kv, cast (snd kv)))) (js ++ extra)) =
  option_map (fun j => (j, cast j)) (find_name n (js ++ extra)).
Proof. apply (find_mapped (fun j => (j, cast j))). Qed.

Lemma coll_back c vs a sl : items_round c vs a -> good_slots c sl ->
  (forall p, In p (w_props W c) -> q_name p <> values_name) ->
  back c (PObj c ((items_name, vs) :: sl)).
Proof.
  intros R G NV. pose proof R as (K & V & R'). pose proof G as (N & L & NI & (js & Pr) & B).
  split; [eauto|].
  (* entries of the collection are those of sl *)
  assert (Pr' : pairs c ((items_name, vs) :: sl) (w_props W c) js sl).
  { clear - Pr NI. revert Pr NI. generalize sl at 2 4 as xs. intros xs H.
    induction H as [|p ps js xs F H IH|p ps js xs x j F NH M H IH]; intros NI.
    - apply pr_nil.
    - apply pr_skip; [|apply IH; intros; apply NI; simpl; auto].
      cbn [find_name]. destruct (str_eqb (q_name p) items_name) eqn:E; auto.
      apply str_eqb_eq in E. destruct (NI p); simpl; auto.
    - apply pr_put; auto; [|apply IH; intros; apply NI; simpl; auto].
      cbn [find_name]. destruct (str_eqb (q_name p) items_name) eqn:E; auto.
      apply str_eqb_eq in E. destruct (NI p); simpl; auto. }
  assert (Vis : forall cue, visit (PObj c ((items_name, vs) :: sl)) c cue = reduce W o cue c js (Some a)).
  { intros cue. rewrite visit_obj. cbn [find_name]. rewrite str_eqb_refl.
    rewrite V. cbn [obind]. rewrite (pairs_visit _ _ _ _ _ Pr'). reflexivity. }
  assert (FV : find_name values_name js = None).
  { apply find_name_none. intros I. apply (proj1 (pairs_names _ _ _ _ _ Pr)) in I.
    apply in_map_iff in I as (p & E & Ip). exact (NV p Ip E). }
  assert (Nj : NoDup (map fst js)) by (eapply pairs_nodup; eauto).
  destruct (is_record W o [] c) eqn:IR.
  - exists (PDict (js ++ [(values_name, a)])). split; [|split; [|split]].
    + intros cue. rewrite Vis. unfold reduce. rewrite forallb_hidden, (is_record_any cue []), IR. cbn [negb].
      rewrite FV, dset_fresh by (now apply find_name_none). reflexivity.
    + intros cue. cbn [VisitModel.cast]. rewrite K, (is_record_any cue []), IR.
      rewrite (find_mapped (fun x => match x with
        | PList l => if is_list_kind (w_kind W c) then Val (indexed 0 (map (fun x => (x, cast x)) l))
                     else match l with [] => Val [] | _ => Exc [] (OtherErr 72) end
        | PTuple l => if is_list_kind (w_kind W c) then Val (indexed 0 (map (fun x => (x, cast x)) l))
                      else match l with [] => Val [] | _ => Exc [] (OtherErr 72) end
        | PDict l => if is_list_kind (w_kind W c) then Val (zero_indexed (map (fun e => (fst e, (snd e, cast (snd e)))) l))
                     else Val (keyed (map (fun e => (fst e, (snd e, cast (snd e)))) l))
        | PStr _ => Exc [] CollCoerceErr
        | _ => Exc [] GrokCollErr
        end)).
      rewrite find_name_app, FV. cbn [find_name]. rewrite str_eqb_refl. cbn [option_map].
      destruct (cast_items c vs a cue R) as (l & El & Q).
      match goal with |- (let* coll := ?X in _) = _ => assert (X1 : X = Val (Some vs)) end.
      { destruct R' as [(l0 & js0 & -> & -> & LK & F & IS)|(l0 & ks & js0 & -> & -> & EL & LK & F & IS)];
          rewrite LK; cbn [obind]; subst l; exact Q. }
      rewrite X1. cbn [obind].
      match goal with |- (let* p := ?X in _) = _ => assert (X2 : X = Val sl) end.
      { eapply pairs_cast; [exact Pr| | |exact N].
        - intros n j I. rewrite get_js, find_name_app, (in_find_name n js j); auto.
        - intros p Ip NIp. rewrite get_js, find_name_app. apply find_name_none in NIp. rewrite NIp.
          cbn [find_name]. destruct (str_eqb (q_name p) values_name) eqn:E; auto.
          apply str_eqb_eq in E. destruct (NV p Ip E). }
      rewrite X2. cbn [obind produce]. eapply init_coll; eauto.
    + reflexivity.
    + eauto.
  - assert (js0 : js = [] /\ sl = []).
    { assert (H : forall p, In p (w_props W c) -> hidden o p) by (now apply (is_record_hidden [])).
      clear - Pr H. revert Pr. generalize sl at 2 3 as xs. intros xs P.
      induction P as [|p ps js xs F P IH|p ps js xs x j F NH M P IH]; auto.
      - apply IH. intros; apply H; simpl; auto.
      - destruct NH. apply H. simpl; auto. }
    destruct js0 as [-> ->]. exists a. split; [|split; [|split]].
    + intros cue. rewrite Vis. unfold reduce. rewrite forallb_hidden, (is_record_any cue []), IR. reflexivity.
    + intros cue. destruct (cast_items c vs a cue R) as (l & El & Q).
      pose proof (init_coll c vs a [] R G NV) as IC. cbn [filter] in IC.
      destruct R' as [(l0 & js0 & -> & -> & LK & F & IS)|(l0 & ks & js0 & -> & -> & EL & LK & F & IS)]; subst l;
        cbn [VisitModel.cast]; rewrite K, (is_record_any cue []), IR, LK; rewrite Q; cbn [obind produce]; exact IC.
    + destruct R' as [(l0 & js0 & -> & -> & _)|(l0 & ks & js0 & -> & -> & _)]; reflexivity.
    + destruct R' as [(l0 & js0 & -> & -> & _)|(l0 & ks & js0 & -> & -> & _)]; eauto.
Qed.

Lemma record_kind c : w_kind W c = KRecord \/ w_kind W c = KJson -> is_coll W c = false.
Proof. unfold is_coll. intros [-> | ->]; reflexivity. Qed.

Theorem holds_back : forall c x, holds W o c x -> back c x.
Proof.
  apply (holds_mind W o back good_slots back_val).
  - intros c sl K (p0 & I0 & V0) HS (N & L & NI & (js & Pr) & B).
    split; [eauto|]. exists (PDict js).
    assert (Kc := record_kind c K).
    assert (IR : forall cue, is_record W o cue c = true).
    { intros cue. destruct (is_record W o cue c) eqn:E; auto. destruct V0. eapply is_record_hidden; eauto. }
    assert (Nj : NoDup (map fst js)) by (eapply pairs_nodup; eauto).
    split; [|split; [|split]]; eauto.
    + intros cue. rewrite visit_obj. unfold vitems. rewrite Kc. cbn [obind].
      rewrite (pairs_visit _ _ _ _ _ Pr). reflexivity.
    + intros cue. cbn [VisitModel.cast]. rewrite Kc, IR.
      match goal with |- (let* p := ?X in _) = _ => assert (X2 : X = Val sl) end.
      { eapply pairs_cast; [exact Pr| | |exact N].
        - intros n j I. rewrite (find_mapped (fun j => (j, cast j))), (in_find_name n js j); auto.
        - intros p Ip NIp. apply find_name_none in NIp. now rewrite (find_mapped (fun j => (j, cast j))), NIp. }
      rewrite X2. cbn [obind produce]. exact (B []).
  - intros c l sl K HS G NV HI IH.
    assert (LK : is_list_kind (w_kind W c) = true) by (destruct K as [-> | ->]; reflexivity).
    assert (CK : is_coll W c = true) by (unfold is_coll; destruct K as [-> | ->]; reflexivity).
    destruct (items_exist (mapped_item (w_item W c)) l) as [js F].
    { intros x I. apply (IH x I). }
    eapply coll_back; eauto. split; auto. split.
    + intros cue. unfold vitems. rewrite CK. cbn [option_map items_of].
      rewrite indexed_combine, map_length, (map_collection_ok _ l js cue [] Logic.I F) by (now rewrite idx_length).
      cbn [obind]. unfold aggregate. rewrite LK. unfold to_list.
      rewrite snd_combine by (rewrite idx_length; eapply Forall2_len; eauto). cbn [obind]. reflexivity.
    + left. exists l, js. repeat split; auto. intros x I. apply (IH x I).
  - intros c l sl K HS G NV ND HI IH.
    assert (LK : is_list_kind (w_kind W c) = false) by (destruct K as [-> | ->]; reflexivity).
    assert (CK : is_coll W c = true) by (unfold is_coll; destruct K as [-> | ->]; reflexivity).
    assert (IH' : forall x, In x (map snd l) -> back_val (w_item W c) x).
    { intros x I. apply in_map_iff in I as ([k y] & <- & I). exact (IH k y I). }
    destruct (items_exist (mapped_item (w_item W c)) (map snd l)) as [js F].
    { intros x I. apply (IH' x I). }
    assert (CL : l = combine (map fst l) (map snd l)) by (clear; induction l as [|[k x] t IHl]; simpl; congruence).
    pose proof (Forall2_len _ _ _ F) as EL. rewrite map_length in EL.
    eapply coll_back; eauto. split; auto. split.
    + intros cue. unfold vitems. rewrite CK. cbn [option_map items_of].
      rewrite keyed_combine, !map_map. cbn [fst snd].
      rewrite <- (map_map fst EStr), <- (map_map snd (vmap W o default_apply)).
      rewrite (map_collection_ok _ (map snd l) js cue [] Logic.I F) by (now rewrite !map_length).
      cbn [obind]. unfold aggregate. rewrite LK. rewrite to_dict_ok by (now rewrite map_length). cbn [obind]. reflexivity.
    + right. exists (map snd l), (map fst l), js. rewrite !map_length. repeat split; auto.
      * now rewrite <- CL.
      * intros x I. apply (IH' x I).
  - intros c sl N L NI HC HV IH HI.
    assert (Ex : forall ps, incl ps (w_props W c) -> NoDup (map q_name ps) -> exists js xs, pairs c sl ps js xs).
    { induction ps as [|p ps IHp]; intros Ic Np; [exists [], []; apply pr_nil|].
      destruct IHp as (js & xs & P); [intros a Ia; apply Ic; simpl; auto|now inversion Np|].
      destruct (find_name (q_name p) sl) as [x|] eqn:F.
      - destruct (IH p x) as (B1 & B2 & B3); [apply Ic; simpl; auto|exact F|].
        destruct (HC p x) as (H1 & H2 & H3); [apply Ic; simpl; auto|exact F|].
        destruct (B2 p eq_refl) as (j & M). exists ((q_name p, j) :: js), ((q_name p, x) :: xs). now apply pr_put.
      - exists js, xs. now apply pr_skip. }
    destruct (Ex (w_props W c)) as (js & xs & P); [apply incl_refl|auto|].
    assert (xs = sl) by (rewrite (pairs_entries _ _ _ _ _ P); symmetry; exact L). subst xs.
    split; auto. split; auto. split; auto. split; [eauto|].
    intros pre. eapply record_back_pre; [|reflexivity].
    apply record_back; auto.
    + intros m y I. destruct (listed_fst _ _ _ _ L I) as (p & Ip & En & Fn). exists p, y.
      split; [exact Ip|]. split; [exact En|]. split; [exact Fn|]. subst m.
      destruct (IH p y Ip Fn) as (B1 & _), (HC p y Ip Fn) as (H1 & H2 & H3). now apply init_same.
    + intros p Ip Fp. destruct (find_name (q_name p) sl) as [x|] eqn:F; [|congruence].
      apply find_name_in in F. change (q_name p) with (fst (q_name p, x)). now apply in_map.
  - intros x NL NO. split; [reflexivity|].
    assert (G : ignored o x = false).
    { destruct (ignored o x) eqn:E; auto. apply ignored_left_out in E. tauto. }
    split.
    + intros p T. exists x. repeat split; auto; intros cue; unfold map_prop; rewrite T; cbn [fst snd];
        destruct x; try reflexivity; destruct (NO c slots); reflexivity.
    + exists x. repeat split; auto.
  - intros isa co x NL IS. split; [exact IS|].
    assert (G : ignored o x = false).
    { destruct (ignored o x) eqn:E; auto. apply ignored_left_out in E. tauto. }
    split.
    + intros p T. exists x. repeat split; auto; intros cue; unfold map_prop; rewrite T; reflexivity.
    + exists x. repeat split; auto.
  - intros c co x SU HC ((sl & ->) & j & V & C & G & _). split; [exact SU|].
    split.
    + intros p T. exists j. unfold mapped_prop, map_prop. rewrite T. cbn [fst snd]. auto.
    + exists j. split; [intros cue; apply V|]. split; [intros cue; apply C|]. auto.
Qed.
End RoundTrip.
