(** C55: attributes of AutoJsonRecord. *)
From Coq Require Import String List NArith Bool.
From Verif Require Import Prelude PropModel AutoAttrModel.
Import ListNotations.
Local Open Scope list_scope.

Section Props.
Variable A W : Type.
Notation V := (pval A).
Notation state := (state A W).
Variable C : cls A W.
Variable class_attr : str -> option V.
Variable as_dict : V -> option (list (str * V)).
Variable fuel : nat.
Notation auto_getattr := (auto_getattr A W C class_attr as_dict (S fuel)).
Notation auto_setattr := (auto_setattr A W C class_attr as_dict (S fuel)).
Notation auto_delattr := (auto_delattr A W).
Notation auto_hasattr := (auto_hasattr A W C class_attr as_dict (S fuel)).
Notation acts := (acts A W C class_attr as_dict (S fuel)).
Notation declared := (declared A W C).

(** the record has the unknown keys [kv], as every constructed one (C40) *)
Definition holds (st : state) (kv : list (str * V)) : Prop :=
  exists d, slots _ _ st unknown = Some d /\ as_dict d = Some kv.

(** the first value under a name *)
Inductive has : list (str * V) -> str -> V -> Prop :=
| has_here n v t : has ((n, v) :: t) n v
| has_later m w t n v : m <> n -> has t n v -> has ((m, w) :: t) n v.

Lemma assoc_has n kv v : assoc A n kv = Some v <-> has kv n v.
Proof.
  induction kv as [|[m w] t IH]; cbn [assoc].
  - split; [discriminate|]. intros H. inversion H.
  - destruct (str_eqb m n) eqn:E.
    + apply str_eqb_eq in E. subst m. split.
      * intros H. injection H as <-. constructor.
      * intros H. inversion H; subst; congruence.
    + apply str_eqb_neq in E. rewrite IH. split.
      * intros H. now constructor.
      * intros H. inversion H; subst; congruence.
Qed.

Lemma lookup_held n st kv : holds st kv ->
  lookup_unknown A W C class_attr as_dict (S fuel) n st
  = (match assoc A n kv with Some v => Ok v | None => Err KeyErr end, st).
Proof.
  intros (d & H1 & H2).
  assert (G : getattr A W C (S fuel) unknown st = (Ok d, st)) by (cbn [getattr]; now rewrite H1).
  assert (P : plain_getattr A W C class_attr (S fuel) unknown st = (Ok d, st)).
  { unfold plain_getattr. destruct (find A W unknown C); auto.
    destruct (slots A W st unknown) eqn:E; auto. congruence. }
  unfold lookup_unknown, read_declared. rewrite P, H2. reflexivity.
Qed.

(** A key of the document is an attribute, if no property, no attribute of the class and no
    instance attribute has its name. *)
Theorem C55_read n st kv v : holds st kv -> has kv n v ->
  declared n = false -> slots _ _ st n = None -> class_attr n = None ->
  auto_getattr n st = (Ok v, st).
Proof.
  intros H Hv D S K. unfold AutoAttrModel.auto_getattr. rewrite D.
  unfold AutoAttrModel.declared in D. destruct (find A W n C) eqn:F; [discriminate|].
  unfold plain_getattr. rewrite F, S, K. cbn [getattr]. rewrite S, F. cbn [is_attr_err].
  rewrite (lookup_held _ _ _ H). apply assoc_has in Hv. now rewrite Hv.
Qed.

(** Any other name gives KeyError, not AttributeError: hasattr() does not answer. *)
Theorem C55_missing n st kv : holds st kv -> (forall v, ~ has kv n v) ->
  declared n = false -> slots _ _ st n = None -> class_attr n = None ->
  auto_getattr n st = (Err KeyErr, st) /\ auto_hasattr n st = Err KeyErr.
Proof.
  intros H Hv D S K.
  assert (G : auto_getattr n st = (Err KeyErr, st)).
  { unfold AutoAttrModel.auto_getattr. rewrite D.
    unfold AutoAttrModel.declared in D. destruct (find A W n C) eqn:F; [discriminate|].
    unfold plain_getattr. rewrite F, S, K. cbn [getattr]. rewrite S, F. cbn [is_attr_err].
    rewrite (lookup_held _ _ _ H). destruct (assoc A n kv) as [v|] eqn:E; auto.
    apply assoc_has in E. now apply Hv in E. }
  split; auto. unfold AutoAttrModel.auto_hasattr. now rewrite G.
Qed.

(** A set declared property reads as its value. *)
Theorem C55_read_declared n st v : declared n = true -> slots _ _ st n = Some v ->
  auto_getattr n st = (Ok v, st).
Proof.
  intros D S. unfold AutoAttrModel.auto_getattr. rewrite D. unfold read_declared, plain_getattr.
  rewrite S. unfold AutoAttrModel.declared in D. destruct (find A W n C); [|discriminate].
  cbn [getattr]. now rewrite S.
Qed.

(** One which is not set is missing, whatever the document has under its name: it reads as the "none" of a V1 property, or there is no such
    attribute, and hasattr() says so. *)
Theorem C55_unset n p st : find A W n C = Some p -> slots _ _ st n = None -> p_lazy A W p = false ->
  (p_set A W p = V1 -> auto_getattr n st = (Ok (p_v1none A W p), st)) /\
  (p_set A W p <> V1 -> auto_getattr n st = (Err AttrErr, st) /\ auto_hasattr n st = Ok false).
Proof.
  intros F S L. assert (G : auto_getattr n st = (match p_set A W p with V1 => Ok (p_v1none A W p) | _ => Err AttrErr end, st)).
  { unfold AutoAttrModel.auto_getattr, AutoAttrModel.declared. rewrite F. unfold read_declared, plain_getattr. rewrite F. cbn [getattr]. rewrite S, F, L.
    destruct (p_set A W p); cbn [is_attr_err]; rewrite ?S; reflexivity. }
  split; intros H; [now rewrite G, H|]. assert (E : auto_getattr n st = (Err AttrErr, st)) by (rewrite G; destruct (p_set A W p); congruence).
  split; [exact E|]. unfold AutoAttrModel.auto_hasattr. now rewrite E.
Qed.
(** and in no case do the unknown keys matter to a declared property. *)
Theorem C55_not_consulted n st as_dict' : declared n = true -> auto_getattr n st = AutoAttrModel.auto_getattr A W C class_attr as_dict' (S fuel) n st.
Proof. intros D. unfold AutoAttrModel.auto_getattr. now rewrite D. Qed.

(** Assignments: a declared property always refuses; an undeclared name raises KeyError, except
    that for a key of the document nothing at all happens. *)
Theorem C55_assign n v st kv : holds st kv ->
  (declared n = true -> exists e, auto_setattr n v st = (Err e, st) /\ (e = TypeErr \/ e = AttrErr)) /\
  (declared n = false -> (exists w, has kv n w) -> auto_setattr n v st = (Ok tt, st)) /\
  (declared n = false -> (forall w, ~ has kv n w) -> auto_setattr n v st = (Err KeyErr, st)).
Proof.
  intros H. unfold AutoAttrModel.auto_setattr, AutoAttrModel.declared.
  destruct (find A W n C) as [p|]; (split; [|split]); try discriminate.
  - intros _. destruct (p_set A W p); eauto.
  - intros _ (w & Hw). rewrite (lookup_held _ _ _ H). apply assoc_has in Hw. now rewrite Hw.
  - intros _ Hw. rewrite (lookup_held _ _ _ H).
    destruct (assoc A n kv) as [x|] eqn:E; auto. apply assoc_has in E. now apply Hw in E.
Qed.

(** No sequence of assignments to and deletions of attributes changes the record. *)
Theorem C55_never_changes l st kv : holds st kv -> snd (acts l st) = st.
Proof.
  intros H. induction l as [|a t IH]; cbn [AutoAttrModel.acts]; auto.
  assert (E : exists r, (match a with ASet _ n v => auto_setattr n v st | ADel _ n => auto_delattr n st end) = (r, st)).
  { destruct a as [n v|n].
    - destruct (C55_assign n v st kv H) as (A1 & A2 & A3).
      destruct (declared n) eqn:D.
      + destruct (A1 eq_refl) as (e & -> & _). eauto.
      + destruct (assoc A n kv) as [x|] eqn:E.
        * apply assoc_has in E. rewrite A2; eauto.
        * rewrite A3; eauto. intros w Hw. apply assoc_has in Hw. congruence.
    - unfold AutoAttrModel.auto_delattr. eauto. }
  destruct E as [r E].
  change (snd (let (r0, st1) := match a with ASet _ n v => auto_setattr n v st | ADel _ n => auto_delattr n st end in
    let (rs, st2) := acts t st1 in (r0 :: rs, st2)) = st).
  rewrite E. destruct (acts t st) as [rs st2]. exact IH.
Qed.

(** And each of these attempts has the outcome it would have alone; all deletions raise. *)
Theorem C55_results l st kv : holds st kv -> forall i,
  (forall n, nth_error l i = Some (ADel _ n) -> nth_error (fst (acts l st)) i = Some (Err TypeErr)) /\
  (forall n v, nth_error l i = Some (ASet _ n v) -> exists r, nth_error (fst (acts l st)) i = Some r /\
     (r = Ok tt <-> declared n = false /\ exists w, has kv n w)).
Proof.
  intros H. induction l as [|a t IH]; intros i; [destruct i; split; intros; discriminate|].
  assert (E : exists r, (match a with ASet _ n v => auto_setattr n v st | ADel _ n => auto_delattr n st end) = (r, st) /\
    (forall n, a = ADel _ n -> r = Err TypeErr) /\
    (forall n v, a = ASet _ n v -> (r = Ok tt <-> declared n = false /\ exists w, has kv n w))).
  { destruct a as [n v|n].
    - destruct (C55_assign n v st kv H) as (A1 & A2 & A3). destruct (declared n) eqn:D.
      + destruct (A1 eq_refl) as (e & -> & _). eexists. split; [reflexivity|]. split; [discriminate|].
        intros m w [= <- <-]. rewrite D. split; [discriminate|intros [? _]; discriminate].
      + destruct (assoc A n kv) as [y|] eqn:E.
        * apply assoc_has in E. rewrite A2; eauto. eexists. split; [reflexivity|]. split; [discriminate|].
          intros m w [= <- <-]. rewrite D. split; eauto.
        * assert (N : forall w, ~ has kv n w) by (intros w Hw; apply assoc_has in Hw; congruence).
          rewrite A3; auto. eexists. split; [reflexivity|]. split; [discriminate|].
          intros m w [= <- <-]. split; [discriminate|]. intros (_ & w' & Hw). now apply N in Hw.
    - eexists. split; [reflexivity|]. split; [reflexivity|discriminate]. }
  destruct E as (r & E & R1 & R2).
  assert (F : fst (acts (a :: t) st) = r :: fst (acts t st)).
  { change (fst (let (r0, st1) := match a with ASet _ n v => auto_setattr n v st | ADel _ n => auto_delattr n st end in
      let (rs, st2) := acts t st1 in (r0 :: rs, st2)) = r :: fst (acts t st)).
    rewrite E. destruct (acts t st); reflexivity. }
  rewrite F. destruct i as [|i]; cbn [nth_error]; [|apply IH].
  split.
  - intros n [= Ea]. f_equal. eauto.
  - intros n v [= Ea]. exists r. split; auto. eauto.
Qed.

(** It is not true that an assignment that raises nothing has happened. *)
Theorem C55_assigned_refuted n (v w : V) st kv : holds st kv -> has kv n w -> v <> w ->
  declared n = false -> slots _ _ st n = None -> class_attr n = None ->
  exists st', auto_setattr n v st = (Ok tt, st') /\ fst (auto_getattr n st') = Ok w /\ Ok w <> Ok v.
Proof.
  intros H Hw Ne D S K. exists st. split; [|split; [|congruence]].
  - destruct (C55_assign n v st kv H) as (_ & A2 & _). apply A2; eauto.
  - rewrite (C55_read n st kv w H Hw D S K). reflexivity.
Qed.

(** It is not true that every key of a document can be read as an attribute: the class's own
    attributes come first. *)
Theorem C55_shadowed_refuted n (v m : V) st kv : holds st kv -> has kv n v -> v <> m ->
  declared n = false -> slots _ _ st n = None -> class_attr n = Some m ->
  fst (auto_getattr n st) = Ok m.
Proof.
  intros H Hv Ne D S K. unfold AutoAttrModel.auto_getattr. rewrite D.
  unfold AutoAttrModel.declared in D. unfold plain_getattr. destruct (find A W n C); [discriminate|].
  now rewrite S, K.
Qed.
End Props.

(** ** Examples *)
Module Ex.
Inductive val := I (n : nat) | Dict (kv : list (str * nat)) | Method.
Definition as_dict (v : pval val) : option (list (str * pval val)) :=
  match v with PV (Dict kv) => Some (map (fun x => (fst x, PV (I (snd x)))) kv) | _ => None end.
Definition p (s : setter) : prop val unit :=
  mkProp _ _ false s false None (fun v w => (CRet v, w)) None (DNone _ _) PNone (fun _ => false).
Definition C : cls val unit := [(unknown, p Safe); (s2l "id", p Safe); (s2l "raw", p Unsafe)].
Definition methods (n : str) : option (pval val) :=
  if str_eqb n (s2l "json_data") then Some (PV Method) else None.
Definition st : state val unit :=
  mkState _ _ (fun n => if str_eqb n unknown then Some (PV (Dict [(s2l "first_name", 1); (s2l "json_data", 2)]))
                        else if str_eqb n (s2l "id") then Some (PV (I 7)) else None) tt [].
Definition get n := fst (auto_getattr val unit C methods as_dict 3 (s2l n) st).
Definition set n v := auto_setattr val unit C methods as_dict 3 (s2l n) (PV (I v)) st.
End Ex.

Example C55_ex :
  Ex.get "first_name" = Ok (PV (Ex.I 1)) /\ Ex.get "id" = Ok (PV (Ex.I 7)) /\
  Ex.get "json_data" = Ok (PV Ex.Method) /\ Ex.get "raw" = Err AttrErr /\
  Ex.get "__deepcopy__" = Err KeyErr /\
  fst (Ex.set "first_name" 5) = Ok tt /\ fst (Ex.set "new" 5) = Err KeyErr /\
  fst (Ex.set "id" 5) = Err TypeErr /\ fst (Ex.set "raw" 5) = Err AttrErr.
Proof. vm_compute. repeat split. Qed.
Example C55_ex_holds : holds Ex.val unit Ex.as_dict Ex.st
    [(s2l "first_name", PV (Ex.I 1)); (s2l "json_data", PV (Ex.I 2))] /\
  has Ex.val [(s2l "first_name", PV (Ex.I 1)); (s2l "json_data", PV (Ex.I 2))] (s2l "json_data") (PV (Ex.I 2)).
Proof.
  split.
  - exists (PV (Ex.Dict [(s2l "first_name", 1); (s2l "json_data", 2)])). split; reflexivity.
  - constructor; [discriminate|constructor].
Qed.

(** a key of the document which is the name of an unset property *)
Example C55_ex_unset :
  let st := mkState _ _ (fun n => if str_eqb n unknown then Some (PV (Ex.Dict [(s2l "raw", 1)])) else None) tt [] in
  holds Ex.val unit Ex.as_dict st [(s2l "raw", PV (Ex.I 1))] /\ find _ _ (s2l "raw") Ex.C = Some (Ex.p Unsafe) /\ slots _ _ st (s2l "raw") = None /\
  fst (auto_getattr Ex.val unit Ex.C Ex.methods Ex.as_dict 3 (s2l "raw") st) = Err AttrErr.
Proof. split; [exists (PV (Ex.Dict [(s2l "raw", 1)])); split; reflexivity|]. vm_compute. repeat split. Qed.

Example C55_ex_acts :
  acts Ex.val unit Ex.C Ex.methods Ex.as_dict 3
    [ADel _ (s2l "id"); ASet _ (s2l "first_name") (PV (Ex.I 5)); ASet _ (s2l "new") (PV (Ex.I 5)); ADel _ (s2l "x")] Ex.st =
  ([Err TypeErr; Ok tt; Err KeyErr; Err TypeErr], Ex.st).
Proof. vm_compute. reflexivity. Qed.

Print Assumptions C55_read.
Print Assumptions C55_missing.
Print Assumptions C55_read_declared.
Print Assumptions C55_unset.
Print Assumptions C55_not_consulted.
Print Assumptions C55_assign.
Print Assumptions C55_never_changes.
Print Assumptions C55_results.
Print Assumptions C55_assigned_refuted.
Print Assumptions C55_shadowed_refuted.
