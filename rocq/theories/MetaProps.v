(** C34: declaration of record types. *)
From Coq Require Import String List NArith Bool Arith Lia Permutation Sorting.Sorted.
Import ListNotations.
From Verif Require Import Prelude TraitModel TraitProofs MetaModel MetaProofs.

(** ** Specification
    The class body and the bases are Python dicts: no key twice. *)
Definition dict {X} (d : list (str * X)) : Prop := NoDup (map fst d).
Definition sane (bases : list (option (list (str * nat)))) (attrs : list (str * attr)) : Prop :=
  dict attrs /\ forall ps, In (Some ps) bases -> dict ps.

(** What is called [n] in the new class: the body's property of that name; otherwise an
    inherited one. *)
Definition has_prop (bases : list (option (list (str * nat)))) (attrs : list (str * attr)) (n : str) (p : nat) : Prop :=
  In (n, AProp p) attrs \/
  ((forall q, ~ In (n, AProp q) attrs) /\ exists ps, In (Some ps) bases /\ In (n, p) ps).

(** Two different bases have a property of the same name. *)
Definition clash (bases : list (option (list (str * nat)))) : Prop :=
  exists l1 ps l2 qs l3 n p q,
    bases = l1 ++ Some ps :: l2 ++ Some qs :: l3 /\ In (n, p) ps /\ In (n, q) qs.

Definition uses_reserved (attrs : list (str * attr)) : Prop :=
  exists n v, In (n, v) attrs /\ (n = s2l "properties" \/ n = s2l "eager_properties").

(** What an element of [primary_key] stands for. *)
Definition resolves (bases : list (option (list (str * nat)))) (attrs : list (str * attr)) (e : pk_elem) (p : nat) : Prop :=
  match e with
  | PkName n => has_prop bases attrs n p
  | PkProp q => q = p /\ exists n, has_prop bases attrs n p
  | PkOther => False
  end.

(** ** Auxiliary *)
Lemma clash_iff bases : (exists l1 ps l2 qs l3 n, bases = l1 ++ Some ps :: l2 ++ Some qs :: l3 /\ In n (pnames ps) /\ In n (pnames qs)) <-> clash bases.
Proof.
  split.
  - intros (l1 & ps & l2 & qs & l3 & n & e & i & j). apply in_map_iff in i as [[m p] [em i]]. apply in_map_iff in j as [[k q] [ek j]].
    simpl in em, ek. subst m k. exists l1, ps, l2, qs, l3, n, p, q. auto.
  - intros (l1 & ps & l2 & qs & l3 & n & p & q & e & i & j). exists l1, ps, l2, qs, l3, n. split; [exact e|]. split.
    + apply (in_map fst) in i. exact i.
    + apply (in_map fst) in j. exact j.
Qed.
Lemma reserved_iff n : reserved n = true <-> n = s2l "properties" \/ n = s2l "eager_properties".
Proof. unfold reserved. rewrite orb_true_iff, !str_eqb_eq. reflexivity. Qed.

Lemma props_in bases attrs c : sane bases attrs -> NoDup (pnames c) ->
  NoDup (pnames (concat (props_of bases))) ->
  (forall n, dget n c = match dget n attrs with Some (AProp p) => Some p | _ => dget n (concat (props_of bases)) end) ->
  forall n p, In (n, p) c <-> has_prop bases attrs n p.
Proof.
  intros [ha hb] hc hi E n p. unfold has_prop. transitivity (dget n c = Some p).
  { split; [apply in_dget, hc|apply dget_in]. }
  rewrite E. assert (I : dget n (concat (props_of bases)) = Some p <-> exists ps, In (Some ps) bases /\ In (n, p) ps).
  { split.
    - intros i. apply dget_in, in_concat in i as [ps [i j]]. unfold props_of in i. apply in_flat_map in i as [o [io i]].
      destruct o; [|destruct i]. destruct i as [->|[]]. eauto.
    - intros [ps [i j]]. apply in_dget; [exact hi|]. apply in_concat. exists ps. split; auto. unfold props_of.
      apply in_flat_map. exists (Some ps). simpl; auto. }
  destruct (dget n attrs) as [[q| |]|] eqn:e.
  - apply dget_in in e. split.
    + intros x; injection x as <-. auto.
    + intros [i|[no _]]; [|destruct (no q e)]. f_equal.
      assert (x : Some (AProp q) = Some (AProp p)) by (rewrite <- (in_dget _ _ _ ha e); now apply in_dget). now injection x.
  - rewrite I. split; [|intros [i|[_ x]]; auto].
    + intros x. right. split; auto. intros q i. rewrite (in_dget _ _ _ ha i) in e. discriminate.
    + rewrite (in_dget _ _ _ ha i) in e. discriminate.
  - rewrite I. split; [|intros [i|[_ x]]; auto].
    + intros x. right. split; auto. intros q i. rewrite (in_dget _ _ _ ha i) in e. discriminate.
    + rewrite (in_dget _ _ _ ha i) in e. discriminate.
  - rewrite I. split; [|intros [i|[_ x]]; auto].
    + intros x. right. split; auto. intros q i. rewrite (in_dget _ _ _ ha i) in e. discriminate.
    + rewrite (in_dget _ _ _ ha i) in e. discriminate.
Qed.

Lemma coerce_props_spec bases attrs c pk : NoDup (pnames c) ->
  (forall n p, In (n, p) c <-> has_prop bases attrs n p) ->
  match coerce_props c pk with
  | MOk l => Forall2 (resolves bases attrs) pk l
  | MErr e => (e = MKeyErr \/ e = MUnknown) /\ Exists (fun x => forall p, ~ resolves bases attrs x p) pk
  end.
Proof.
  intros hn hc. induction pk as [|x pk IH]; simpl; [constructor|].
  assert (K : match (match x with
             | PkName n => match dget n c with Some p => MOk p | None => MErr MKeyErr end
             | PkProp p => if existsb (fun x => Nat.eqb p (snd x)) c then MOk p else MErr MUnknown
             | PkOther => MErr MUnknown
             end) with
             | MOk p => resolves bases attrs x p
             | MErr e => (e = MKeyErr \/ e = MUnknown) /\ forall p, ~ resolves bases attrs x p end).
  { destruct x as [n|p|]; simpl.
    - destruct (dget n c) as [p|] eqn:e; [apply hc; now apply dget_in|]. split; auto. intros p i. apply hc in i.
      rewrite (in_dget _ _ _ hn i) in e. discriminate.
    - destruct (existsb _ c) eqn:e.
      + apply existsb_exists in e as [[n q] [i j]]. simpl in j. apply Nat.eqb_eq in j as ->. split; auto.
        exists n. now apply hc.
      + split; auto. intros q [<- [n i]]. rewrite <- not_true_iff_false in e. apply e, existsb_exists. apply hc in i.
        exists (n, p). split; auto. simpl. apply Nat.eqb_refl.
    - auto. }
  destruct (match x with PkName _ => _ | PkProp _ => _ | PkOther => _ end) as [p|e].
  - destruct (coerce_props c pk) as [ps|e].
    + constructor; auto.
    + destruct IH as [a b]. split; auto.
  - destruct K as [a b]. split; auto.
Qed.

(** The state before [coerce_prop_list]. *)
Lemma declare_cases h id bases attrs pk : sane bases attrs ->
  match declare_type h id bases attrs pk with
  | (_, MOk c) => ~ clash bases /\ ~ uses_reserved attrs /\ NoDup (pnames (c_props c)) /\
                  (forall n p, In (n, p) (c_props c) <-> has_prop bases attrs n p) /\
                  Forall2 (resolves bases attrs) pk (c_pk c)
  | (h', MErr e) => (forall p, po_class (h' p) = po_class (h p)) /\
                   ((e = MClash /\ clash bases) \/
                    (~ clash bases /\ e = MReserved /\ uses_reserved attrs) \/
                    (~ clash bases /\ ~ uses_reserved attrs /\ (e = MKeyErr \/ e = MUnknown) /\
                     Exists (fun x => forall p, ~ resolves bases attrs x p) pk))
  end.
Proof.
  intros hs. pose proof hs as [ha hb]. unfold declare_type.
  pose proof (base_props_spec bases hb [] (NoDup_nil _)) as bs.
  destruct (base_props [] bases) as [inh|e].
  - destruct bs as (-> & nd & _ & fp). simpl app in *.
    assert (nc : ~ clash bases).
    { intros x. apply clash_iff in x. rewrite <- shares_pairs in x. apply x, fp. }
    set (s0 := {| l_heap := h; l_props := concat (props_of bases); l_local := []; l_aux := [] |}).
    pose proof (body_loop_err attrs s0) as er. pose proof (body_loop_ok attrs s0) as ok.
    pose proof (fun p => body_loop_class attrs s0 p) as cl.
    assert (hr : (forall n, In n (map fst attrs) -> reserved n = false) <-> ~ uses_reserved attrs).
    { split.
      - intros x (n & v & i & j). apply reserved_iff in j. rewrite x in j; [discriminate|].
        change n with (fst (n, v)). now apply in_map.
      - intros x n i. apply not_true_iff_false. intros j. apply reserved_iff in j. apply in_map_iff in i as [[m v] [<- i]].
        apply x. exists m, v. auto. }
    destruct (body_loop s0 attrs) as [s r] eqn:el. simpl in er, ok, cl. destruct r as [[]|e].
    + assert (hr' : ~ uses_reserved attrs) by (apply hr, ok; reflexivity).
      destruct (body_loop_props _ _ _ ha el) as [b1 b2].
      assert (nd2 : NoDup (pnames (l_props s))) by (apply b2; exact nd).
      pose proof (props_in bases attrs (l_props s) hs nd2 nd b1) as hp.
      pose proof (coerce_props_spec bases attrs (l_props s) pk nd2 hp) as cp.
      destruct (coerce_props (l_props s) pk) as [l|e].
      * cbn [c_props c_pk]. auto.
      * split; [exact cl|]. right; right. destruct cp. auto.
    + split; [exact cl|]. right; left. split; [exact nc|]. destruct er as [er|er]; [|discriminate]. injection er as ->.
      split; auto.
      assert (d : uses_reserved attrs \/ ~ uses_reserved attrs).
      { rewrite <- hr. destruct (existsb reserved (map fst attrs)) eqn:e.
        - left. apply existsb_exists in e as [n [i j]]. apply reserved_iff in j. apply in_map_iff in i as [[m v] [<- i]].
          exists m, v. auto.
        - right. intros n i. apply not_true_iff_false. intros j. rewrite <- not_true_iff_false in e.
          apply e, existsb_exists. exists n. auto. }
      destruct d as [d|d]; auto. pose proof (proj2 ok (proj2 hr d)). discriminate.
  - split; auto. left. destruct bs as [-> [x|x]]; split; auto.
    + exfalso. apply Exists_exists in x as [b [_ [n [[] _]]]].
    + apply shares_pairs, clash_iff in x. exact x.
Qed.

(** ** Theorems *)

(** The properties of the new class: those of its body, and the inherited ones which the
    body does not override; one per name. *)
Theorem C34_properties h id bases attrs pk h' c : sane bases attrs ->
  declare_type h id bases attrs pk = (h', MOk c) ->
  dict (c_props c) /\ forall n p, In (n, p) (c_props c) <-> has_prop bases attrs n p.
Proof. intros hs E. pose proof (declare_cases h id bases attrs pk hs) as C. rewrite E in C. unfold dict. tauto. Qed.

(** Exactly which declarations are accepted. *)
Theorem C34_accepted h id bases attrs pk : sane bases attrs ->
  ((exists h' c, declare_type h id bases attrs pk = (h', MOk c)) <->
   ~ clash bases /\ ~ uses_reserved attrs /\ forall e, In e pk -> exists p, resolves bases attrs e p).
Proof.
  intros hs. pose proof (declare_cases h id bases attrs pk hs) as C.
  destruct (declare_type h id bases attrs pk) as [h' [c|e]]; split.
  - intros _. destruct C as (a & b & _ & _ & f). split; auto. split; auto. clear -f.
    induction f as [|x p l ps r f IH]; intros e; [intros []|]. intros [<-|i]; eauto.
  - intros _. eauto.
  - intros (h2 & c & x). discriminate.
  - intros (a & b & f). exfalso. destruct C as [_ [[_ x]|[(_ & _ & x)|(_ & _ & _ & x)]]]; auto.
    apply Exists_exists in x as [e0 [i no]]. destruct (f e0 i) as [p hp]. exact (no p hp).
Qed.

(** Which error is raised; and a rejected declaration binds no property. *)
Theorem C34_rejected h id bases attrs pk h' e : sane bases attrs ->
  declare_type h id bases attrs pk = (h', MErr e) ->
  (e = MClash <-> clash bases) /\
  (e = MReserved <-> ~ clash bases /\ uses_reserved attrs) /\
  (forall p, po_class (h' p) = po_class (h p)).
Proof.
  intros hs E. pose proof (declare_cases h id bases attrs pk hs) as C. rewrite E in C. destruct C as [cl C].
  destruct C as [[-> x]|[(a & -> & b)|(a & b & [->| ->] & _)]]; (split; [|split; [|exact cl]]);
    split; try tauto; try discriminate.
Qed.

(** The primary key is the listed properties, in the listed order. *)
Theorem C34_primary_key h id bases attrs pk h' c : sane bases attrs ->
  declare_type h id bases attrs pk = (h', MOk c) -> Forall2 (resolves bases attrs) pk (c_pk c).
Proof. intros hs E. pose proof (declare_cases h id bases attrs pk hs) as C. rewrite E in C. tauto. Qed.

(** The eager properties are exactly the required or defaulted ones which are not lazy. *)
Theorem C34_eager h id bases attrs pk h' c : sane bases attrs ->
  declare_type h id bases attrs pk = (h', MOk c) ->
  forall n, In n (c_eager c) <->
    exists p, In (n, p) (c_props c) /\ po_lazy (h p) = false /\ (po_required (h p) = true \/ po_default (h p) = true).
Proof.
  intros [ha hb] E n. destruct (declare_struct _ _ _ _ _ _ _ hb ha E) as (_ & _ & _ & _ & _ & _ & _ & -> & _).
  rewrite in_map_iff. split.
  - intros [[m p] [<- i]]. apply filter_In in i as [i j]. exists p. split; auto. simpl in j.
    destruct (name_all_static (locals h attrs) h p) as (_ & er & ed & el). unfold eager_init in j. rewrite er, ed, el in j.
    destruct (po_lazy (h p)); [discriminate|]. split; auto. now apply orb_true_iff.
  - intros (p & i & l & r). exists (n, p). split; auto. apply filter_In. split; auto. simpl.
    destruct (name_all_static (locals h attrs) h p) as (_ & er & ed & el). unfold eager_init. rewrite er, ed, el, l.
    now apply orb_true_iff.
Qed.

(** [_sorted_properties]: the properties that are not extraneous, each once per name it
    has, in the order of their names. *)
Theorem C34_sorted h id bases attrs pk h' c : sane bases attrs ->
  declare_type h id bases attrs pk = (h', MOk c) ->
  (exists l, Permutation (c_sorted c) (map snd l) /\ NoDup l /\
     forall n p, In (n, p) l <-> In (n, p) (c_props c) /\ po_extraneous (h p) = false) /\
  StronglySorted (fun p q => forall n m, po_name (h' p) = Some n -> po_name (h' q) = Some m -> n = m \/ slt n m) (c_sorted c).
Proof.
  intros [ha hb] E. destruct (declare_struct _ _ _ _ _ _ _ hb ha E) as (_ & _ & _ & nd & _ & eh & es & _ & _).
  assert (x : forall p, po_extraneous (name_all (locals h attrs) h p) = po_extraneous (h p)) by (intros p; apply name_all_static).
  split.
  - exists (filter (fun np => negb (po_extraneous (h (snd np)))) (c_props c)). split; [|split].
    + rewrite es. symmetry. etransitivity; [|apply ssort_perm].
      assert (y : forall l : list (str * nat), map snd (filter (fun np => negb (po_extraneous (h (snd np)))) l) =
        filter (fun p => negb (po_extraneous (name_all (locals h attrs) h p))) (map snd l)).
      { induction l as [|[n p] l IH]; simpl; auto. rewrite x. destruct (po_extraneous (h p)); simpl; now rewrite IH. }
      rewrite y. reflexivity.
    + apply NoDup_filter. exact (NoDup_map_inv _ _ nd).
    + intros n p. rewrite filter_In. simpl. rewrite negb_true_iff. reflexivity.
  - rewrite es. eapply (@StronglySorted_ind _ (name_le (name_all (locals h attrs) h))); [constructor| |apply ssort_sorted].
    intros a l _ IH hf. constructor; auto. eapply Forall_impl; [|exact hf]. intros b le n m en em.
    rewrite eh, bind_all_name in en. rewrite eh, bind_all_name in em. unfold name_le, name_of in le. rewrite en, em in le.
    unfold slt. destruct (str_cmp n m) eqn:e; auto; [left; now apply str_cmp_eq|congruence].
Qed.

(** The fresh properties of the body, if each is used under one name, get that name and
    are bound to the new class; no other property object changes. *)
Theorem C34_bound h id bases attrs pk h' c : sane bases attrs -> fresh_once h attrs ->
  declare_type h id bases attrs pk = (h', MOk c) ->
  (forall n p, In (n, AProp p) attrs -> po_class (h p) = None ->
     po_name (h' p) = Some n /\ po_class (h' p) = Some id) /\
  (forall p, po_class (h p) <> None \/ (forall n, ~ In (n, AProp p) attrs) -> h' p = h p).
Proof.
  intros [ha hb] hf E. destruct (declare_struct _ _ _ _ _ _ _ hb ha E) as (_ & _ & _ & _ & _ & eh & _).
  pose proof (locals_nodup h attrs ha hf) as nd. rewrite eh. split.
  - intros n p i nc. assert (j : In (n, p) (locals h attrs)).
    { apply locals_in. split; auto. unfold bound. now rewrite nc. }
    rewrite bind_all_in; auto; [|change p with (snd (n, p)); now apply in_map]. rewrite (name_all_in _ nd _ n p j). simpl. auto.
  - intros p no. assert (j : ~ In p (map snd (locals h attrs))).
    { intros j. apply in_map_iff in j as [[n q] [<- j]]. apply locals_in in j as [j1 j2]. simpl in no.
      destruct no as [no|no]; [|exact (no n j1)]. unfold bound in j2. destruct (po_class (h q)); [discriminate|congruence]. }
    rewrite bind_all_out, name_all_out; auto.
Qed.

(** Repeated declarations keep this invariant: every property is listed under its own
    name, and is bound. *)
Definition well_named (h : nat -> pobj) (ps : list (str * nat)) : Prop :=
  dict ps /\ forall n p, In (n, p) ps -> po_name (h p) = Some n /\ po_class (h p) <> None.

Theorem C34_invariant h id bases attrs pk h' c : dict attrs ->
  (forall ps, In (Some ps) bases -> well_named h ps) ->
  (forall n p, In (n, AProp p) attrs -> po_class (h p) = None) -> fresh_once h attrs ->
  declare_type h id bases attrs pk = (h', MOk c) ->
  well_named h' (c_props c) /\
  (forall ps, well_named h ps -> well_named h' ps) /\
  StronglySorted (fun p q => exists n m, po_name (h' p) = Some n /\ po_name (h' q) = Some m /\ slt n m) (c_sorted c).
Proof.
  intros ha hb hfr hf E.
  assert (hs : sane bases attrs) by (split; auto; intros ps i; apply (hb ps i)).
  destruct (C34_properties _ _ _ _ _ _ _ hs E) as [nd hp].
  destruct (C34_bound _ _ _ _ _ _ _ hs hf E) as [b1 b2].
  assert (w : well_named h' (c_props c)).
  { split; auto. intros n p i. apply hp in i as [i|[_ (ps & i & j)]].
    - destruct (b1 n p i (hfr n p i)) as [-> ->]. split; congruence.
    - destruct (hb ps i) as [_ q]. destruct (q n p j) as [q1 q2]. rewrite b2; auto. }
  split; auto. split.
  { intros ps [d q]. split; auto. intros n p i. destruct (q n p i) as [q1 q2]. rewrite b2; auto. }
  destruct (C34_sorted _ _ _ _ _ _ _ hs E) as [(l & pm & ndl & il) so].
  assert (nds : NoDup (c_sorted c)).
  { eapply Permutation_NoDup; [symmetry; exact pm|]. apply nodup_fst_snd.
    - assert (k : forall (l : list (str * nat)), NoDup l -> (forall n p q, In (n, p) l -> In (n, q) l -> p = q) -> NoDup (map fst l)).
      { clear. induction l as [|[n p] l IH]; simpl; intros a b; [constructor|]. inversion_clear a as [|? ? a1 a2]. constructor.
        - intros i. apply in_map_iff in i as [[m q] [<- i]]. apply a1. simpl in *. assert (p = q) by (eapply b; eauto). now subst.
        - apply IH; auto. intros m q r i j. eapply b; eauto. }
      apply k; auto. intros n p q i j. apply il in i as [i _]. apply il in j as [j _].
      assert (x : Some p = Some q) by (rewrite <- (in_dget _ _ _ nd i); now apply in_dget). now injection x.
    - intros n m p i j. apply il in i as [i _]. apply il in j as [j _]. destruct w as [_ w]. apply w in i as [i _]. apply w in j as [j _]. congruence. }
  assert (hin : forall p, In p (c_sorted c) -> exists n, In (n, p) (c_props c)).
  { intros p i. eapply Permutation_in in i; [|exact pm]. apply in_map_iff in i as [[n q] [<- i]]. apply il in i as [i _]. eauto. }
  clear pm il ndl. induction so as [|p l' so IH hfa]; [constructor|]. inversion_clear nds as [|? ? n1 n2]. constructor.
  - apply IH; auto. intros q i. apply hin. simpl; auto.
  - rewrite Forall_forall in *. intros q i. destruct (hin p (or_introl eq_refl)) as [n ip]. destruct (hin q (or_intror i)) as [m iq].
    destruct w as [wd w]. destruct (w n p ip) as [e1 _]. destruct (w m q iq) as [e2 _]. exists n, m. split; auto. split; auto.
    destruct (hfa q i n m e1 e2) as [->|]; auto. exfalso. apply n1.
    assert (x : Some p = Some q) by (rewrite <- (in_dget _ _ _ wd ip); now apply in_dget). now injection x as ->.
Qed.

(** The accessor of a property: the given name; else its name with a zero appended,
    unless that ends in a digit. *)
Definition accessor (o : pobj) (n e : str) : Prop :=
  match po_empty o with
  | Some x => x = Some e
  | None => e = n ++ s2l "0" /\ forall m d, n = m ++ [d] -> ~ (48 <= d <= 57)%N
  end.

Lemma accessor_iff o n e : n <> [] -> In e (aux_props (set_name o n)) <-> accessor o n e.
Proof.
  intros hne. unfold aux_props, set_name, accessor. simpl. destruct (po_empty o) as [[x|]|]; simpl.
  - split; [intros [->|[]]; auto|]. intros E; injection E as ->. auto.
  - split; [intros []|discriminate].
  - destruct (exists_last hne) as [m [d ->]]. rewrite last_last. unfold is_digit.
    destruct (N.leb_spec 48 d); destruct (N.leb_spec d 57); simpl.
    + split; [intros []|]. intros [_ k]. destruct (k m d eq_refl). auto.
    + split; [intros [<-|[]]|intros [-> _]]; auto. split; auto. intros m' d' E. apply app_inj_tail in E as [_ <-]. lia.
    + split; [intros [<-|[]]|intros [-> _]]; auto. split; auto. intros m' d' E. apply app_inj_tail in E as [_ <-]. lia.
    + split; [intros [<-|[]]|intros [-> _]]; auto. split; auto. intros m' d' E. apply app_inj_tail in E as [_ <-]. lia.
Qed.

(** The attributes of the new class: each accessor of a fresh property of the body is
    there; everything else is the body's. *)
Theorem C34_accessors h id bases attrs pk h' c : sane bases attrs -> fresh_once h attrs ->
  (forall p, ~ In ([], AProp p) attrs) ->
  declare_type h id bases attrs pk = (h', MOk c) ->
  let acc e n p := In (n, AProp p) attrs /\ po_class (h p) = None /\ accessor (h p) n e in
  dict (c_attrs c) /\
  (forall e n p, acc e n p -> exists m q, acc e m q /\ In (e, AAux q) (c_attrs c)) /\
  (forall e, (forall n p, ~ acc e n p) -> forall v, In (e, v) (c_attrs c) <-> In (e, v) attrs).
Proof.
  intros [ha hb] hf hne E acc. destruct (declare_struct _ _ _ _ _ _ _ hb ha E) as (_ & _ & _ & _ & _ & _ & _ & _ & ea).
  pose proof (locals_nodup h attrs ha hf) as nd. rewrite (aux_steps _ nd) in ea.
  set (A := accs h (locals h attrs)) in *.
  assert (inA : forall e p, In (e, p) A <-> exists n, acc e n p).
  { intros e p. unfold A, accs. rewrite in_flat_map. split.
    - intros [[n q] [i j]]. cbn [fst snd] in j. apply in_map_iff in j as [e' [x j]]. injection x as -> ->. apply locals_in in i as [i1 i2].
      exists n. split; auto. split; [unfold bound in i2; destruct (po_class (h p)); [discriminate|auto]|].
      apply accessor_iff; auto. intros ->. exact (hne p i1).
    - intros [n (i & nc & a)]. exists (n, p). split; [apply locals_in; split; auto; unfold bound; now rewrite nc|].
      cbn [fst snd]. apply in_map_iff. exists e. split; auto. apply accessor_iff; auto. intros ->. exact (hne p i). }
  assert (gA : forall e, dget e (c_attrs c) = match dget e (rev A) with Some p => Some (AAux p) | None => dget e attrs end).
  { intros e. rewrite ea, dget_dupdate.
    assert (nu : NoDup (map fst (dupdate [] A))) by (apply dupdate_nodup; constructor).
    rewrite rev_nodup_dget; [|rewrite map_map; exact nu]. rewrite (dget_map AAux), dget_dupdate.
    destruct (dget e (rev A)); reflexivity. }
  assert (dd : dict (c_attrs c)) by (rewrite ea; apply dupdate_nodup, ha).
  split; auto. split.
  - intros e n p a. specialize (gA e). destruct (dget e (rev A)) as [q|] eqn:g.
    + apply dget_in in g. apply in_rev in g. apply inA in g as [m g]. exists m, q. split; auto. now apply dget_in.
    + apply (dget_rev e A) in g. apply dget_none in g. exfalso. apply g. change e with (fst (e, p)). apply in_map, inA. eauto.
  - intros e no v. specialize (gA e). destruct (dget e (rev A)) as [q|] eqn:g.
    + apply dget_in, in_rev, inA in g as [m g]. destruct (no m q g).
    + split; intros i.
      * apply (in_dget _ _ _ dd) in i. rewrite gA in i. now apply dget_in.
      * apply (in_dget _ _ _ ha) in i. rewrite <- gA in i. now apply dget_in.
Qed.

(** A second declaration with the same property objects finds them bound: it leaves every
    one of them as it is. *)
Theorem C34_redeclared h id bases attrs pk h' c :
  sane bases attrs -> (forall n p, In (n, AProp p) attrs -> po_class (h p) <> None) ->
  declare_type h id bases attrs pk = (h', MOk c) -> forall p, h' p = h p.
Proof.
  intros hs hb E p. apply (C34_bound _ _ _ _ _ _ _ hs) in E.
  - destruct E as [_ E]. destruct (po_class (h p)) eqn:e; [apply E; left; congruence|].
    apply E. right. intros n i. exact (hb n p i e).
  - intros n m q i _ nb. specialize (hb n q i). unfold bound in nb. destruct (po_class (h q)); [discriminate|congruence].
Qed.

(** ** Examples *)
Local Open Scope string_scope.
Local Open Scope list_scope.
Definition obj (req def lz ext : bool) : pobj :=
  {| po_name := None; po_class := None; po_empty := None; po_extraneous := ext;
     po_required := req; po_default := def; po_lazy := lz |}.
Definition ex_heap (p : nat) : pobj :=
  match p with
  | 0 => set_name (bind (obj true false false false) 0) (s2l "id")
  | 1 => set_name (bind (obj false false false false) 0) (s2l "tag")
  | 2 => obj false true false false
  | 3 => obj true true true false
  | 4 => obj false false false true
  | _ => obj false false false false
  end.
Definition ex_base : list (str * nat) := [(s2l "id", 0); (s2l "tag", 1)].
Definition ex_attrs : list (str * attr) :=
  [(s2l "name", AProp 2); (s2l "tag", AProp 3); (s2l "__doc__", AOther); (s2l "x1", AProp 4)].
Definition ex_decl := declare_type ex_heap 1 [None; Some ex_base] ex_attrs [PkName (s2l "id"); PkProp 2].

Ltac nodup := repeat (constructor; [vm_compute; intuition discriminate|]); constructor.
Example ex_sane : sane [None; Some ex_base] ex_attrs.
Proof.
  split; [unfold dict; nodup|]. intros ps [E|[E|[]]]; [discriminate|]. injection E as <-. unfold dict; nodup.
Qed.
Example ex_fresh_once : fresh_once ex_heap ex_attrs.
Proof.
  intros n m p i j _. simpl in i, j.
  repeat match goal with
  | H : _ \/ _ |- _ => destruct H as [H|H]
  | H : (_, _) = (_, _) |- _ => injection H; clear H; intros; subst
  | H : False |- _ => destruct H
  end; congruence.
Qed.
Example ex_declared : match snd ex_decl with
  | MOk c => c_props c = [(s2l "id", 0); (s2l "tag", 3); (s2l "name", 2); (s2l "x1", 4)] /\
             c_pk c = [0; 2] /\ c_sorted c = [0; 2; 3] /\ c_eager c = [s2l "id"; s2l "name"] /\
             c_attrs c = ex_attrs ++ [(s2l "name0", AAux 2); (s2l "tag0", AAux 3)]
  | MErr _ => False
  end.
Proof. vm_compute. repeat split. Qed.
Example ex_named : po_name (fst ex_decl 3) = Some (s2l "tag") /\ po_class (fst ex_decl 3) = Some 1 /\ fst ex_decl 0 = ex_heap 0.
Proof. vm_compute. auto. Qed.
Example ex_well_named : well_named ex_heap ex_base.
Proof.
  split; [unfold dict; nodup|]. intros n p [E|[E|[]]]; injection E as <- <-; simpl; split; auto; discriminate.
Qed.
Example ex_clash : snd (declare_type ex_heap 1 [Some ex_base; Some [(s2l "tag", 5)]] [] []) = MErr MClash.
Proof. reflexivity. Qed.
Example ex_reserved : snd (declare_type ex_heap 1 [] [(s2l "properties", AOther)] []) = MErr MReserved.
Proof. reflexivity. Qed.
Example ex_unknown_name : snd (declare_type ex_heap 1 [Some ex_base] [] [PkName (s2l "nope")]) = MErr MKeyErr.
Proof. reflexivity. Qed.
Example ex_unknown_prop : snd (declare_type ex_heap 1 [Some ex_base] [] [PkName (s2l "id"); PkProp 3]) = MErr MUnknown.
Proof. reflexivity. Qed.
(** hypotheses of [C34_redeclared] *)
Example ex_redeclared : forall n p, In (n, AProp p) [(s2l "again", AProp 0)] -> po_class (ex_heap p) <> None.
Proof. intros n p [E|[]]; injection E as <- <-. discriminate. Qed.

(** ** What does not hold *)

(** Two classes that inherit one and the same property from a common base cannot be
    combined, though there is nothing to disagree about. *)
Theorem C34_diamond_refuted : exists h root left right h1 h2,
  declare_type h 1 [Some root] [] [] = (h1, MOk left) /\
  declare_type h1 2 [Some root] [] [] = (h2, MOk right) /\
  (forall n p q, In (n, p) (c_props left) -> In (n, q) (c_props right) -> p = q) /\
  snd (declare_type h2 3 [Some (c_props left); Some (c_props right)] [] []) = MErr MClash.
Proof.
  exists ex_heap, ex_base. do 4 eexists. split; [reflexivity|]. split; [reflexivity|]. split; [|reflexivity].
  intros n p q [E|[E|[]]] [F|[F|[]]]; injection E as <- <-; injection F; congruence.
Qed.

(** A subclass does not inherit the primary key. *)
Theorem C34_key_inherited_refuted : exists h bases attrs pk h1 c,
  declare_type h 1 bases attrs pk = (h1, MOk c) /\ c_pk c <> [] /\
  exists h2 d, declare_type h1 2 [Some (c_props c)] [] [] = (h2, MOk d) /\ c_props d = c_props c /\ c_pk d = [].
Proof.
  exists ex_heap, [Some ex_base], [], [PkName (s2l "id")]. do 2 eexists. split; [reflexivity|]. split; [discriminate|].
  do 2 eexists. split; [reflexivity|]. split; reflexivity.
Qed.

(** A property may be listed under a name that is not its own: when a bound property is
    used again, or a fresh one under two names. *)
Theorem C34_own_name_refuted :
  (exists h bases attrs h' c n p, sane bases attrs /\ fresh_once h attrs /\
     declare_type h 1 bases attrs [] = (h', MOk c) /\ In (n, p) (c_props c) /\ po_name (h' p) <> Some n) /\
  (exists h bases attrs h' c n p, sane bases attrs /\ (forall n p, In (n, AProp p) attrs -> po_class (h p) = None) /\
     declare_type h 1 bases attrs [] = (h', MOk c) /\ In (n, p) (c_props c) /\ po_name (h' p) <> Some n).
Proof.
  split.
  - exists ex_heap, [], [(s2l "ref", AProp 0)]. do 2 eexists. exists (s2l "ref"), 0. split; [|split; [|split; [reflexivity|]]].
    + split; [unfold dict; nodup|intros ps []].
    + intros n m p [E|[]] [F|[]] _. congruence.
    + split; [simpl; auto|discriminate].
  - exists ex_heap, [], [(s2l "a", AProp 2); (s2l "b", AProp 2)]. do 2 eexists. exists (s2l "a"), 2.
    split; [|split; [|split; [reflexivity|]]].
    + split; [unfold dict; nodup|intros ps []].
    + intros n p [E|[E|[]]]; injection E as <- <-; reflexivity.
    + split; [simpl; auto|discriminate].
Qed.

(** The accessor of one property replaces another property of the body, which stays
    listed among the properties. *)
Theorem C34_accessor_clobbers_refuted : exists h attrs h' c n p q,
  sane [] attrs /\ fresh_once h attrs /\ declare_type h 1 [] attrs [] = (h', MOk c) /\
  In (n, p) (c_props c) /\ In (n, AProp p) attrs /\ In (n, AAux q) (c_attrs c) /\ ~ In (n, AProp p) (c_attrs c).
Proof.
  exists ex_heap, [(s2l "x", AProp 2); (s2l "x0", AProp 3)]. do 2 eexists. exists (s2l "x0"), 3, 2.
  split; [|split; [|split; [reflexivity|]]].
  - split; [unfold dict; nodup|intros ps []].
  - intros n m p i j _. simpl in i, j.
    repeat match goal with
    | H : _ \/ _ |- _ => destruct H as [H|H]
    | H : (_, _) = (_, _) |- _ => injection H; clear H; intros; subst
    | H : False |- _ => destruct H
    end; congruence.
  - cbn [c_props c_attrs]. split; [vm_compute; auto|]. split; [simpl; auto|]. split; [vm_compute; auto|].
    vm_compute. intuition discriminate.
Qed.

(** An attribute of the body that is no property hides an inherited property without
    removing it from [properties]. *)
Theorem C34_hidden_refuted : exists h bases attrs h' c n p,
  sane bases attrs /\ declare_type h 1 bases attrs [] = (h', MOk c) /\
  In (n, AOther) attrs /\ In (n, AOther) (c_attrs c) /\ In (n, p) (c_props c).
Proof.
  exists ex_heap, [Some ex_base], [(s2l "tag", AOther)]. do 2 eexists. exists (s2l "tag"), 1.
  split; [|split; [reflexivity|]].
  - split; [unfold dict; nodup|]. intros ps [E|[]]. injection E as <-. unfold dict; nodup.
  - cbn [c_props c_attrs]. vm_compute. auto.
Qed.

Print Assumptions C34_properties.
Print Assumptions C34_accepted.
Print Assumptions C34_rejected.
Print Assumptions C34_primary_key.
Print Assumptions C34_eager.
Print Assumptions C34_sorted.
Print Assumptions C34_bound.
Print Assumptions C34_invariant.
Print Assumptions C34_accessors.
Print Assumptions C34_redeclared.
Print Assumptions C34_diamond_refuted.
Print Assumptions C34_key_inherited_refuted.
Print Assumptions C34_own_name_refuted.
Print Assumptions C34_accessor_clobbers_refuted.
Print Assumptions C34_hidden_refuted.
