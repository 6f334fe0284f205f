(** C48: structured exceptions carry their message and their data. *)
From Coq Require Import String List NArith Arith Bool Lia.
From Verif Require Import Prelude ExcModel ExcSpec ExcProofs.
Import ListNotations.
Local Open Scope string_scope.
Local Open Scope list_scope.

Section Exc.
Context {val : Type}.
Variable fmt rep str_ : val -> str + ferr val.
Variable attr : val -> str -> val + ferr val.
Variable of_str : str -> val.
Variable repr_args : list val -> str.
Variable repr_names : list str -> str.
(** text is formatted as itself *)
Hypothesis fmt_str : forall s, fmt (of_str s) = inl s.

Notation make := (make val fmt rep str_ attr of_str repr_args repr_names).
Notation reload := (reload val fmt rep str_ attr of_str repr_args repr_names).
Notation Renders := (Renders fmt rep attr).

(** The places whose exception cannot be made, see the refuted statements below. *)
Definition broken_class (n : string) : Prop :=
  n = "NoneMutable" \/ n = "AmbiguousPropertyTraitArg" \/ n = "VisitorUnpackError".

Lemma broken_odd s : ~ broken_class (s_class s) -> odd_line s = false.
Proof.
  intros H. unfold odd_line. apply not_true_is_false. intros T. apply H. unfold broken_class.
  destruct (s_kw s); apply orb_true_iff in T as [T|T]; try apply orb_true_iff in T as [T|T];
    apply String.eqb_eq in T; auto.
Qed.

(** For every class of exc.py with a message and whatever keywords: an instance with text [t] is made
    exactly if [t] is the message with its fields replaced. *)
Theorem C48_text : forall n m args kw t,
  message n = Some m -> NoDup (map fst kw) ->
  (make n args kw = Made val {| x_class := n; x_args := args; x_kw := kw; x_text := t |}
   <-> Renders kw (s2l m) t).
Proof. intros n m args kw t H D. apply text_iff; auto. Qed.

(** Wherever the library raises a structured exception with values which can be printed, it is that
    exception that is raised, its text is the message with the fields replaced, and what was passed
    is in it. *)
Theorem C48_sites : forall s args vs,
  In s sites -> ~ broken_class (s_class s) ->
  Forall2 (fun k v => of_sort fmt rep attr (snd k) v) (s_kw s) vs ->
  exists o m, raised val (make (s_class s) args (keywords s vs)) = inl o
    /\ make (s_class s) args (keywords s vs) = Made val o
    /\ x_class val o = s_class s /\ x_args val o = args /\ x_kw val o = keywords s vs
    /\ message (s_class s) = Some m /\ Renders (keywords s vs) (s2l m) (str_of val o).
Proof.
  intros s args vs Hs Hb Hv.
  destruct (site_makes fmt rep str_ attr of_str repr_args repr_names s args vs Hs
              (broken_odd s Hb) Hv) as (m & t & M & R & E).
  exists {| x_class := s_class s; x_args := args; x_kw := keywords s vs; x_text := t |}, m.
  rewrite E. repeat split; auto.
Qed.

(** Every keyword passed is an attribute of the exception; on Python 3.10 and later not [name] of
    FieldSelectorAttributeError. *)
Theorem C48_attributes : forall new_python s args vs o k v,
  In s sites -> ~ broken_class (s_class s) ->
  new_python = false \/ s_class s <> "FieldSelectorAttributeError" ->
  length (s_kw s) = length vs ->
  make (s_class s) args (keywords s vs) = Made val o ->
  In (k, v) (keywords s vs) -> get_attr val new_python o k = Kw val v.
Proof.
  intros np s args vs o k v Hs Hb Hnp Hl Hm Hi.
  assert (E : x_class val o = s_class s /\ x_kw val o = keywords s vs).
  { unfold ExcModel.make in Hm. cbn [init] in Hm.
    destruct (message (s_class s)) as [m|]; [|discriminate].
    destruct (ExcModel.format _ _ _ _ _ _ _ _ _ _ _) as [t|[w| |e]].
    - injection Hm as <-. auto.
    - exfalso. revert Hm. destruct (message "KeywordExceptionFormatError"); [|discriminate].
      destruct (ExcModel.format _ _ _ _ _ _ _ _ _ _ _) as [?|[| |]]; discriminate.
    - exfalso. revert Hm. destruct (message "PositionalExceptionFormatError"); [|discriminate].
      destruct (ExcModel.format _ _ _ _ _ _ _ _ _ _ _) as [?|[| |]]; discriminate.
    - discriminate. }
  destruct E as [Ec Ek].
  apply (site_attrs fmt rep attr np s vs o k v); auto.
  apply broken_odd; auto.
Qed.

(** A keyword of the message that is not passed: the exception is KeywordExceptionFormatError, which
    names the class, the keyword and what was passed. *)
Theorem C48_missing : forall n m args kw pre ts name path q post,
  message n = Some m -> NoDup (map fst kw) ->
  s2l m = flat_map written (pre ++ Slot name path q :: post) ->
  Forall simple (pre ++ Slot name path q :: post) ->
  Forall2 (becomes fmt rep attr kw) pre ts -> ~ In name (map fst kw) ->
  exists o, make n args kw = Threw val o
    /\ x_class val o = "KeywordExceptionFormatError"
    /\ str_of val o = s2l n ++ s2l " raised without passing " ++ name
                      ++ s2l "; saw only: " ++ repr_names (map fst kw)
    /\ get_attr val true o (s2l "missing") = Kw val (of_str name)
    /\ get_attr val true o (s2l "typename") = Kw val (of_str (s2l n)).
Proof.
  intros n m args kw pre ts name path q post M D E S F Hn.
  exists (complaint of_str repr_names n name (map fst kw)).
  split; [|repeat split; reflexivity].
  apply (make_missing fmt rep str_ attr of_str repr_args repr_names fmt_str n m); auto.
  destruct (message_pieces n m M) as [E' S'].
  pose proof (format_run fmt rep str_ attr of_str repr_args repr_names args kw 0 _ S) as R1.
  pose proof (format_run fmt rep str_ attr of_str repr_args repr_names args kw 0 _ S') as R2.
  rewrite <- R2, <- E', E, R1. apply (run_missing fmt rep str_ attr of_str) with ts; auto.
Qed.

(** Every exception of the library can be caught as NormalizeError; and those the other parts of this
    development mention have the bases assumed there. *)
Definition class_name (e : exn) : option string :=
  match e with
  | TypeErr => Some "TypeError" | ValueErr => Some "ValueError" | KeyErr => Some "KeyError"
  | IndexErr => Some "IndexError" | AttrErr => Some "AttributeError"
  | FSKeyErr => Some "FieldSelectorKeyError" | FSAttrErr => Some "FieldSelectorAttributeError"
  | FSErr => Some "FieldSelectorException" | PropRequired => Some "PropertyRequired"
  | CoerceErr => Some "CoerceError" | ValueCoercionErr => Some "ValueCoercionError"
  | ValueCheckErr => Some "ValueCheckError" | ReadOnlyErr => Some "ReadOnlyAttributeError"
  | PropNotKnown => Some "PropertyNotKnown" | AmbiguousCons => Some "AmbiguousConstruction"
  | CollItemCoerceErr => Some "CollectionItemCoerceError"
  | CollCoerceErr => Some "CollectionCoerceError" | SubtypeCoerceErr => Some "SubtypeCoerceError"
  | SubtypeNoCoerce => Some "SubtypeNoCoerceFunc"
  | AssertErr | RecursionErr | UserErr | OtherErr _ => None
  end.

Theorem C48_families :
  (forall c, In c classes -> subclass (c_name c) "NormalizeError" = true) /\
  (forall e n, class_name e = Some n ->
     is_fs_exc e = subclass n "FieldSelectorException"
     /\ is_attr_err e = subclass n "AttributeError"
     /\ is_key_err e = subclass n "KeyError"
     /\ is_lookup_err e = subclass n "KeyError" || subclass n "IndexError"
     /\ is_coercion_err e = subclass n "CoercionError").
Proof.
  split.
  - assert (H : forallb (fun c => subclass (c_name c) "NormalizeError") classes = true)
      by (vm_compute; reflexivity).
    rewrite forallb_forall in H. auto.
  - intros e n H. destruct e; simpl in H; try discriminate; injection H as <-;
      vm_compute; auto.
Qed.

(** Copying or pickling: what has no field in its message comes back unchanged … *)
Theorem C48_copy : forall n m args kw o,
  message n = Some m -> Forall (fun c => ~ In c (s2l "{}")) (s2l m) ->
  make n args kw = Made val o -> reload o = Made val o.
Proof.
  intros n m args kw o M P Hm.
  assert (R : forall a k, format val fmt rep str_ attr of_str a k 0 None (s2l m) = inl (s2l m)).
  { intros a k. rewrite <- (app_nil_r (s2l m)) at 1. rewrite format_text by auto. simpl.
    rewrite app_nil_r. reflexivity. }
  unfold ExcModel.make in Hm. cbn [init] in Hm. rewrite M, R in Hm. injection Hm as <-.
  unfold ExcModel.reload. cbn [x_class x_args x_kw x_text]. unfold ExcModel.make. cbn [init].
  rewrite M, R. reflexivity.
Qed.

(** … but an exception with a field in its message (raised with keywords, as the library does) is
    lost: what comes out is a complaint about the first field. *)
Theorem C48_copy_lost : forall n m pre name path q post o,
  message n = Some m ->
  s2l m = flat_map written (pre ++ Slot name path q :: post) ->
  Forall simple (pre ++ Slot name path q :: post) ->
  (forall p, In p pre -> exists s, p = Text s) ->
  x_class val o = n -> x_args val o = [] ->
  reload o = Threw val (complaint of_str repr_names n name []).
Proof.
  intros n m pre name path q post o M E S P Ec Ea.
  destruct (message_pieces n m M) as [E' S'].
  assert (R : run fmt rep attr of_str [] (pieces_of n) = inr (FKey (of_str name))).
  { pose proof (format_run fmt rep str_ attr of_str repr_args repr_names [] [] 0 _ S) as R1.
    pose proof (format_run fmt rep str_ attr of_str repr_args repr_names [] [] 0 _ S') as R2.
    rewrite <- R2, <- E', E, R1. apply run_nothing.
    clear - P. induction pre as [|p t IH]; simpl; auto.
    destruct (P p) as (s & ->); [left; auto|]. apply IH. intros x Hx. apply P; right; auto. }
  unfold ExcModel.reload. rewrite Ec, Ea.
  rewrite (make_missing fmt rep str_ attr of_str repr_args repr_names fmt_str n m [] [] name M R).
  reflexivity.
Qed.

(** ** What is not so *)

(** Two places raise a class that exc.py has not: whatever they pass, AttributeError comes out. *)
Theorem C48_undefined_refuted : exists s1 s2, In s1 sites /\ In s2 sites
  /\ (s_file s1, s_line s1) = ("property/__init__.py", 442)
  /\ (s_file s2, s_line s2) = ("property/meta.py", 72)
  /\ forall s vs, s = s1 \/ s = s2 ->
       raised val (make (s_class s) [] (keywords s vs)) = inr AttrErr.
Proof.
  exists {| s_file := "property/__init__.py"; s_line := 442; s_class := "NoneMutable"; s_args := 0;
            s_kw := [("passed", VAny)] |},
         {| s_file := "property/meta.py"; s_line := 72; s_class := "AmbiguousPropertyTraitArg";
            s_args := 0; s_kw := [("trait_arg", VStr); ("could_be", VStr); ("matched_traits", VAny)] |}.
  split; [unfold sites; simpl; tauto|]. split; [unfold sites; simpl; tauto|].
  split; [reflexivity|]. split; [reflexivity|].
  intros s vs [->| ->]; reflexivity.
Qed.

(** visitor.py:233 passes the name of a class where the message wants the class: text has no
    [__name__], so AttributeError comes out instead of VisitorUnpackError, whatever the value. *)
Theorem C48_unpack_refuted :
  (forall s, attr (of_str s) (s2l "__name__") = inr (FOther AttrErr)) ->
  exists s, In s sites /\ (s_file s, s_line s) = ("visitor.py", 233)
    /\ s_class s = "VisitorUnpackError" /\ In ("colltype", VStr) (s_kw s)
    /\ forall passed colltype context,
         of_sort fmt rep attr VAny passed -> of_sort fmt rep attr VVisitor context ->
         raised val (make (s_class s) [] (keywords s [passed; of_str colltype; context])) = inr AttrErr.
Proof.
  intros Hs.
  exists {| s_file := "visitor.py"; s_line := 233; s_class := "VisitorUnpackError"; s_args := 0;
            s_kw := [("passed", VAny); ("colltype", VStr); ("context", VVisitor)] |}.
  split; [unfold sites; simpl; tauto|]. split; [reflexivity|]. split; [reflexivity|].
  split; [simpl; tauto|].
  intros passed colltype context _ (_ & _ & Hc). cbn [s_class].
  inversion Hc as [|? ? (w & t & Ha & Hw) _]; subst.
  set (kw := keywords _ _).
  destruct (message "VisitorUnpackError") as [m|] eqn:M; [|discriminate].
  destruct (message_pieces _ _ M) as [E S].
  assert (R : run fmt rep attr of_str kw (pieces_of "VisitorUnpackError") = inr (FOther AttrErr)).
  { assert (P : pieces_of "VisitorUnpackError"
            = [Text (s2l "Can't unpack collection at "); Slot (s2l "context") [s2l "field_selector"] false;
               Text (s2l "; expected "); Slot (s2l "colltype") [s2l "__name__"] false;
               Text (s2l ", got "); Slot (s2l "passed") [] true; Text []]) by (vm_compute; reflexivity).
    rewrite P.
    assert (S1 : run_slot fmt rep attr of_str kw (s2l "context") [s2l "field_selector"] false = inl t).
    { unfold run_slot. change (kget val (s2l "context") kw) with (Some context).
      cbn [walk]. rewrite Ha. cbn [fbind]. exact Hw. }
    assert (S2 : run_slot fmt rep attr of_str kw (s2l "colltype") [s2l "__name__"] false
                 = inr (FOther AttrErr)).
    { unfold run_slot. change (kget val (s2l "colltype") kw) with (Some (of_str colltype)).
      cbn [walk]. rewrite Hs. reflexivity. }
    cbn [run]. rewrite S1, S2. reflexivity. }
  unfold ExcModel.make. cbn [init]. rewrite M, E, (format_run fmt rep str_ attr of_str repr_args repr_names) by auto. rewrite R. reflexivity.
Qed.

(** coll.py:144 with an [itemtype] that is a tuple of types: AttributeError instead of
    CollectionItemCoerceError. *)
Theorem C48_union_refuted :
  forall union, attr union (s2l "__name__") = inr (FOther AttrErr) ->
  exists s, In s sites /\ (s_file s, s_line s) = ("coll.py", 144)
    /\ s_class s = "CollectionItemCoerceError"
    /\ forall colltype passed e,
         raised val (make (s_class s) [] (keywords s [union; colltype; passed; e])) = inr AttrErr.
Proof.
  intros union Hu.
  exists {| s_file := "coll.py"; s_line := 144; s_class := "CollectionItemCoerceError"; s_args := 0;
            s_kw := [("itemtype", VItem); ("colltype", VType); ("passed", VAny); ("exc", VAny)] |}.
  split; [unfold sites; simpl; tauto|]. split; [reflexivity|]. split; [reflexivity|].
  intros colltype passed e. cbn [s_class].
  set (kw := keywords _ _).
  destruct (message "CollectionItemCoerceError") as [m|] eqn:M; [|discriminate].
  destruct (message_pieces _ _ M) as [E S].
  assert (R : run fmt rep attr of_str kw (pieces_of "CollectionItemCoerceError")
              = inr (FOther AttrErr)).
  { assert (P : exists r, pieces_of "CollectionItemCoerceError"
            = Text (s2l "coerce to ") :: Slot (s2l "itemtype") [s2l "__name__"] false :: r)
      by (eexists; vm_compute; reflexivity).
    destruct P as (r & P). rewrite P.
    assert (S2 : run_slot fmt rep attr of_str kw (s2l "itemtype") [s2l "__name__"] false
                 = inr (FOther AttrErr)).
    { unfold run_slot. change (kget val (s2l "itemtype") kw) with (Some union).
      cbn [walk]. rewrite Hu. reflexivity. }
    cbn [run]. rewrite S2. reflexivity. }
  unfold ExcModel.make. cbn [init]. rewrite M, E, (format_run fmt rep str_ attr of_str repr_args repr_names) by auto. rewrite R. reflexivity.
Qed.

(** The exceptions of FieldSelector.put and post (selector.py:202-236, 290) are given their text as
    an argument: it is in [args], but not in the text of the exception. *)
Theorem C48_text_lost_refuted : exists s, In s sites
  /\ (s_file s, s_line s) = ("selector.py", 202) /\ s_args s = 1
  /\ forall said, exists o, make (s_class s) [said] [] = Made val o
       /\ str_of val o = s2l "(uncustomized exception!)" /\ get_item val o 0 = Some said.
Proof.
  exists {| s_file := "selector.py"; s_line := 202; s_class := "FieldSelectorException"; s_args := 1;
            s_kw := [] |}.
  split; [unfold sites; simpl; tauto|]. split; [reflexivity|]. split; [reflexivity|].
  intros said. eexists. split; [vm_compute; reflexivity|]. split; reflexivity.
Qed.

(** [e.name] of a FieldSelectorAttributeError (selector.py:167, 344) is, from Python 3.10, the member of
    AttributeError. *)
Theorem C48_name_refuted : exists s, In s sites /\ s_class s = "FieldSelectorAttributeError"
  /\ forall v o, make (s_class s) [] (keywords s [v]) = Made val o ->
       In (s2l "name", v) (x_kw val o) /\ get_attr val true o (s2l "name") = Inherited val.
Proof.
  exists {| s_file := "selector.py"; s_line := 167; s_class := "FieldSelectorAttributeError";
            s_args := 0; s_kw := [("name", VAny)] |}.
  split; [unfold sites; simpl; tauto|]. split; [reflexivity|].
  intros v o. cbn [s_class]. set (kw := keywords _ _). unfold ExcModel.make. cbn [init].
  destruct (message "FieldSelectorAttributeError"); [|discriminate].
  destruct (ExcModel.format _ _ _ _ _ _ _ _ _ _ _) as [t|[w| |e]].
  - intros H. injection H as <-. split; [left; reflexivity|reflexivity].
  - destruct (message "KeywordExceptionFormatError"); [|discriminate].
    destruct (ExcModel.format _ _ _ _ _ _ _ _ _ _ _) as [?|[| |]]; discriminate.
  - destruct (message "PositionalExceptionFormatError"); [|discriminate].
    destruct (ExcModel.format _ _ _ _ _ _ _ _ _ _ _) as [?|[| |]]; discriminate.
  - discriminate.
Qed.
End Exc.

(** Copies of exceptions are lost: PropertyNotKnown (record/__init__.py:57). *)
Theorem C48_copy_refuted : exists (val : Type) fmt rep str_ attr of_str repr_args repr_names o o',
  (forall s, fmt (of_str s) = inl s) /\
  ExcModel.make val fmt rep str_ attr of_str repr_args repr_names "PropertyNotKnown" []
     [(s2l "propname", of_str (s2l "x")); (s2l "recordtype", of_str (s2l "T"));
      (s2l "typename", of_str (s2l "T"))] = Made val o
  /\ str_of val o = s2l "unknown property x in T"
  /\ ExcModel.reload val fmt rep str_ attr of_str repr_args repr_names o = Threw val o'
  /\ str_of val o' = s2l "PropertyNotKnown raised without passing propname; saw only: []".
Proof.
  exists (list N), inl, inl, inl, (fun _ _ => inr (FOther AttrErr)), (fun s => s), (fun _ => s2l "()"),
         (fun l => match l with [] => s2l "[]" | _ => s2l "[...]" end).
  eexists _, _. split; [reflexivity|]. split; [vm_compute; reflexivity|]. split; [vm_compute; reflexivity|].
  split; vm_compute; reflexivity.
Qed.

(** ** A concrete world: a value is its text and its attributes. *)
Module Cases.
Definition v := (list N * list (list N * list N))%type.
Definition fmt (x : v) : list N + ferr v := inl (fst x).
Definition rep (x : v) : list N + ferr v := inl (s2l "'" ++ fst x ++ s2l "'").
Definition attr (x : v) (a : list N) : v + ferr v :=
  match find (fun e => str_eqb (fst e) a) (snd x) with
  | Some e => inl (snd e, [])
  | None => inr (FOther AttrErr)
  end.
Definition of_str (s : list N) : v := (s, []).
Definition mk := ExcModel.make v fmt rep rep attr of_str (fun _ => s2l "(...)") (fun l => concat l).
Definition a_prop : v := (s2l "<SafeProperty T.n>", [(s2l "name", s2l "n"); (s2l "fullname", s2l "T.n")]).
Definition site_242 : site :=
  {| s_file := "property/__init__.py"; s_line := 242; s_class := "ValueCheckError"; s_args := 0;
     s_kw := [("prop", VProp); ("passed", VAny)] |}.

Example C48_text_case : exists t,
  message "ValueCheckError" = Some "value {passed!r} failed value check for {prop.fullname}"
  /\ t = s2l "value 'x' failed value check for T.n"
  /\ mk "ValueCheckError" [] (keywords site_242 [a_prop; of_str (s2l "x")])
     = Made v {| x_class := "ValueCheckError"; x_args := [];
                 x_kw := keywords site_242 [a_prop; of_str (s2l "x")]; x_text := t |}
  /\ Renders fmt rep attr (keywords site_242 [a_prop; of_str (s2l "x")])
       (s2l "value {passed!r} failed value check for {prop.fullname}") t.
Proof.
  eexists. split; [reflexivity|]. split; [reflexivity|]. split; [vm_compute; reflexivity|].
  apply (C48_text fmt rep rep attr of_str (fun _ => s2l "(...)") (fun l => concat l)
           "ValueCheckError" _ []).
  - reflexivity.
  - simpl. repeat (apply NoDup_cons; [simpl; intuition discriminate|]). apply NoDup_nil.
  - vm_compute. reflexivity.
Qed.

Example C48_sites_case :
  In site_242 sites /\ ~ broken_class (s_class site_242)
  /\ Forall2 (fun k x => of_sort fmt rep attr (snd k) x) (s_kw site_242) [a_prop; of_str (s2l "x")].
Proof.
  split; [unfold sites; simpl; tauto|]. split.
  - intros [H|[H|H]]; discriminate H.
  - repeat apply Forall2_cons; [| |apply Forall2_nil].
    + split; [eexists; reflexivity|]. split; [eexists; reflexivity|].
      repeat (apply Forall_cons; [eexists _, _; split; reflexivity|]). apply Forall_nil.
    + split; [eexists; reflexivity|]. split; [eexists; reflexivity|]. apply Forall_nil.
Qed.

Example C48_attributes_case : exists o,
  mk "ValueCheckError" [] (keywords site_242 [a_prop; of_str (s2l "x")]) = Made v o
  /\ In (s2l "prop", a_prop) (keywords site_242 [a_prop; of_str (s2l "x")])
  /\ get_attr v true o (s2l "prop") = Kw v a_prop /\ get_attr v true o (s2l "other") = NoAttr v.
Proof. eexists. split; [vm_compute; reflexivity|]. split; [left; reflexivity|]. split; reflexivity. Qed.

Example C48_missing_case : exists o,
  mk "ValueCheckError" [] [(s2l "passed", of_str (s2l "x"))] = Threw v o
  /\ str_of v o = s2l "ValueCheckError raised without passing prop; saw only: passed"
  /\ s2l "value {passed!r} failed value check for {prop.fullname}"
     = flat_map written ([Text (s2l "value "); Slot (s2l "passed") [] true;
                          Text (s2l " failed value check for ")]
                         ++ Slot (s2l "prop") [s2l "fullname"] false :: [])
  /\ ~ In (s2l "prop") [s2l "passed"].
Proof.
  eexists. split; [vm_compute; reflexivity|]. split; [vm_compute; reflexivity|].
  split; [vm_compute; reflexivity|]. simpl. intuition discriminate.
Qed.

Example C48_families_case :
  subclass "FieldSelectorKeyError" "KeyError" = true
  /\ subclass "FieldSelectorKeyError" "AttributeError" = false
  /\ length classes = 74 /\ length sites = 75.
Proof. vm_compute. auto. Qed.

Example C48_copy_case : exists o m,
  mk "LazyIsFalse" [] [] = Made v o /\ message "LazyIsFalse" = Some m
  /\ Forall (fun c => ~ In c (s2l "{}")) (s2l m)
  /\ ExcModel.reload v fmt rep rep attr of_str (fun _ => s2l "(...)") (fun l => concat l) o = Made v o.
Proof.
  eexists _, _. split; [vm_compute; reflexivity|]. split; [reflexivity|].
  split; [|vm_compute; reflexivity].
  apply charsb. vm_compute. reflexivity.
Qed.

Example C48_copy_lost_case :
  message "ReadOnlyAttributeError" = Some "{attrname} is read-only"
  /\ s2l "{attrname} is read-only"
     = flat_map written ([] ++ Slot (s2l "attrname") [] false :: [Text (s2l " is read-only")])
  /\ exists o, mk "ReadOnlyAttributeError" [] [(s2l "attrname", of_str (s2l "T.n"))] = Made v o
       /\ x_args v o = [] /\ str_of v o = s2l "T.n is read-only".
Proof.
  split; [reflexivity|]. split; [reflexivity|]. eexists. split; [vm_compute; reflexivity|].
  split; reflexivity.
Qed.

(** The hypotheses of the refuted statements: text without [__name__], a visitor, a union. *)
Example C48_unpack_case :
  (forall s, attr (of_str s) (s2l "__name__") = inr (FOther AttrErr))
  /\ of_sort fmt rep attr VVisitor (s2l "visitor", [(s2l "field_selector", s2l ".items")])
  /\ attr (s2l "(int, str)", []) (s2l "__name__") = inr (FOther AttrErr).
Proof.
  split; [reflexivity|]. split; [|reflexivity].
  split; [eexists; reflexivity|]. split; [eexists; reflexivity|].
  repeat (apply Forall_cons; [eexists _, _; split; reflexivity|]). apply Forall_nil.
Qed.
End Cases.

Print Assumptions C48_text.
Print Assumptions C48_sites.
Print Assumptions C48_attributes.
Print Assumptions C48_missing.
Print Assumptions C48_families.
Print Assumptions C48_copy.
Print Assumptions C48_copy_lost.
Print Assumptions C48_undefined_refuted.
Print Assumptions C48_unpack_refuted.
Print Assumptions C48_union_refuted.
Print Assumptions C48_text_lost_refuted.
Print Assumptions C48_name_refuted.
Print Assumptions C48_copy_refuted.
