(** C86: [repr] of a structured exception is Python source for it, except that tuples among its arguments are lost. *)
From Coq Require Import String List NArith ZArith Arith Bool Lia.
From Verif Require Import Prelude SelPathModel GenModel PickleModel AutoModel JsonModel JsonSpec ReprModel ReprSpec ReprText ReprParse ReprProofs ReprProps ExcModel ExcReprModel ExcReprSpec ExcReprProofs.
Import ListNotations.
Local Open Scope string_scope.
Local Open Scope list_scope.

(** The text of a [tellable] exception is a call of its class with its arguments: which are positional, their order, the names of
    the others and all values can be read from it, and whether the class is of a module of exceptions. *)
Theorem C86_round_trip : forall W printable cname num_text opaque_text num_value parse by_key scope (finite : nat -> Prop),
  (forall n, finite n -> num_value (num_text n) = Some n /\ float_text (num_text n)) ->
  forall e, tellable W cname scope finite e ->
  exists s, exc_repr W printable cname num_text opaque_text e = Ok s /\
    forall fuel, read_exc W num_value parse by_key fuel scope s = Val e.
Proof.
  intros W printable cname num_text opaque_text num_value parse by_key scope finite floats e H.
  destruct (told W printable cname num_text opaque_text num_value parse by_key 0 scope finite floats e H) as (s & E & _).
  exists s. split; [exact E|]. intros fuel.
  destruct (told W printable cname num_text opaque_text num_value parse by_key fuel scope finite floats e H) as (s' & E' & V).
  rewrite E in E'. injection E' as <-. exact V.
Qed.

(** Different exceptions have different texts. *)
Theorem C86_injective : forall W printable cname num_text opaque_text num_value scope (finite : nat -> Prop),
  (forall n, finite n -> num_value (num_text n) = Some n /\ float_text (num_text n)) ->
  forall e e', tellable W cname scope finite e -> tellable W cname scope finite e' ->
  exc_repr W printable cname num_text opaque_text e = exc_repr W printable cname num_text opaque_text e' -> e = e'.
Proof.
  intros W printable cname num_text opaque_text num_value scope finite floats e e' H H' E.
  set (pr := fun _ : str => Err TypeErr : res pyv). set (bk := fun l : list (str * pyv) => l).
  destruct (told W printable cname num_text opaque_text num_value pr bk 0 scope finite floats e H) as (s & Ev & Vv).
  destruct (told W printable cname num_text opaque_text num_value pr bk 0 scope finite floats e' H') as (s' & Ew & Vw).
  rewrite Ev, Ew in E. injection E as ->. congruence.
Qed.

(** The classes of exc.py have names which can be called. *)
Theorem C86_classes : forall c, In c classes -> identifier (s2l (c_name c)).
Proof.
  assert (L : forall n : str, (match n with [] => false | d :: r => is_alpha d && forallb is_alnum r end) = true -> identifier n).
  { intros n H. destruct n as [|d r]; [discriminate|]. apply andb_true_iff in H as [H1 H2]. split; [now apply alpha_letter|].
    rewrite forallb_forall in H2. apply Forall_forall. intros x Ix. apply H2 in Ix.
    unfold is_alnum in Ix. apply orb_true_iff in Ix as [Ix|Ix]; [left; now apply alpha_letter|right]. apply dig_cases in Ix. lia. }
  intros c I. apply L. revert c I. apply forallb_forall. vm_compute. reflexivity.
Qed.

(** ** Where it fails *)

(** A positional argument which is a tuple, not of one element: [repr] of the exception raises. *)
Theorem C86_tuple_fails : forall W printable cname num_text opaque_text e l,
  In (PTuple l) (e_args e) -> List.length l <> 1 ->
  forall s, exc_repr W printable cname num_text opaque_text e <> Ok s.
Proof.
  intros W printable cname num_text opaque_text e l I L s H. unfold exc_repr in H.
  destruct (mapm _ (e_args e)) as [ps|] eqn:E; [|discriminate H]. revert E. eapply mapm_fails; [exact I|].
  intros y. destruct l as [|a [|b l]]; cbn in *; congruence.
Qed.

(** So it does if one of the values can not be printed. *)
Theorem C86_value_fails : forall W printable cname num_text opaque_text e x,
  In x (e_args e) \/ (exists k, In (k, x) (e_kwargs e)) ->
  (forall s, repr W printable cname num_text opaque_text x <> Ok s) ->
  ~ tuple x \/ (exists k, In (k, x) (e_kwargs e)) ->
  forall s, exc_repr W printable cname num_text opaque_text e <> Ok s.
Proof.
  intros W printable cname num_text opaque_text e x I F T s H. unfold exc_repr in H.
  destruct (mapm (percent_r _ _ _ _ _) (e_args e)) as [ps|] eqn:E; [|discriminate H]. cbn [bind] in H.
  destruct (mapm _ (e_kwargs e)) as [ks|] eqn:E2; [|discriminate H].
  assert (K : ~ (exists k, In (k, x) (e_kwargs e))).
  { intros [k Ik]. revert E2. eapply mapm_fails; [exact Ik|]. intros y. cbn [fst snd].
    destruct (repr _ _ _ _ _ x) as [t|] eqn:R; [exfalso; eapply F; eauto|discriminate]. }
  destruct I as [I|I]; [|auto]. destruct T as [T|T]; [|auto].
  revert E. eapply mapm_fails; [exact I|]. intros y. rewrite percent_r_other by auto. apply F.
Qed.

Definition ex_exc_repr := exc_repr ex_world (fun _ => true) ex_name no_num no_num.
Definition ex_read_exc (fuel : nat) := read_exc ex_world no_value no_parse same fuel ex_scope.

(** A tuple of one element is printed as its element: two exceptions with one text. *)
Theorem C86_tuple_refuted : exists e e' s, e <> e' /\ ex_exc_repr e = Ok s /\ ex_exc_repr e' = Ok s /\
  (forall fuel, ex_read_exc fuel s = Val e') /\
  (forall x, In x (e_args e) -> exists y, x = PTuple [y] /\ In y (e_args e')).
Proof.
  exists (Exn true (s2l "UsageException") [PTuple [PInt 3]] []), (Exn true (s2l "UsageException") [PInt 3] []), (s2l "exc.UsageException(3)").
  split; [discriminate|]. split; [vm_compute; reflexivity|]. split; [vm_compute; reflexivity|]. split; [intros fuel; vm_compute; reflexivity|].
  intros x [<-|[]]. exists (PInt 3). cbn. auto.
Qed.

(** A keyword argument may be called anything, if it is passed with [**]: then the text is not one of a call with that argument. *)
Theorem C86_keyword_refuted : exists e e' s, e <> e' /\ ex_exc_repr e = Ok s /\ ex_exc_repr e' = Ok s /\
  (forall fuel, ex_read_exc fuel s = Val e') /\ e_args e = e_args e' /\ NoDup (map fst (e_kwargs e)).
Proof.
  exists (Exn true (s2l "UsageException") [] [(s2l "a=1, b", PInt 2)]), (Exn true (s2l "UsageException") [] [(s2l "a", PInt 1); (s2l "b", PInt 2)]), (s2l "exc.UsageException(a=1, b=2)").
  split; [discriminate|]. split; [vm_compute; reflexivity|]. split; [vm_compute; reflexivity|]. split; [intros fuel; vm_compute; reflexivity|].
  split; [reflexivity|]. cbn. repeat constructor. auto.
Qed.

(** ** Examples *)
Definition ex_exc : pyexc :=
  Exn true (s2l "UsageException") [PBool true; PStr (s2l "it's"); bob; PList [PTuple [PInt 1; PInt 2]]; PNone]
    [(s2l "value", PTuple [PInt 3]); (s2l "typename", bob); (s2l "exc", PDict [])].
Definition ex_mine : pyexc := Exn false (s2l "exc") [] [(s2l "func", PStr (s2l "f"))].
Example C86_ex :
  tellable ex_world ex_name ex_scope (fun _ => False) ex_exc /\ tellable ex_world ex_name ex_scope (fun _ => False) ex_mine /\
  ex_exc_repr ex_exc = Ok (s2l "exc.UsageException(True, ""it's"", Person(name='Bob'), [(1, 2)], None, value=(3,), typename=Person(name='Bob'), exc={})") /\
  ex_exc_repr ex_mine = Ok (s2l "exc(func='f')").
Proof.
  assert (B : rebuildable ex_world ex_name ex_scope (fun _ => False) bob).
  { apply rb_record; [left; reflexivity|apply ex_usable; cbn; auto| |].
    - split; [vm_compute; auto|]. split.
      + cbn. intros p x [<-|[<-|[]]]; vm_compute; [|discriminate]. intros H. injection H as <-.
        repeat split; intuition discriminate.
      + cbn. intros p [<-|[<-|[]]]; vm_compute; [discriminate|]. intuition discriminate.
    - intros n x [E|[]]. injection E as <- <-. apply rb_str. repeat constructor. }
  assert (I : forall n : str, (match n with [] => false | d :: r => is_alpha d && forallb is_alpha r end) = true -> identifier n).
  { intros n H. destruct n as [|d r]; [discriminate|]. apply andb_true_iff in H as [H1 H2]. split; [now apply alpha_letter|].
    rewrite forallb_forall in H2. apply Forall_forall. intros x Ix. left. apply alpha_letter. auto. }
  assert (T : forall x, (match x with PTuple _ => false | _ => true end) = true -> ~ tuple x) by (intros x H [l ->]; discriminate).
  split; [|split; [|split; vm_compute; reflexivity]].
  - split; [apply I; reflexivity|]. split; [|split].
    + cbn. intros x H. repeat (destruct H as [<-|H]; [split; [|apply T; reflexivity]|]); [apply rb_bool|apply rb_str; repeat constructor|exact B| |apply rb_none|destruct H].
      apply rb_list. intros x [<-|[]]. apply rb_tuple. intros x [<-|[<-|[]]]; apply rb_int.
    + cbn. intros k x [E|[E|[E|[]]]]; injection E as <- <-; (split; [apply I; reflexivity|]); [|exact B|].
      * apply rb_tuple. intros x [<-|[]]. apply rb_int.
      * apply rb_dict; [constructor| |]; intros k x [].
    + cbn. repeat (apply NoDup_cons; [cbn; intuition discriminate|]). apply NoDup_nil.
  - split; [apply I; reflexivity|]. split; [intros x []|]. split.
    + cbn. intros k x [E|[]]; injection E as <- <-. split; [apply I; reflexivity|]. apply rb_str. repeat constructor.
    + cbn. repeat constructor. auto.
Qed.
Example C86_ex_fails : In (PTuple [PInt 1; PInt 2]) (e_args (Exn true (s2l "UsageException") [PTuple [PInt 1; PInt 2]] [])) /\
  ex_exc_repr (Exn true (s2l "UsageException") [PTuple [PInt 1; PInt 2]] []) = Err TypeErr /\
  ex_exc_repr (Exn true (s2l "UsageException") [] [(s2l "passed", PTuple [PInt 1; PInt 2])]) = Ok (s2l "exc.UsageException(passed=(1, 2))").
Proof. cbn [In e_args]. split; [auto|]. split; vm_compute; reflexivity. Qed.
(** A value which can not be printed: a JsonRecordDict (C50) *)
Example C86_ex_value : forall s, ex_repr (PObj 2 [(s2l "_values", PDict [])]) <> Ok s.
Proof. intros s. vm_compute. discriminate. Qed.

Print Assumptions C86_round_trip.
Print Assumptions C86_injective.
Print Assumptions C86_classes.
Print Assumptions C86_tuple_fails.
Print Assumptions C86_value_fails.
Print Assumptions C86_tuple_refuted.
Print Assumptions C86_keyword_refuted.
