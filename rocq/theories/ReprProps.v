(** C50: [repr] of a record is Python source for it. *)
From Coq Require Import String List NArith ZArith Arith Bool Lia.
From Verif Require Import Prelude SelPathModel GenModel PickleModel AutoModel JsonModel JsonSpec
  JsonProofs ReprModel ReprSpec ReprText ReprParse ReprProofs.
Import ListNotations.
Local Open Scope string_scope.
Local Open Scope list_scope.

(** ** C50 *)

(** The text of a value is an expression of that value, for all values that are [rebuildable] (ReprSpec):
    records, list and dict collections and JSON lists of them, nested in each other and in lists, tuples
    and dicts.  [floats]: what Python promises of floats. *)
Theorem C50_round_trip : forall W printable cname num_text opaque_text num_value parse by_key scope (finite : nat -> Prop),
  (forall n, finite n -> num_value (num_text n) = Some n /\ float_text (num_text n)) ->
  forall v, rebuildable W cname scope finite v ->
  exists s, repr W printable cname num_text opaque_text v = Ok s /\
    forall fuel, eval_source W num_value parse by_key fuel scope s = Val v.
Proof.
  intros W printable cname num_text opaque_text num_value parse by_key scope finite floats v H.
  destruct (round_trip_text W printable cname num_text opaque_text num_value parse by_key 0 scope finite floats v H)
    as (s & E & _).
  exists s. split; [exact E|]. intros fuel.
  destruct (round_trip_text W printable cname num_text opaque_text num_value parse by_key fuel scope finite floats v H)
    as (s' & E' & V). rewrite E in E'. injection E' as <-. exact V.
Qed.

(** Different values have different texts. *)
Theorem C50_injective : forall W printable cname num_text opaque_text num_value scope (finite : nat -> Prop),
  (forall n, finite n -> num_value (num_text n) = Some n /\ float_text (num_text n)) ->
  forall v w, rebuildable W cname scope finite v -> rebuildable W cname scope finite w ->
  repr W printable cname num_text opaque_text v = repr W printable cname num_text opaque_text w -> v = w.
Proof.
  intros W printable cname num_text opaque_text num_value scope finite floats v w Hv Hw E.
  set (pr := fun _ : str => Err TypeErr : res pyv). set (bk := fun l : list (str * pyv) => l).
  destruct (round_trip_text W printable cname num_text opaque_text num_value pr bk 0 scope finite floats v Hv)
    as (s & Ev & Vv).
  destruct (round_trip_text W printable cname num_text opaque_text num_value pr bk 0 scope finite floats w Hw)
    as (s' & Ew & Vw).
  rewrite Ev, Ew in E. injection E as ->. congruence.
Qed.

(** Text literals: all of Unicode (lone surrogates too), whichever characters count as printable. *)
Theorem C50_text : forall printable num_value s, unicode s ->
  parse_source num_value (str_repr printable s) = Some (AStr s).
Proof.
  intros printable num_value s H. unfold parse_source.
  pose proof (str_read printable num_value s [] (2 * List.length (str_repr printable s) + 2) H ltac:(lia)) as E.
  rewrite app_nil_r in E. now rewrite E.
Qed.

(** Two properties never change places, and no value is left out: the text is the class name and, by
    name, the text of each property that is set. *)
Theorem C50_record_text : forall W printable cname num_text opaque_text c sl s,
  w_kind W c = KRecord \/ w_kind W c = KJson ->
  repr W printable cname num_text opaque_text (PObj c sl) = Ok s ->
  exists ns, s = cname c ++ s2l "(" ++ join ns ++ s2l ")" /\
    forall p x, In p (w_props W c) -> slot sl (q_name p) = Some x ->
    exists t, repr W printable cname num_text opaque_text x = Ok t /\ In (q_name p ++ s2l "=" ++ t) ns.
Proof.
  intros W printable cname num_text opaque_text c sl s K H.
  cbn [repr] in H.
  assert (R : record_repr W cname c (map (fun kv => (fst kv, repr W printable cname num_text opaque_text (snd kv))) sl) = Ok s)
    by (destruct K as [K|K]; rewrite K in H; exact H).
  clear H. unfold record_repr in R.
  match type of R with bind ?m _ = _ => destruct m as [vs|e] eqn:M; [|discriminate] end.
  cbn [bind] in R. injection R as <-. exists (concat vs). split; [reflexivity|].
  intros p x Ip Hx.
  assert (In (q_name p) (sort_names (map q_name (w_props W c)))) as Hn.
  { apply (Permutation.Permutation_in _ (Permutation.Permutation_sym (sort_perm _))). now apply in_map. }
  revert vs M Hn. generalize (sort_names (map q_name (w_props W c))) as l.
  induction l as [|n l IH]; intros vs M Hn; [destruct Hn|].
  cbn [mapm] in M.
  match type of M with bind ?m _ = _ => destruct m as [a|e] eqn:A; [|discriminate] end. cbn [bind] in M.
  destruct (mapm _ l) as [b|e] eqn:B; [|discriminate]. cbn [bind] in M. injection M as <-.
  destruct Hn as [->|Hn].
  - clear B IH. pose proof (find_name_mapped (fun _ => repr W printable cname num_text opaque_text) (q_name p) sl) as F.
    cbv beta in F. rewrite F in A. unfold slot in Hx. rewrite Hx in A. cbn [option_map] in A.
    destruct (repr W printable cname num_text opaque_text x) as [t|e]; [|discriminate]. cbn [bind] in A.
    injection A as <-. exists t. split; [reflexivity|]. cbn [concat app]. left. reflexivity.
  - destruct (IH b eq_refl Hn) as (t & E & I). exists t. split; [exact E|]. cbn [concat]. apply in_or_app. now right.
Qed.

(** ** Where it fails *)

(** [repr] of a JsonRecordDict always raises (json.py:499-501 names the wrong class). *)
Theorem C50_jsondict_refuted : forall W printable cname num_text opaque_text c sl,
  w_kind W c = KJsonDict ->
  repr W printable cname num_text opaque_text (PObj c sl) = Err TypeErr
  /\ forall c' sl' p, In p (w_props W c') -> slot sl' (q_name p) = Some (PObj c sl) ->
     w_kind W c' = KRecord \/ w_kind W c' = KJson ->
     forall s, repr W printable cname num_text opaque_text (PObj c' sl') <> Ok s.
Proof.
  intros W printable cname num_text opaque_text c sl K.
  assert (E : repr W printable cname num_text opaque_text (PObj c sl) = Err TypeErr)
    by (cbn [repr]; now rewrite K).
  split; [exact E|]. intros c' sl' p Ip Hs K' s H.
  destruct (C50_record_text _ _ _ _ _ _ _ _ K' H) as (ns & _ & G).
  destruct (G p _ Ip Hs) as (t & T & _). congruence.
Qed.

(** *** Classes for the rest *)
Definition is_int (v : pyv) : bool := match v with PInt _ => true | _ => false end.
Definition is_str (v : pyv) : bool := match v with PStr _ => true | _ => false end.
Definition to_int (v : pyv) : out pyv :=
  match v with
  | PStr s => Val (PInt (Z.of_N (int_of (fun _ => None) s 0)))
  | _ => Exc [] ValueErr
  end.
Definition plain (n : string) (t : vtype) (d : option (res pyv)) (req : bool) : prop :=
  {| q_name := s2l n; q_json := true; q_jname := None; q_in := None; q_out := None; q_type := t;
     q_check := fun _ => true; q_required := req; q_default := d; q_extraneous := false |}.
(** Person, People, Index, Names, Job, Odd *)
Definition ex_world : world := {|
  w_kind := fun c => match c with 1 => KList | 2 => KJsonDict | 3 => KDict | 4 => KJsonList | 6 => KJson | _ => KRecord end;
  w_props := fun c => match c with
    | 0 => [plain "name" (TPrim is_str (fun _ => Exc [] ValueErr)) None true;
            plain "age" (TPrim is_int to_int) None false]
    | 1 => [plain "title" TAny None false]
    | 4 => [plain "tag" TAny None false]
    | 5 => [plain "salary" (TPrim is_int to_int) (Some (Ok (PInt 100))) false]
    | 6 => [plain "json_data" TAny None false]
    | _ => [] end;
  w_item := fun c => match c with 1 | 4 => TCls 0 None | _ => TPrim is_int to_int end;
  w_sub := fun a b => Nat.eqb a b |}.
Definition ex_name (c : nat) : str :=
  s2l match c with 0 => "Person" | 1 => "People" | 2 => "Index" | 3 => "Names" | 4 => "Staff" | 5 => "Job" | _ => "Odd" end.
Definition ex_scope (n : str) : option nat :=
  find (fun c => str_eqb n (ex_name c)) [0; 1; 2; 3; 4; 5; 6].
Definition no_num (_ : nat) : str := [].
Definition no_value (_ : str) : option nat := None.
Definition no_parse (_ : str) : res pyv := Err (OtherErr 1).
Definition same (l : list (str * pyv)) := l.
Definition ex_repr := repr ex_world (fun _ => true) ex_name no_num no_num.
Definition ex_eval (fuel : nat) := eval_source ex_world no_value no_parse same fuel ex_scope.

(** A plain Property holds what is assigned, whatever its type: the text is then coerced when it is read,
    and another object comes out. *)
Theorem C50_unsafe_refuted : exists v s w,
  ex_repr v = Ok s /\ (forall fuel, ex_eval fuel s = Val w) /\ w <> v.
Proof.
  exists (PObj 0 [(s2l "name", PStr (s2l "Ann")); (s2l "age", PStr (s2l "5"))]).
  exists (s2l "Person(age='5', name='Ann')").
  exists (PObj 0 [(s2l "name", PStr (s2l "Ann")); (s2l "age", PInt 5)]).
  split; [vm_compute; reflexivity|]. split; [|discriminate]. intros fuel. vm_compute. reflexivity.
Qed.

(** A default that was deleted comes back. *)
Theorem C50_deleted_refuted : exists v s w,
  ex_repr v = Ok s /\ (forall fuel, ex_eval fuel s = Val w) /\ w <> v.
Proof.
  exists (PObj 5 []), (s2l "Job()"), (PObj 5 [(s2l "salary", PInt 100)]).
  split; [vm_compute; reflexivity|]. split; [|discriminate]. intros fuel. vm_compute. reflexivity.
Qed.

(** A property of a JsonRecord can not be called json_data: what is printed for it is taken for a document. *)
Theorem C50_json_data_refuted : exists v s,
  ex_repr v = Ok s /\ forall fuel w, ex_eval fuel s <> Val w.
Proof.
  exists (PObj 6 [(s2l "json_data", PList [PInt 1])]), (s2l "Odd(json_data=[1])").
  split; [vm_compute; reflexivity|]. intros fuel w. vm_compute. discriminate.
Qed.

(** ** Examples *)
Definition ann : pyv := PObj 0 [(s2l "name", PStr (s2l "Ann's" ++ [10; 8232]%N)); (s2l "age", PInt (-5))].
Definition bob : pyv := PObj 0 [(s2l "name", PStr (s2l "Bob"))].
Definition ex_people : pyv := PObj 1 [(s2l "_values", PList [ann; bob]); (s2l "title", PTuple [PObj 3 [(s2l "_values", PDict [(s2l "k", PInt 1)])]])].
Definition ex_staff : pyv := PObj 4 [(s2l "_values", PList [bob]); (s2l "tag", PNone)].

Example C50_case_text :
  ex_repr ex_people = Ok (s2l "People([Person(age=-5, name=""Ann's\n" ++ [8232%N] ++ s2l """), Person(name='Bob')], title=(Names({'k': 1}),))")
  /\ repr ex_world (fun _ => false) ex_name no_num no_num ann = Ok (s2l "Person(age=-5, name=""Ann's\n\u2028"")")
  /\ ex_repr ex_staff = Ok (s2l "Staff(values=[Person(name='Bob')], tag=None)")
  /\ ex_eval 0 (s2l "Staff(values=[Person(name='Bob')], tag=None)") = Val ex_staff.
Proof. repeat split; vm_compute; reflexivity. Qed.

Lemma ex_usable c : In c [0; 1; 3; 4] -> usable ex_world ex_name ex_scope c.
Proof.
  assert (L : forall n : str, (match n with [] => false | d :: r => is_alpha d && forallb is_alnum r end) = true -> identifier n).
  { intros n H. destruct n as [|d r]; [discriminate|]. apply andb_true_iff in H as [H1 H2].
    assert (A : forall c, is_alpha c = true -> letter c).
    { intros x Hx. unfold is_alpha in Hx. unfold letter.
      repeat (apply orb_true_iff in Hx as [Hx|Hx]); try (apply andb_true_iff in Hx as [Ha Hb]);
        repeat match goal with H : N.leb _ _ = true |- _ => apply N.leb_le in H
                             | H : N.eqb _ _ = true |- _ => apply N.eqb_eq in H end; lia. }
    split; [auto|]. rewrite forallb_forall in H2. apply Forall_forall. intros x Ix. apply H2 in Ix.
    unfold is_alnum in Ix. apply orb_true_iff in Ix as [Ix|Ix]; [left; auto|right].
    apply dig_cases in Ix. lia. }
  intros H. repeat (destruct H as [<-|H]; [constructor;
    [apply L; reflexivity
    |vm_compute; intuition discriminate
    |reflexivity
    |cbn; repeat (apply NoDup_cons; [cbn; intuition discriminate|]); apply NoDup_nil
    |cbn; intros p Ip; repeat (destruct Ip as [<-|Ip]; [apply L; reflexivity|]); destruct Ip
    |cbn; intros p Ip; repeat (destruct Ip as [<-|Ip]; [vm_compute; intuition discriminate|]); destruct Ip]|]).
  destruct H.
Qed.


Example C50_case : rebuildable ex_world ex_name ex_scope (fun _ => False) ex_people
  /\ rebuildable ex_world ex_name ex_scope (fun _ => False) ex_staff.
Proof.
  assert (B : rebuildable ex_world ex_name ex_scope (fun _ => False) bob).
  { apply rb_record; [left; reflexivity|apply ex_usable; cbn; auto| |].
    - split; [vm_compute; auto|]. split.
      + cbn. intros p x [<-|[<-|[]]]; vm_compute; [|discriminate]. intros H. injection H as <-.
        repeat split; intuition discriminate.
      + cbn. intros p [<-|[<-|[]]]; vm_compute; [discriminate|]. intuition discriminate.
    - intros n x [E|[]]. injection E as <- <-. apply rb_str. repeat constructor. }
  assert (A : rebuildable ex_world ex_name ex_scope (fun _ => False) ann).
  { apply rb_record; [left; reflexivity|apply ex_usable; cbn; auto| |].
    - split; [vm_compute; auto|]. split.
      + cbn. intros p x [<-|[<-|[]]]; vm_compute; intros H; injection H as <-; repeat split; intuition discriminate.
      + cbn. intros p [<-|[<-|[]]]; vm_compute; discriminate.
    - intros n x [E|[E|[]]]; injection E as <- <-; [apply rb_str; repeat constructor|apply rb_int]. }
  assert (N : rebuildable ex_world ex_name ex_scope (fun _ => False) (PObj 3 [(s2l "_values", PDict [(s2l "k", PInt 1)])])).
  { apply rb_dict_coll; [reflexivity|apply ex_usable; cbn; auto| | | | | |].
    - split; [vm_compute; auto|]. split; intros p; intros; [|]; match goal with H : In p _ |- _ => destruct H end.
    - intros n x [].
    - intros k x [E|[]]. injection E as <- <-. reflexivity.
    - repeat constructor; auto.
    - intros k x [E|[]]. injection E as <- <-. repeat constructor.
    - intros k x [E|[]]. injection E as <- <-. apply rb_int. }
  split.
  - apply rb_list_coll; [left; reflexivity|apply ex_usable; cbn; auto| | | |].
    + split; [vm_compute; auto|]. split.
      * cbn. intros p x [<-|[]]; vm_compute; intros H; injection H as <-; repeat split; intuition discriminate.
      * cbn. intros p [<-|[]]; vm_compute; discriminate.
    + intros n x [E|[]]. injection E as <- <-. apply rb_tuple. intros x [<-|[]]. exact N.
    + intros x [<-|[<-|[]]]; do 2 eexists; split; reflexivity.
    + intros x [<-|[<-|[]]]; auto.
  - apply rb_list_coll; [right; reflexivity|apply ex_usable; cbn; auto| | | |].
    + split; [vm_compute; auto|]. split.
      * cbn. intros p x [<-|[]]; vm_compute; intros H; injection H as <-; repeat split; intuition discriminate.
      * cbn. intros p [<-|[]]; vm_compute; discriminate.
    + intros n x [E|[]]. injection E as <- <-. apply rb_none.
    + intros x [<-|[]]; do 2 eexists; split; reflexivity.
    + intros x [<-|[]]; auto.
Qed.

(** The same float text for the hypothesis on floats. *)
Example C50_floats_case : float_text (s2l "-1.5e-07").
Proof.
  change (s2l "-1.5e-07") with [45; 49; 46; 53; 101; 45; 48; 55]%N. split; [right; reflexivity|].
  split; [|left; cbn; auto 10].
  repeat (apply Forall_cons; [first [left; lia | right; cbn; auto 10]|]). apply Forall_nil.
Qed.

(** Hypotheses of the refutation about JsonRecordDict. *)
Example C50_jsondict_case : w_kind ex_world 2 = KJsonDict /\
  ex_repr (PObj 2 [(s2l "_values", PDict [])]) = Err TypeErr /\
  ex_repr (PList [bob; PObj 2 [(s2l "_values", PDict [])]]) = Err TypeErr.
Proof. vm_compute. auto. Qed.

Print Assumptions C50_round_trip.
Print Assumptions C50_injective.
Print Assumptions C50_text.
Print Assumptions C50_record_text.
Print Assumptions C50_jsondict_refuted.
Print Assumptions C50_unsafe_refuted.
Print Assumptions C50_deleted_refuted.
Print Assumptions C50_json_data_refuted.
