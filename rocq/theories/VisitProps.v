(** C41, C42: visiting records and casting back. *)
From Coq Require Import String List NArith ZArith Arith Bool Lia Permutation.
From Verif Require Import Prelude SelPathModel FSModel MFSModel MFSProofs GenModel JsonModel JsonSpec
  VisitModel DiffFilter VisitSpec VisitProofs VisitPath.
Import ListNotations.
Local Open Scope string_scope.
Local Open Scope list_scope.

(** ** C41 *)

(** Whatever holds (VisitSpec) comes back unchanged, without a filter and with any other options, with
    the default hooks. *)
Theorem C41_round_trip : forall W o parse by_key n c x, v_filter o = None -> holds W o c x ->
  exists j, visit_top W o default_apply x = Val j /\
    cast W o default_apply (call W parse by_key n) by_key j c [] = Val x.
Proof.
  intros W o parse by_key n c x NF H.
  destruct (holds_back W o NF (call W parse by_key n) by_key c x H) as ((sl & ->) & j & V & C & _).
  exists j. split; [apply V|apply C].
Qed.

(** At any position, too (for visits within other visits), and what is in between is a dict or a list. *)
Theorem C41_anywhere : forall W o parse by_key n c x q, v_filter o = None -> holds W o c x ->
  exists j, visit W o default_apply x c q = Val j /\
    cast W o default_apply (call W parse by_key n) by_key j c q = Val x /\
    ((exists l, j = PList l) \/ exists l, j = PDict l).
Proof.
  intros W o parse by_key n c x q NF H.
  destruct (holds_back W o NF (call W parse by_key n) by_key c x H) as (_ & j & V & C & _ & D).
  exists j. auto.
Qed.

(** Different values are visited as different data. *)
Theorem C41_injective : forall W o c x x' j, v_filter o = None -> holds W o c x -> holds W o c x' ->
  visit_top W o default_apply x = Val j -> visit_top W o default_apply x' = Val j -> x = x'.
Proof.
  intros W o c x x' j NF H H' V V'.
  destruct (C41_round_trip W o (fun _ => Err ValueErr) (fun l => l) 0 c x NF H) as (j1 & V1 & C1).
  destruct (C41_round_trip W o (fun _ => Err ValueErr) (fun l => l) 0 c x' NF H') as (j2 & V2 & C2).
  congruence.
Qed.

(** ** C42 *)

Lemma wh_of W o P c v : well_held W o P c v -> wh W o P c v [].
Proof. intros H q r d w L. destruct (H q r d w L) as (c' & sl & E & H1 & H2). exists c', sl. split; auto. split; auto. Qed.
Lemma left_out_ignored o y : (left_out o y /\ ignored o y = true) \/ (~ left_out o y /\ ignored o y = false).
Proof.
  unfold ignored, left_out. destruct y; try (right; split; [intros [[H _]|[H _]]; discriminate H|reflexivity]).
  - destruct (v_ignore_none o); [left|right]; split; auto. intros [[_ H]|[H _]]; discriminate H.
  - destruct s as [|a s].
    + destruct (v_ignore_empty o); [left|right]; split; auto. intros [[H _]|[_ H]]; discriminate H.
    + right. split; auto. intros [[H _]|[H _]]; discriminate H.
Qed.
Lemma ik_of W o P apply c v : items_kept W o P apply c v -> ik W o P apply c v [].
Proof.
  intros H q r x y L A. destruct (left_out_ignored o y) as [[B _]|[_ B]]; auto. destruct (H q r x y L A B).
Qed.

(** Every value of the record that is set and shown is in the output, at its place: what the hook makes
    of the value and its position; nothing if that is a value left out. *)
Theorem C42_present : forall W o P apply c v out, sound_types W -> filter_of o P ->
  well_held W o P c v -> items_kept W o P apply c v -> visit W o apply v c [] = Val out ->
  forall q r p x, leads W o P c v [] q r (SLeaf p x) ->
  exists y, apply q p x = Val y /\
    ((left_out o y /\ out_at out r = None) \/ (~ left_out o y /\ out_at out r = Some y)).
Proof.
  intros W o P apply c v out ST FO WH IK V q r p x L.
  destruct (all_present W o P FO apply ST c v [] q r _ L (wh_of _ _ _ _ _ WH) (ik_of _ _ _ _ _ _ IK) out V) as (y & A & O).
  exists y. split; auto. rewrite O. destruct (left_out_ignored o y) as [[B ->]|[B ->]]; auto.
Qed.

(** Records and collections: their own output is at their place. *)
Theorem C42_nested : forall W o P apply c v out, sound_types W -> filter_of o P ->
  well_held W o P c v -> items_kept W o P apply c v -> visit W o apply v c [] = Val out ->
  forall q r d w, leads W o P c v [] q r (SNode d w) ->
  exists y, visit W o apply w d q = Val y /\ out_at out r = Some y.
Proof.
  intros W o P apply c v out ST FO WH IK V q r d w L.
  exact (all_present W o P FO apply ST c v [] q r _ L (wh_of _ _ _ _ _ WH) (ik_of _ _ _ _ _ _ IK) out V).
Qed.

(** Everything in the output is, or is within, what the hook made of a value set and shown; or is a
    record or collection reached through what is shown, or the items of such a collection. *)
Theorem C42_only_shown : forall W o P apply c v out, sound_types W -> filter_of o P ->
  well_held W o P c v -> items_kept W o P apply c v -> visit W o apply v c [] = Val out ->
  forall r y, out_at out r = Some y ->
  (exists q r1 r2 p x z, leads W o P c v [] q r1 (SLeaf p x) /\ r = r1 ++ r2 /\
     apply q p x = Val z /\ out_at z r2 = Some y) \/
  (exists q d w, leads W o P c v [] q r (SNode d w)) \/
  (exists q r1 d w, leads W o P c v [] q r1 (SNode d w) /\ collection W d /\
     (exists p, In p (w_props W d) /\ shown o P q p) /\ r = r1 ++ [EStr (s2l "values")]).
Proof.
  intros W o P apply c v out ST FO WH IK V r y O.
  destruct (all_explained W o P FO apply ST (length r) r (le_n _) c v [] out y (wh_of _ _ _ _ _ WH) (ik_of _ _ _ _ _ _ IK) V O)
    as (q & r1 & [d w|p x] & L & T).
  - destruct T as [-> |(-> & C & S)]; right; [left; eauto|right]. exists q, r1, d, w. auto.
  - destruct T as (z & r2 & -> & A & Oz). left. exists q, r1, r2, p, x, z. auto.
Qed.

(** What is shown: a slot is reached under the filter iff it is reached without and selected. *)
Lemma selected_prefix P q q' : selected P (q ++ q') -> selected P q.
Proof.
  destruct P as [l|]; simpl; auto. intros (p & x & I & C). exists p, (q' ++ x). now rewrite app_assoc.
Qed.
Lemma leads_below W o P c v q0 q r t : leads W o P c v q0 q r t -> exists s, q = q0 ++ s.
Proof.
  induction 1 as [| |c c' sl q p x d q' r t I S F SE L [s ->]| |c c' sl q k x d co q' r r' t C I T L [s ->] U].
  - exists []. now rewrite app_nil_r.
  - eauto.
  - rewrite <- app_assoc. eauto.
  - eauto.
  - rewrite <- app_assoc. eauto.
Qed.
Lemma under_any W o P c q r : (forall p, {shown o P q p} + {~ shown o P q p}) -> exists r', items_under W o P c q r r'.
Proof.
  intros D. assert (G : (exists p, In p (w_props W c) /\ shown o P q p) \/ forall p, In p (w_props W c) -> ~ shown o P q p).
  { induction (w_props W c) as [|p t IH]; [right; intros p []|].
    destruct (D p) as [S|S]; [left; exists p; simpl; auto|]. destruct IH as [(p' & I & S')|N].
    - left. exists p'. simpl; auto.
    - right. intros p' [<-|I]; auto. }
  destruct G; [exists (EStr (s2l "values") :: r); left|exists r; right]; auto.
Qed.
Lemma shown_none_dec o q p : {shown o None q p} + {~ shown o None q p}.
Proof.
  unfold shown, hidden. simpl. destruct (q_extraneous p), (v_extraneous o); (left + right); intuition discriminate.
Qed.

Theorem C42_selected : forall W o P c v q p x, filter_of o P ->
  ((exists r, leads W o P c v [] q r (SLeaf (Some p) x)) <->
   (exists r, leads W o None c v [] q r (SLeaf (Some p) x)) /\ selected P q).
Proof.
  intros W o P c v q p x FO. split.
  - intros [r L]. split.
    + assert (G : forall c v q0 q r t, leads W o P c v q0 q r t -> exists r', leads W o None c v q0 q r' t).
      { clear. induction 1 as [| |c c' sl q p x d q' r t I [S _] F SE L [r' IH]|c c' sl q k x r C I T U|c c' sl q k x d co q' r r' t C I T L [r1 IH] U].
        - eexists. apply ld_here.
        - eexists. eapply ld_leaf; eauto. destruct H0. split; simpl; auto.
        - eexists. eapply ld_slot; eauto. split; simpl; auto.
        - destruct (under_any W o None c q [k] (shown_none_dec o q)) as [r' U']. exists r'. eapply ld_item_leaf; eauto.
        - destruct (under_any W o None c q (k :: r1) (shown_none_dec o q)) as [r2 U']. exists r2. eapply ld_item; eauto. }
      eapply G; eauto.
    + remember (SLeaf (Some p) x) as t eqn:Et. revert Et. clear FO. induction L; intros Et; try discriminate; auto.
      destruct H0. injection Et as <- <-. auto.
  - intros [[r L] S]. revert S.
    assert (G : forall c v q0 q r t, leads W o None c v q0 q r t -> selected P q -> exists r', leads W o P c v q0 q r' t).
    { clear - FO. intros c v q0 q r t L.
      induction L as [|c c' sl q p x I [NH _] F NS|c c' sl q p x d q' r t I [NH _] F SE L IH|c c' sl q k x r C I T U|c c' sl q k x d co q' r r' t C I T L IH U]; intros S.
      - eexists. apply ld_here.
      - eexists. eapply ld_leaf; eauto. split; auto.
      - destruct (IH S) as [r' L']. eexists. eapply ld_slot; eauto. split; auto.
        destruct (leads_below _ _ _ _ _ _ _ _ _ L) as [s ->]. eapply selected_prefix; eauto.
      - destruct (under_exists W o P FO c q [k]) as [r' U']. exists r'. eapply ld_item_leaf; eauto.
      - destruct (IH S) as [r1 L']. destruct (under_exists W o P FO c q (k :: r1)) as [r2 U']. exists r2. eapply ld_item; eauto. }
    eapply G; eauto.
Qed.

(** Nothing else has any influence: values that agree in what is shown give the same output. *)
Theorem C42_no_influence : forall W o P apply c v v', filter_of o P -> agree W o P c [] v v' ->
  visit W o apply v c [] = visit W o apply v' c [].
Proof. intros W o P apply c v v' FO A. exact (same_values W o P FO apply c [] v v' A). Qed.

(** The hook is called with the values found in the record, each with its own property and the path
    that leads to it from the root: what it does with anything else does not matter. *)
Theorem C42_positions : forall W o P f g c v, filter_of o P -> well_held W o P c v ->
  (forall q r p x, leads W o P c v [] q r (SLeaf p x) -> f q p x = g q p x) ->
  visit W o f v c [] = visit W o g v c [].
Proof.
  intros W o P f g c v FO WH A.
  exact (same_hooks W o P FO f g (pysize v) c v [] (le_n _) (wh_of _ _ _ _ _ WH) A).
Qed.
(** and conversely it is called with each of them: if it fails on one, so does the visit *)
Theorem C42_all_visited : forall W o P apply c v out, sound_types W -> filter_of o P ->
  well_held W o P c v -> items_kept W o P apply c v -> visit W o apply v c [] = Val out ->
  forall q r p x, leads W o P c v [] q r (SLeaf p x) -> exists y, apply q p x = Val y.
Proof.
  intros W o P apply c v out ST FO WH IK V q r p x L.
  destruct (C42_present W o P apply c v out ST FO WH IK V q r p x L) as (y & A & _). eauto.
Qed.

(** ** Examples: classes *)

Definition vprop (n : string) (t : vtype) (extraneous : bool) : prop :=
  {| q_name := s2l n; q_json := false; q_jname := None; q_in := None; q_out := None; q_type := t;
     q_check := fun _ => true; q_required := false; q_default := None; q_extraneous := extraneous |}.
Definition t_int : vtype := TPrim (fun v => match v with PInt _ => true | _ => false end) (fun _ => Exc [] TypeErr).
Definition t_str : vtype := TPrim (fun v => match v with PStr _ => true | _ => false end) (fun _ => Exc [] TypeErr).
(** 0: Person; 1: list of Person, with a label; 2: dict of integers; 3: list without item type;
    4: a subclass of Person; 5: a record class without properties; 6: a record with a Person. *)
Definition ex_props : list prop :=
  [vprop "name" t_str false; vprop "age" t_int false; vprop "friends" (TCls 1 None) false;
   vprop "scores" (TCls 2 None) false; vprop "any" TAny false; vprop "seen" t_int true].
Definition ex_world : world :=
  {| w_kind := fun c => match c with 1 | 3 => KList | 2 => KDict | _ => KRecord end;
     w_props := fun c => match c with
       | 0 => ex_props
       | 1 => [vprop "label" t_str false]
       | 4 => ex_props ++ [vprop "boss" t_int false]
       | 6 => [vprop "who" (TCls 0 None) false]
       | _ => []
       end;
     w_item := fun c => match c with 1 => TCls 0 None | 2 => t_int | _ => TAny end;
     w_sub := fun c d => Nat.eqb c d || (Nat.eqb c 4 && Nat.eqb d 0) |}.
Definition no_parse : str -> res pyv := fun _ => Err ValueErr.
Definition ex_rec := call ex_world no_parse (fun l => l) 1.
Definition ex_visit (o : vopts) := visit_top ex_world o default_apply.
Definition ex_cast (o : vopts) (c : nat) (j : pyv) := cast ex_world o default_apply ex_rec (fun l => l) j c [].

Definition ex_bo : pyv := PObj 0 [(s2l "name", PStr (s2l "Bo")); (s2l "age", PInt 7)].
Definition ex_cy : pyv := PObj 0 [(s2l "name", PStr (s2l "Cy")); (s2l "scores", PObj 2 [(s2l "_values", PDict [(s2l "a", PInt 1); (s2l "b", PInt 2)])])].
Definition ex_al : pyv :=
  PObj 0 [(s2l "name", PStr (s2l "Al"));
          (s2l "friends", PObj 1 [(s2l "_values", PList [ex_bo; ex_cy]); (s2l "label", PStr (s2l "pals"))]);
          (s2l "any", PList [PInt 1; PNone])].

Ltac in_cases := repeat match goal with
  | H : In _ (_ :: _) |- _ => destruct H
  | H : In _ [] |- _ => destruct H
  | H : _ \/ _ |- _ => destruct H
  | H : False |- _ => destruct H
  end; subst.
Ltac distinct := simpl; repeat (apply NoDup_cons; [simpl; intuition discriminate|]); apply NoDup_nil.
Ltac not_left_out := let H := fresh in intros [[H _]|[H _]]; discriminate H.

Lemma ex_slots c sl : (c = 0 \/ c = 1 \/ c = 2) -> listed (w_props ex_world c) sl ->
  (forall x, slot sl (s2l "seen") <> Some x) ->
  (forall p x, In p (w_props ex_world c) -> slot sl (q_name p) = Some x -> holds_val ex_world default_opts (q_type p) x) ->
  holds_slots ex_world default_opts c sl.
Proof.
  intros Hc L NS HV. apply holds_entries; auto.
  - destruct Hc as [->|[->| ->]]; distinct.
  - intros p I. destruct Hc as [->|[->| ->]]; simpl in I; in_cases; discriminate.
  - intros p x I S. split.
    + intros [E _]. destruct Hc as [->|[->| ->]]; simpl in I; in_cases; try discriminate E. exact (NS _ S).
    + split; [destruct Hc as [->|[->| ->]]; simpl in I; in_cases; reflexivity|].
      intros (_ & R & _). destruct Hc as [->|[->| ->]]; simpl in I; in_cases; discriminate R.
  - intros p I H. exfalso. destruct Hc as [->|[->| ->]]; simpl in I; in_cases; destruct H as [H|H]; try discriminate H; now destruct H.
Qed.
Lemma ex_record sl : listed ex_props sl ->
  (forall x, slot sl (s2l "seen") <> Some x) ->
  (forall p x, In p ex_props -> slot sl (q_name p) = Some x -> holds_val ex_world default_opts (q_type p) x) ->
  holds ex_world default_opts 0 (PObj 0 sl).
Proof.
  intros L NS HV. apply holds_record; [auto|exists (vprop "name" t_str false)|apply ex_slots; auto].
  split; [simpl; auto|intros [E _]; discriminate E].
Qed.
Ltac text_val := apply hv_prim; [not_left_out|reflexivity].

Lemma ex_bo_holds : holds ex_world default_opts 0 ex_bo.
Proof.
  apply ex_record; [vm_compute; reflexivity|vm_compute; discriminate|].
  intros p x I S. simpl in I. in_cases; vm_compute in S; try discriminate S; injection S as <-; text_val.
Qed.
Lemma ex_cy_holds : holds ex_world default_opts 0 ex_cy.
Proof.
  apply ex_record; [vm_compute; reflexivity|vm_compute; discriminate|].
  intros p x I S. simpl in I. in_cases; vm_compute in S; try discriminate S; injection S as <-; [text_val|].
  apply hv_class; [reflexivity|]. apply holds_dict.
  - auto.
  - apply ex_slots; [auto|reflexivity|discriminate|intros p x []].
  - intros p [].
  - distinct.
  - intros k x I. simpl in I. in_cases; injection H as <- <-; text_val.
Qed.
Lemma ex_al_holds : holds ex_world default_opts 0 ex_al.
Proof.
  apply ex_record; [vm_compute; reflexivity|vm_compute; discriminate|].
  intros p x I S. simpl in I. in_cases; vm_compute in S; try discriminate S; injection S as <-; [text_val| |].
  - apply hv_class; [reflexivity|]. apply holds_list.
    + auto.
    + apply ex_slots; [auto|reflexivity|discriminate|].
      intros p x I S. simpl in I. in_cases. vm_compute in S. injection S as <-. text_val.
    + intros p I. simpl in I. in_cases. discriminate.
    + intros x I. cbn [In] in I. destruct I as [<-|[<-|[]]]; apply hv_class;
        [reflexivity|apply ex_bo_holds|reflexivity|apply ex_cy_holds].
  - apply hv_any; [not_left_out|discriminate].
Qed.

Example C41_case : holds ex_world default_opts 0 ex_al /\
  ex_visit default_opts ex_al = Val (PDict
    [(s2l "name", PStr (s2l "Al"));
     (s2l "friends", PDict [(s2l "label", PStr (s2l "pals"));
                            (s2l "values", PList [PDict [(s2l "name", PStr (s2l "Bo")); (s2l "age", PInt 7)];
                               PDict [(s2l "name", PStr (s2l "Cy"));
                                      (s2l "scores", PDict [(s2l "a", PInt 1); (s2l "b", PInt 2)])]])]);
     (s2l "any", PList [PInt 1; PNone])]) /\
  (let* j := ex_visit default_opts ex_al in ex_cast default_opts 0 j) = Val ex_al.
Proof. split; [exact ex_al_holds|]. split; vm_compute; reflexivity. Qed.
Example C41_injective_case : holds ex_world default_opts 0 ex_bo /\ holds ex_world default_opts 0 ex_cy /\
  ex_visit default_opts ex_bo <> ex_visit default_opts ex_cy.
Proof. split; [exact ex_bo_holds|]. split; [exact ex_cy_holds|]. vm_compute. discriminate. Qed.

(** *** What does not come back *)

(** None, in a slot or among the items of a list, is dropped; the class of records in slots or items is
    lost where it is not exactly the class declared, with all that is only declared by the subclass;
    without declared class records come back as dicts; of a record class with nothing to read cast
    returns the dict itself. *)
Theorem C41_none_refuted : exists x y j,
  x = PObj 0 [(s2l "name", PStr (s2l "Al")); (s2l "any", PNone)] /\
  ex_visit default_opts x = Val j /\ ex_cast default_opts 0 j = Val y /\
  y = PObj 0 [(s2l "name", PStr (s2l "Al"))].
Proof.
  exists (PObj 0 [(s2l "name", PStr (s2l "Al")); (s2l "any", PNone)]),
    (PObj 0 [(s2l "name", PStr (s2l "Al"))]), (PDict [(s2l "name", PStr (s2l "Al"))]).
  repeat split; vm_compute; reflexivity.
Qed.
Theorem C41_none_item_refuted : exists x y j,
  x = PObj 3 [(s2l "_values", PList [PInt 1; PNone; PInt 2])] /\
  ex_visit default_opts x = Val j /\ ex_cast default_opts 3 j = Val y /\
  y = PObj 3 [(s2l "_values", PList [PInt 1; PInt 2])].
Proof.
  exists (PObj 3 [(s2l "_values", PList [PInt 1; PNone; PInt 2])]),
    (PObj 3 [(s2l "_values", PList [PInt 1; PInt 2])]), (PList [PInt 1; PInt 2]).
  repeat split; vm_compute; reflexivity.
Qed.
Definition ex_boss : pyv := PObj 4 [(s2l "name", PStr (s2l "Al")); (s2l "boss", PInt 1)].
Theorem C41_subclass_refuted : exists x y j,
  x = PObj 6 [(s2l "who", ex_boss)] /\ w_sub ex_world 4 0 = true /\
  ex_visit default_opts x = Val j /\ ex_cast default_opts 6 j = Val y /\
  y = PObj 6 [(s2l "who", PObj 0 [(s2l "name", PStr (s2l "Al"))])].
Proof.
  exists (PObj 6 [(s2l "who", ex_boss)]), (PObj 6 [(s2l "who", PObj 0 [(s2l "name", PStr (s2l "Al"))])]),
    (PDict [(s2l "who", PDict [(s2l "name", PStr (s2l "Al"))])]).
  repeat split; vm_compute; reflexivity.
Qed.
Theorem C41_untyped_refuted : exists x y j,
  x = PObj 0 [(s2l "any", ex_bo)] /\
  ex_visit default_opts x = Val j /\ ex_cast default_opts 0 j = Val y /\
  y = PObj 0 [(s2l "any", PDict [(s2l "name", PStr (s2l "Bo")); (s2l "age", PInt 7)])].
Proof.
  exists (PObj 0 [(s2l "any", ex_bo)]), (PObj 0 [(s2l "any", PDict [(s2l "name", PStr (s2l "Bo")); (s2l "age", PInt 7)])]),
    (PDict [(s2l "any", PDict [(s2l "name", PStr (s2l "Bo")); (s2l "age", PInt 7)])]).
  repeat split; vm_compute; reflexivity.
Qed.
Theorem C41_no_properties_refuted : exists x y j,
  x = PObj 5 [] /\ ex_visit default_opts x = Val j /\ ex_cast default_opts 5 j = Val y /\ y = PDict [].
Proof. exists (PObj 5 []), (PDict []), (PDict []). repeat split; vm_compute; reflexivity. Qed.

(** *** Filters *)

Definition same_args (l : list arg) : list arg := l.
Definition with_paths (l : list (list elem)) : vopts :=
  {| v_extraneous := false; v_ignore_none := true; v_ignore_empty := false;
     v_filter := match make same_args (map AFS l) with Ok m => Some m | Err _ => None end |}.
Definition ex_paths : list (list elem) :=
  [[EStr (s2l "name")]; [EStr (s2l "friends"); EInt 1; EStr (s2l "name")]].
Lemma ex_filter : filter_of (with_paths ex_paths) (Some ex_paths).
Proof.
  split; [discriminate|]. destruct (make same_args (map AFS ex_paths)) as [m|e] eqn:E; [|vm_compute in E; discriminate E].
  exists same_args, m. split; [intros a; apply Permutation_refl|]. split; auto. unfold with_paths. now rewrite E.
Qed.
Lemma ex_sound : sound_types ex_world.
Proof.
  intros c. destruct c as [|[|[|[|[|[|[|c]]]]]]]; (split; [distinct|]); intros [C1 C2] p I; simpl in I; in_cases;
    try (split; discriminate); destruct C1; reflexivity.
Qed.
Definition ex_out : pyv := PDict [(s2l "name", PStr (s2l "Al"));
  (s2l "friends", PList [PDict []; PDict [(s2l "name", PStr (s2l "Cy"))]])].
Example C42_case_output : ex_visit (with_paths ex_paths) ex_al = Val ex_out.
Proof. vm_compute. reflexivity. Qed.

Definition ex_o := with_paths ex_paths.
Lemma ex_selected q : touches ex_paths q <->
  q = [] \/ (exists t, q = EStr (s2l "name") :: t) \/ q = [EStr (s2l "friends")] \/
  q = [EStr (s2l "friends"); EInt 1] \/ exists t, q = EStr (s2l "friends") :: EInt 1 :: EStr (s2l "name") :: t.
Proof.
  split.
  - intros (p & x & I & C). simpl in I. in_cases.
    + inversion C as [| | |? ? q1 C1 E1 E2]; subst. destruct q as [|e q]; auto. right; left.
      simpl in E2. injection E2 as <- _. eauto.
    + inversion C as [| | |? ? q1 C1 E1 E2]; subst. inversion C1 as [| | |? ? q2 C2 E3 E4]; subst.
      inversion C2 as [| | |? ? q3 C3 E5 E6]; subst.
      destruct q as [|a [|b [|c q]]]; cbn [app] in E2.
      * left; reflexivity.
      * injection E2 as <- _. right; right; left; reflexivity.
      * injection E2 as <- <- _. right; right; right; left; reflexivity.
      * injection E2 as <- <- <- _. right; right; right; right. eexists; reflexivity.
  - intros [->|[[t ->]|[->|[->|[t ->]]]]].
    + exists [EStr (s2l "name")], [EStr (s2l "name")]. split; [left; reflexivity|]. apply cov_same, cov_nil.
    + exists [EStr (s2l "name")], []. split; [left; reflexivity|]. apply cov_same, cov_nil.
    + exists [EStr (s2l "friends"); EInt 1; EStr (s2l "name")], [EInt 1; EStr (s2l "name")].
      split; [right; left; reflexivity|]. apply cov_same, cov_same, cov_same, cov_nil.
    + exists [EStr (s2l "friends"); EInt 1; EStr (s2l "name")], [EStr (s2l "name")].
      split; [right; left; reflexivity|]. apply cov_same, cov_same, cov_same, cov_nil.
    + exists [EStr (s2l "friends"); EInt 1; EStr (s2l "name")], [].
      split; [right; left; reflexivity|]. apply cov_same, cov_same, cov_same, cov_nil.
Qed.

(** all there is to be found *)
Lemma ex_person sl q q' r t : leads ex_world ex_o (Some ex_paths) 0 (PObj 0 sl) q q' r t ->
  (t = SNode 0 (PObj 0 sl) /\ q' = q /\ r = []) \/
  (exists p x, In p ex_props /\ shown ex_o (Some ex_paths) q p /\ slot sl (q_name p) = Some x /\
     (forall d, ~ seen_as (q_type p) x d) /\ q' = q ++ [EStr (q_name p)] /\ r = [EStr (q_name p)] /\ t = SLeaf (Some p) x) \/
  (exists p x d r', In p ex_props /\ shown ex_o (Some ex_paths) q p /\ slot sl (q_name p) = Some x /\ seen_as (q_type p) x d /\
     leads ex_world ex_o (Some ex_paths) d x (q ++ [EStr (q_name p)]) q' r' t /\ r = EStr (q_name p) :: r').
Proof.
  intros L. inversion L; subst.
  - auto.
  - right; left. exists p, x. auto 10.
  - right; right. exists p, x, d, r0. auto 10.
  - destruct H1 as [H1 _]. destruct H1. reflexivity.
  - destruct H1 as [H1 _]. destruct H1. reflexivity.
Qed.

(** below a friend only the name of the second is shown *)
Lemma ex_friend k x sl q r t : x = PObj 0 sl ->
  leads ex_world ex_o (Some ex_paths) 0 x [EStr (s2l "friends"); EInt k] q r t ->
  t = SNode 0 x \/
  (exists n, slot sl (s2l "name") = Some n /\ k = 1%Z /\ r = [EStr (s2l "name")] /\
     q = [EStr (s2l "friends"); EInt 1; EStr (s2l "name")] /\ t = SLeaf (Some (vprop "name" t_str false)) n).
Proof.
  intros -> L.
  assert (Sh : forall p, In p ex_props -> shown ex_o (Some ex_paths) [EStr (s2l "friends"); EInt k] p -> p = vprop "name" t_str false /\ k = 1%Z).
  { intros p I [_ T]. cbn [selected app] in T. apply ex_selected in T as [T|[[t' T]|[T|[T|[t' T]]]]]; try discriminate T.
    injection T as -> T _. unfold ex_props in I. in_cases; try (vm_compute in T; discriminate T). auto. }
  apply ex_person in L as [(-> & _)|[(p & x & I & S & F & _ & -> & -> & ->)|(p & x & d & r' & I & S & F & SE & _)]]; auto.
  - destruct (Sh p I S) as [-> ->]. right. exists x. auto.
  - destruct (Sh p I S) as [-> ->]. destruct SE.
Qed.

Lemma ex_reached q r t : leads ex_world ex_o (Some ex_paths) 0 ex_al [] q r t ->
  t = SNode 0 ex_al \/ t = SLeaf (Some (vprop "name" t_str false)) (PStr (s2l "Al")) \/
  (exists sl, t = SNode 1 (PObj 1 sl) /\ slot sl (s2l "_values") = Some (PList [ex_bo; ex_cy])) \/
  t = SNode 0 ex_bo \/ t = SNode 0 ex_cy \/
  t = SLeaf (Some (vprop "name" t_str false)) (PStr (s2l "Cy")).
Proof.
  intros L. apply ex_person in L as [(-> & _)|[(p & x & I & S & F & NS & -> & -> & ->)|(p & x & d & r' & I & S & F & SE & L & _)]]; auto.
  - right; left. destruct S as [_ T]. cbn [selected app] in T. apply ex_selected in T as [T|[[t' T]|[T|[T|[t' T]]]]]; try discriminate T.
    + injection T as T _. unfold ex_props in I. in_cases; try (vm_compute in T; discriminate T).
      vm_compute in F. injection F as <-. reflexivity.
    + injection T as T. unfold ex_props in I. in_cases; try (vm_compute in T; discriminate T). exfalso.
      exact (NS 1 eq_refl).
  - assert (x = PObj 1 [(s2l "_values", PList [ex_bo; ex_cy]); (s2l "label", PStr (s2l "pals"))] /\ d = 1 /\ q_name p = s2l "friends") as (-> & -> & En).
    { destruct S as [_ T]. cbn [selected app] in T. apply ex_selected in T as [T|[[t' T]|[T|[T|[t' T]]]]]; try discriminate T.
      + injection T as T _. unfold ex_props in I. in_cases; try (vm_compute in T; discriminate T). destruct SE.
      + injection T as T. unfold ex_props in I. in_cases; try (vm_compute in T; discriminate T).
        vm_compute in F. injection F as <-. split; [reflexivity|]. split; [exact SE|reflexivity]. }
    rewrite En in L. cbn [app] in L.
    inversion L as [|c0 c1 sl0 q0 p0 x0 A1 A2 A3 A4|c0 c1 sl0 q0 p0 x0 d0 q1 r1 t0 A1 A2 A3 A4 A5|c0 c1 sl0 q0 k x0 r1 A1 A2 A3 A4|c0 c1 sl0 q0 k x0 d0 co q1 r0 r1 t0 A1 A2 A3 A4 A5]; subst.
    + right; right; left. eexists. split; [reflexivity|reflexivity].
    + exfalso. simpl in A1. in_cases. destruct A2 as [_ T]. cbn [selected] in T.
      apply ex_selected in T as [T|[[t' T]|[T|[T|[t' T]]]]]; discriminate T.
    + exfalso. simpl in A1. in_cases. destruct A2 as [_ T]. cbn [selected] in T.
      apply ex_selected in T as [T|[[t' T]|[T|[T|[t' T]]]]]; discriminate T.
    + exfalso. eapply A3. reflexivity.
    + cbn [w_item ex_world] in A3. injection A3 as <- <-. destruct k as [s|z|]; try (destruct A2; fail).
      destruct A2 as [Hz N]. cbn in N.
      assert ((z = 0%Z /\ x0 = ex_bo) \/ (z = 1%Z /\ x0 = ex_cy)) as [[-> ->]|[-> ->]].
      { destruct (Z.to_nat z) as [|[|n]] eqn:Ez; simpl in N.
        - left. split; [lia|congruence].
        - right. split; [lia|congruence].
        - destruct n; discriminate N. }
      * apply (ex_friend 0%Z ex_bo _ _ _ _ eq_refl) in A4 as [->|(n & _ & E & _)]; [auto|discriminate E].
      * apply (ex_friend 1%Z ex_cy _ _ _ _ eq_refl) in A4 as [->|(n & Sn & _ & _ & _ & ->)]; [auto 10|].
        vm_compute in Sn. injection Sn as <-. auto 10.
Qed.

Lemma ex_al_held : well_held ex_world ex_o (Some ex_paths) 0 ex_al.
Proof.
  intros q r d w L. apply ex_reached in L as [E|[E|[(sl & E & S)|[E|[E|E]]]]]; try discriminate E; injection E as -> ->;
    try (eexists; eexists; split; [reflexivity|]; split; intros [K|K]; discriminate K).
  exists 1, sl. split; auto. split; [eauto|]. intros [K|K]; discriminate K.
Qed.
Lemma ex_al_kept f : items_kept ex_world ex_o (Some ex_paths) f 0 ex_al.
Proof.
  intros q r x y L. apply ex_reached in L as [E|[E|[(sl & E & S)|[E|[E|E]]]]]; discriminate E.
Qed.

(** the name of the second friend *)
Example C42_case : sound_types ex_world /\ filter_of ex_o (Some ex_paths) /\
  well_held ex_world ex_o (Some ex_paths) 0 ex_al /\
  (forall f, items_kept ex_world ex_o (Some ex_paths) f 0 ex_al) /\
  exists r, leads ex_world ex_o (Some ex_paths) 0 ex_al []
    [EStr (s2l "friends"); EInt 1; EStr (s2l "name")] r (SLeaf (Some (vprop "name" t_str false)) (PStr (s2l "Cy"))) /\
  out_at ex_out [EStr (s2l "friends"); EInt 1; EStr (s2l "name")] = Some (PStr (s2l "Cy")).
Proof.
  split; [exact ex_sound|]. split; [exact ex_filter|]. split; [exact ex_al_held|]. split; [exact ex_al_kept|].
  destruct (proj2 (C42_selected ex_world ex_o (Some ex_paths) 0 ex_al
    [EStr (s2l "friends"); EInt 1; EStr (s2l "name")] (vprop "name" t_str false) (PStr (s2l "Cy")) ex_filter)) as [r L].
  - split; [|apply ex_selected; right; right; right; right; eauto]. eexists.
    eapply (ld_slot _ _ _ _ _ _ _ (vprop "friends" (TCls 1 None) false)); [simpl; auto|split; [intros [E _]; discriminate E|exact I]|reflexivity|reflexivity|].
    eapply (ld_item _ _ _ 1 1 _ _ (EInt 1) ex_cy 0 None); [split; discriminate|simpl; split; [lia|reflexivity]|reflexivity| |].
    + unfold ex_cy. apply (ld_leaf ex_world ex_o None 0 0 _ [EStr (s2l "friends"); EInt 1] (vprop "name" t_str false)); [simpl; auto|split; [intros [E _]; discriminate E|exact I]|reflexivity|].
      intros d H. exact H.
    + left. split; [|reflexivity]. exists (vprop "label" t_str false). split; [simpl; auto|].
      split; [intros [E _]; discriminate E|exact I].
  - exists r. split; auto.
Qed.

(** another age, other friends' slots: the same output *)
Definition ex_al2 : pyv :=
  PObj 0 [(s2l "name", PStr (s2l "Al")); (s2l "age", PInt 50);
          (s2l "friends", PObj 1 [(s2l "_values", PList [PObj 0 []; PObj 4 [(s2l "name", PStr (s2l "Cy")); (s2l "boss", PInt 0)]])])].
Example C42_no_influence_case : agree ex_world ex_o (Some ex_paths) 0 [] ex_al ex_al2 /\
  ex_visit ex_o ex_al2 = Val ex_out.
Proof.
  split; [|vm_compute; reflexivity].
  assert (Person : forall k sl sl', (k = 1%Z -> slot sl (s2l "name") = slot sl' (s2l "name")) -> forall p, In p ex_props ->
     shown ex_o (Some ex_paths) [EStr (s2l "friends"); EInt k] p ->
     agree_slot ex_world ex_o (Some ex_paths) (q_type p) ([EStr (s2l "friends"); EInt k] ++ [EStr (q_name p)]) (slot sl (q_name p)) (slot sl' (q_name p))).
  { intros k sl sl' E p I [_ T]. cbn [selected app] in T. apply ex_selected in T as [T|[[t' T]|[T|[T|[t' T]]]]]; try discriminate T.
    injection T as -> T _. change (q_name p = s2l "name") in T. rewrite T, (E eq_refl). destruct (slot sl' (s2l "name")); [apply as_same|apply as_unset]. }
  apply ag_obj; [|intros [C _]; destruct C; reflexivity].
  intros p I [_ T]. cbn [selected app] in T. apply ex_selected in T as [T|[[t' T]|[T|[T|[t' T]]]]]; try discriminate T.
  - injection T as T _. change (q_name p = s2l "name") in T. rewrite T. apply as_same.
  - injection T as T. change (q_name p = s2l "friends") in T. rewrite T. assert (Ty : q_type p = TCls 1 None).
    { simpl in I. in_cases; try reflexivity; vm_compute in T; discriminate T. }
    rewrite Ty. eapply (as_class _ _ _ _ _ 1); [reflexivity|reflexivity|]. apply ag_obj.
    + intros p' I' [_ T']. cbn [selected app] in T'. simpl in I'. in_cases.
      apply ex_selected in T' as [T'|[[t' T']|[T'|[T'|[t' T']]]]]; discriminate T'.
    + intros _. apply ai_list; [reflexivity|]. intros i x x' N N'. destruct i as [|[|i]]; simpl in N, N'.
      * injection N as <-. injection N' as <-. apply ag_obj; [|intros [C _]; destruct C; reflexivity].
        apply (Person 0%Z). discriminate.
      * injection N as <-. injection N' as <-. apply ag_obj; [|intros [C _]; destruct C; reflexivity].
        apply (Person 1%Z). reflexivity.
      * destruct i; discriminate N.
Qed.
(** a hook that records positions *)
Definition as_data (q : list elem) : pyv :=
  PList (map (fun e => match e with EStr s => PStr s | EInt i => PInt i | ENone => PNone end) q).
Example C42_positions_case : visit_top ex_world ex_o (fun q _ _ => Val (as_data q)) ex_al = Val (PDict
  [(s2l "name", PList [PStr (s2l "name")]);
   (s2l "friends", PList [PDict []; PDict [(s2l "name", PList [PStr (s2l "friends"); PInt 1; PStr (s2l "name")])]])]).
Proof. vm_compute. reflexivity. Qed.

(** *** Where visiting is not as claimed *)

(** Items that are left out shift those behind them: the second item, None, is not there, and in its
    place is the third. *)
Theorem C42_items_shift_refuted : exists v out,
  visit_top ex_world default_opts default_apply v = Val out /\ filter_of default_opts None /\
  leads ex_world default_opts None 3 v [] [EInt 1] [EInt 1] (SLeaf None PNone) /\
  leads ex_world default_opts None 3 v [] [EInt 2] [EInt 2] (SLeaf None (PInt 2)) /\
  out_at out [EInt 1] = Some (PInt 2) /\ out_at out [EInt 2] = None.
Proof.
  exists (PObj 3 [(s2l "_values", PList [PInt 1; PNone; PInt 2])]), (PList [PInt 1; PInt 2]).
  split; [vm_compute; reflexivity|]. split; [reflexivity|].
  assert (U : forall k, items_under ex_world default_opts None 3 [] [k] [k]) by (intros k; right; split; [intros p []|reflexivity]).
  split; [|split; [|split; reflexivity]].
  - apply (ld_item_leaf _ _ _ 3 3 _ [] (EInt 1)); [split; discriminate|split; [lia|reflexivity]|discriminate|apply U].
  - apply (ld_item_leaf _ _ _ 3 3 _ [] (EInt 2)); [split; discriminate|split; [lia|reflexivity]|discriminate|apply U].
Qed.

(** Items are not filtered: all of them are in the output though only the first is selected. *)
Theorem C42_items_unfiltered_refuted : exists P v,
  filter_of (with_paths P) (Some P) /\ ~ touches P [EStr (s2l "scores"); EStr (s2l "b")] /\
  touches P [EStr (s2l "scores"); EStr (s2l "a")] /\
  visit_top ex_world (with_paths P) default_apply v =
    Val (PDict [(s2l "scores", PDict [(s2l "a", PInt 1); (s2l "b", PInt 2)])]).
Proof.
  exists [[EStr (s2l "scores"); EStr (s2l "a")]], ex_cy.
  split; [|split; [|split; [|vm_compute; reflexivity]]].
  - split; [discriminate|].
    destruct (make same_args (map AFS [[EStr (s2l "scores"); EStr (s2l "a")]])) as [m|e] eqn:E; [|vm_compute in E; discriminate E].
    exists same_args, m. split; [intros a; apply Permutation_refl|]. split; auto. unfold with_paths. now rewrite E.
  - intros (p & x & I & C). simpl in I. in_cases. inversion C as [| | |? ? q1 C1 E1 E2]; subst.
    inversion C1.
  - exists [EStr (s2l "scores"); EStr (s2l "a")], []. split; [simpl; auto|]. apply cov_same, cov_same, cov_nil.
Qed.

(** A filter of no paths selects nothing, and everything is visited. *)
Theorem C42_empty_filter_refuted : exists m,
  make same_args (map AFS []) = Ok m /\ (forall q, ~ touches [] q) /\
  ex_visit {| v_extraneous := false; v_ignore_none := true; v_ignore_empty := false; v_filter := Some m |} ex_bo =
    Val (PDict [(s2l "name", PStr (s2l "Bo")); (s2l "age", PInt 7)]).
Proof.
  exists (Node []). split; [reflexivity|]. split; [intros q (p & x & [] & _)|]. vm_compute. reflexivity.
Qed.

(** Casting a list from a mapping reports every item at index 0. *)
Theorem C42_cast_positions_refuted : exists out,
  cast ex_world default_opts (fun q _ _ => Val (as_data q)) ex_rec (fun l => l)
    (PDict [(s2l "0", PInt 5); (s2l "1", PInt 6)]) 3 [] = Val out /\
  out = PObj 3 [(s2l "_values", PList [as_data [EInt 0]; as_data [EInt 0]])].
Proof. eexists. split; [vm_compute; reflexivity|reflexivity]. Qed.

Print Assumptions C41_round_trip.
Print Assumptions C41_anywhere.
Print Assumptions C41_injective.
Print Assumptions C42_present.
Print Assumptions C42_nested.
Print Assumptions C42_only_shown.
Print Assumptions C42_selected.
Print Assumptions C42_no_influence.
Print Assumptions C42_positions.
Print Assumptions C42_all_visited.
Print Assumptions C41_none_refuted.
Print Assumptions C41_none_item_refuted.
Print Assumptions C41_subclass_refuted.
Print Assumptions C41_untyped_refuted.
Print Assumptions C41_no_properties_refuted.
Print Assumptions C42_items_shift_refuted.
Print Assumptions C42_items_unfiltered_refuted.
Print Assumptions C42_empty_filter_refuted.
Print Assumptions C42_cast_positions_refuted.
