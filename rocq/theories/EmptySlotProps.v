(** C61: visiting with apply_empty_slots. *)
From Coq Require Import String List NArith ZArith Arith Bool Lia.
From Verif Require Import Prelude SelPathModel FSModel MFSModel MFSProofs GenModel PickleModel AutoModel JsonModel JsonSpec
  VisitModel DiffFilter VisitSpec VisitProofs VisitPath EmptySlotModel EmptySlotSpec EmptySlotProofs EmptySlotRefine EmptySlotEnd.
Import ListNotations.
Local Open Scope string_scope.
Local Open Scope list_scope.

(** Without the option the descent is that of C41 and C42; given stack enough, n0. *)
Theorem C61_off : forall W o f v c q, exists n0, forall n, n0 <= n ->
  visit_e W o false f n (Some v) c q = visit W o (fun q p x => f q p (Some x)) v c q.
Proof. intros W o f v c q. exists (pysize v). intros n L. now apply visit_same. Qed.
Theorem C61_cast_off : forall W o f rec by_key j c q, exists n0, forall n, n0 <= n ->
  cast_e W o false f rec by_key n (Some j) c q = cast W o (fun q p x => f q p (Some x)) rec by_key j c q.
Proof. intros W o f rec by_key j c q. exists (pysize j). intros n L. now apply cast_same. Qed.

(** If the visit succeeds, the hook was called successfully for every property that is shown and not of
    a record class, with its value or, if it is not set, with the exception; and for items. *)
Theorem C61_called : forall W o P f n c v out, filter_of o P ->
  visit_e W o true f n (Some v) c [] = Val out ->
  forall q p x, meets W o P true c (Some v) [] q (Leaf p x) -> exists y, f q p x = Val y.
Proof. intros W o P f n c v out FO E q p x M. exact (all_met W o P FO true f c (Some v) [] q _ M n out E). Qed.

(** It is called for nothing else: hooks that agree there give the same. *)
Theorem C61_only : forall W o P f g n c v, filter_of o P ->
  (forall q p x, meets W o P true c (Some v) [] q (Leaf p x) -> f q p x = g q p x) ->
  visit_e W o true f n (Some v) c [] = visit_e W o true g n (Some v) c [].
Proof. intros W o P f g n c v FO H. now apply (same_calls W o P FO). Qed.

(** What it returns for a property reached through properties is in the output under their names,
    unless it is left out. *)
Theorem C61_placed : forall W o P f n c v out r p x, sound_types W -> filter_of o P ->
  visit_e W o true f n (Some v) c [] = Val out -> down W o P c (Some v) [] r p x ->
  exists y, f (map EStr r) (Some p) x = Val y /\
    (left_out o y -> out_at out (map EStr r) = None) /\ (~ left_out o y -> out_at out (map EStr r) = Some y).
Proof.
  intros W o P f n c v out r p x ST FO E D.
  destruct (all_placed W o P FO ST f c (Some v) [] r p x D n out E) as (y & Y & O). exists y. split; auto.
  rewrite O. pose proof (ignored_left_out o y). destruct (ignored o y); intuition congruence.
Qed.

(** If all that is not set are properties not of a record class, and for these the hook returns what is
    left out, the option makes no difference; that is so for the default hook, if None is left out. *)
Theorem C61_same : forall W o P f c v, filter_of o P ->
  (forall q d, ~ meets W o P true c (Some v) [] q (Node d None)) ->
  (forall q p, meets W o P true c (Some v) [] q (Leaf p None) -> exists y, f q p None = Val y /\ left_out o y) ->
  exists n0, forall n, n0 <= n ->
    visit_e W o true f n (Some v) c [] = visit W o (fun q p x => f q p (Some x)) v c [].
Proof.
  intros W o P f c v FO HN HL. exists (pysize v). intros n L. rewrite (no_difference W o P FO); auto.
  - now apply visit_same.
  - intros q p M. destruct (HL q p M) as (y & Y & O). exists y. split; auto. now apply ignored_left_out.
Qed.
Theorem C61_default : forall W o P c v, filter_of o P -> v_ignore_none o = true ->
  (forall q d, ~ meets W o P true c (Some v) [] q (Node d None)) ->
  exists n0, forall n, n0 <= n ->
    visit_e W o true default_apply_e n (Some v) c [] = visit W o default_apply v c [].
Proof.
  intros W o P c v FO IN HN. apply (C61_same W o P default_apply_e c v FO HN).
  intros q p _. exists PNone. split; auto. left. auto.
Qed.

(** ** When it ends *)

(** If no chain of declarations is endless, it ends, the result depends no more on the stack, and is not
    RecursionError unless the hook raises that. *)
Theorem C61_ends : forall W o P f c v, filter_of o P ->
  (forall q p x pa, f q p x <> Exc pa RecursionErr) -> (forall d, bounded W o d) ->
  exists n0, (forall pa, visit_e W o true f n0 (Some v) c [] <> Exc pa RecursionErr) /\
    forall n, n0 <= n -> visit_e W o true f n (Some v) c [] = visit_e W o true f n0 (Some v) c [].
Proof.
  intros W o P f c v FO HF B. destruct (value_ends W o P FO true f HF B (pysize v) v c (le_n _)) as [n0 H].
  exists n0. split; [apply H; lia|]. intros n L. replace n with ((n - n0) + n0) by lia.
  apply visit_enough. apply H. lia.
Qed.
(** If it comes to a slot not set of a class with a property of that same class, directly or through
    others, it never succeeds. *)
Theorem C61_endless : forall W o f n c v q d out, v_filter o = None ->
  meets W o None true c (Some v) [] q (Node d None) -> within W o d d ->
  visit_e W o true f n (Some v) c [] <> Val out.
Proof.
  intros W o f n c v q d out NF M Wi E.
  destruct (all_met W o None NF true f c (Some v) [] q _ M n out E) as (m & y & _ & Y).
  exact (endless W o NF f d Wi m q y Y).
Qed.

(** ** Casting *)

(** As for visits: no difference if all keys missing are of properties not of a record class. *)
Theorem C61_cast_same : forall W o P rec by_key c j, filter_of o P -> v_ignore_none o = true ->
  (forall q d, ~ cmeets W o P c (Some j) [] q (Node d None)) ->
  exists n0, forall n, n0 <= n ->
    cast_e W o true default_apply_e rec by_key n (Some j) c [] = cast W o default_apply rec by_key j c [].
Proof.
  intros W o P rec by_key c j FO IN HN. exists (pysize j). intros n L. rewrite (cast_no_difference W o P FO); auto.
  - now apply cast_same.
  - intros q p _. exists PNone. split; auto.
Qed.
(** Whatever the hook, it fails if there is no key for a property of a class with anything to read. *)
Theorem C61_cast_absent : forall W o P f rec by_key n c l p d co y, filter_of o P ->
  In p (w_props W c) -> shown o P [] p -> slot l (q_name p) = None -> q_type p = TCls d co ->
  has_members W o P d [EStr (q_name p)] \/ collection W d ->
  cast_e W o true f rec by_key n (Some (PDict l)) c [] <> Val y.
Proof. intros W o P f rec by_key n c l p d co y FO Ip S K T H. exact (cast_absent W o P FO rec by_key f n c l [] p d co Ip S K T H y). Qed.

(** ** Examples *)

Module Ex.
Definition vprop (n : string) (t : vtype) : prop :=
  {| q_name := s2l n; q_json := false; q_jname := None; q_in := None; q_out := None; q_type := t;
     q_check := fun _ => true; q_required := false; q_default := None; q_extraneous := false |}.
Definition t_int : vtype := TPrim (fun v => match v with PInt _ => true | _ => false end) (fun _ => Exc [] TypeErr).
Definition t_str : vtype := TPrim (fun v => match v with PStr _ => true | _ => false end) (fun _ => Exc [] TypeErr).
(** 0: Person; 1: Address; 2: list of Person; 3: Group. *)
Definition w : world :=
  {| w_kind := fun c => match c with 2 => KList | _ => KRecord end;
     w_props := fun c => match c with
       | 0 => [vprop "name" t_str; vprop "age" t_int; vprop "home" (TCls 1 None)]
       | 1 => [vprop "street" t_str; vprop "zip" TAny]
       | 3 => [vprop "title" t_str; vprop "people" (TCls 2 None)]
       | _ => []
       end;
     w_item := fun c => match c with 2 => TCls 0 None | _ => TAny end;
     w_sub := fun c d => Nat.eqb c d |}.
(** 0: a class with a property of the same class *)
Definition knot : world :=
  {| w_kind := fun _ => KRecord;
     w_props := fun c => match c with 0 => [vprop "name" t_str; vprop "next" (TCls 0 None)] | _ => [] end;
     w_item := fun _ => TAny; w_sub := fun c d => Nat.eqb c d |}.
Definition street : pyv := PObj 1 [(s2l "street", PStr (s2l "High St"))].
Definition al : pyv := PObj 0 [(s2l "name", PStr (s2l "Al")); (s2l "home", street)].
Definition bo : pyv := PObj 0 [(s2l "name", PStr (s2l "Bo"))].
Definition group : pyv := PObj 3 [(s2l "people", PObj 2 [(s2l "_values", PList [al])])].
(** a hook that marks what is not set *)
Definition mark : list elem -> option prop -> option pyv -> out pyv :=
  fun _ _ x => Val match x with Some v => v | None => PStr (s2l "?") end.
Definition rec := call w (fun _ => Err ValueErr) (fun l => l) 1.
Definition go f v c := visit_e w default_opts true f 9 (Some v) c [].
Definition back j c := cast_e w default_opts true default_apply_e rec (fun l => l) 9 (Some j) c [].
End Ex.
Import Ex.

Ltac in_cases := repeat match goal with
  | H : In _ (_ :: _) |- _ => destruct H
  | H : In _ [] |- _ => destruct H
  | H : _ \/ _ |- _ => destruct H
  | H : False |- _ => destruct H
  end; subst.

Lemma ex_sound : sound_types w.
Proof.
  intros c. split.
  - destruct c as [|[|[|[|c]]]]; simpl; repeat (apply NoDup_cons; [simpl; intuition discriminate|]); apply NoDup_nil.
  - intros C p I. destruct c as [|[|[|[|c]]]]; simpl in I; in_cases; split; discriminate.
Qed.
Lemma ex_shown q p : q_extraneous p = false -> shown default_opts None q p.
Proof. intros E. split; [|exact I]. intros [X _]. congruence. Qed.

Example C61_case : filter_of default_opts None /\ sound_types w /\
  go mark group 3 = Val (PDict [(s2l "title", PStr (s2l "?"));
    (s2l "people", PList [PDict [(s2l "name", PStr (s2l "Al")); (s2l "age", PStr (s2l "?"));
       (s2l "home", PDict [(s2l "street", PStr (s2l "High St")); (s2l "zip", PStr (s2l "?"))])]])]) /\
  meets w default_opts None true 3 (Some group) [] [EStr (s2l "people"); EInt 0; EStr (s2l "age")]
    (Leaf (Some (vprop "age" t_int)) None) /\
  go mark al 0 = Val (PDict [(s2l "name", PStr (s2l "Al")); (s2l "age", PStr (s2l "?"));
       (s2l "home", PDict [(s2l "street", PStr (s2l "High St")); (s2l "zip", PStr (s2l "?"))])]) /\
  down w default_opts None 0 (Some al) [] [s2l "home"; s2l "zip"] (vprop "zip" TAny) None.
Proof.
  split; [reflexivity|]. split; [exact ex_sound|]. split; [vm_compute; reflexivity|]. split.
  - apply (mt_slot w default_opts None true 3 (Some group) [] (vprop "people" (TCls 2 None)) 2); [simpl; auto|now apply ex_shown|reflexivity|reflexivity|].
    apply (mt_item w default_opts None true 2 _ _ (EInt 0) al 0 None); [split; discriminate| |reflexivity|].
    { exists (PList [al]). split; [reflexivity|]. split; [lia|reflexivity]. }
    refine (mt_leaf w default_opts None true 0 (Some al) [EStr (s2l "people"); EInt 0] (vprop "age" t_int) _ _ _ _); [simpl; auto|now apply ex_shown|reflexivity|].
    intros d [].
  - split; [vm_compute; reflexivity|].
    apply (dn_slot w default_opts None 0 (Some al) [] (vprop "home" (TCls 1 None)) 1); [simpl; auto|now apply ex_shown|reflexivity|].
    refine (dn_leaf w default_opts None 1 (Some street) [EStr (s2l "home")] (vprop "zip" TAny) _ _ _); [simpl; auto|now apply ex_shown|]. intros d [].
Qed.

(** nothing of a record class is missing in [al] and [group] *)
Lemma ex_street q q' d : ~ meets w default_opts None true 1 (Some street) q q' (Node d None).
Proof.
  intros M. inversion M as [| |c v q0 p d' q1 t Ip S X T M'|c v q0 k x C|c v q0 k x d' co q1 t C]; subst; [|now destruct C].
  simpl in Ip. in_cases.
  - destruct T.
  - destruct T.
Qed.
Lemma ex_al q q' d : ~ meets w default_opts None true 0 (Some al) q q' (Node d None).
Proof.
  intros M. inversion M as [| |c v q0 p d' q1 t Ip S X T M'|c v q0 k x C|c v q0 k x d' co q1 t C]; subst; [|now destruct C].
  simpl in Ip. in_cases.
  - destruct T.
  - destruct T.
  - simpl in T. subst d'. exact (ex_street _ _ _ M').
Qed.
Lemma ex_group q q' d : ~ meets w default_opts None true 3 (Some group) q q' (Node d None).
Proof.
  intros M. inversion M as [| |c v q0 p d' q1 t Ip S X T M'|c v q0 k x C|c v q0 k x d' co q1 t C]; subst; [|now destruct C].
  simpl in Ip. in_cases.
  - destruct T.
  - simpl in T. subst d'. cbn [held_at] in M'.
    inversion M' as [| |c v q0 p d' q1 t Ip S' X' T M''|c v q0 k x C|c v q0 k x d' co q1 t C HI T M'']; subst; [destruct Ip|].
    simpl in T. injection T as <- <-. destruct HI as (l & E & A). vm_compute in E. injection E as <-.
    destruct k as [s|i|]; try tauto. destruct A as [Hi A]. destruct (Z.to_nat i) as [|j]; simpl in A.
    + injection A as <-. exact (ex_al _ _ _ M'').
    + destruct j; discriminate A.
Qed.
Example C61_same_case : filter_of default_opts None /\ v_ignore_none default_opts = true /\
  (forall q d, ~ meets w default_opts None true 3 (Some group) [] q (Node d None)) /\
  go default_apply_e group 3 = Val (PDict [(s2l "people", PList [PDict [(s2l "name", PStr (s2l "Al"));
       (s2l "home", PDict [(s2l "street", PStr (s2l "High St"))])]])]).
Proof. split; [reflexivity|]. split; [reflexivity|]. split; [intros q d; apply ex_group|]. vm_compute. reflexivity. Qed.

Example C61_ends_case : (forall d, bounded w default_opts d) /\
  (forall q p x pa, mark q p x <> Exc pa RecursionErr) /\
  go mark bo 0 = Val (PDict [(s2l "name", PStr (s2l "Bo")); (s2l "age", PStr (s2l "?"));
       (s2l "home", PDict [(s2l "street", PStr (s2l "?")); (s2l "zip", PStr (s2l "?"))])]).
Proof.
  assert (B1 : bounded w default_opts 1) by (constructor; intros p d co I; simpl in I; in_cases; discriminate).
  assert (B2 : bounded w default_opts 2) by (constructor; intros p d co []).
  split; [|split; [discriminate|vm_compute; reflexivity]].
  intros [|[|[|[|d]]]]; auto; constructor; intros p d' co I; simpl in I; in_cases; try discriminate; intros _ T; injection T as <- <-; auto.
Qed.

Example C61_cast_same_case : (forall q d, ~ cmeets w default_opts None 0
      (Some (PDict [(s2l "name", PStr (s2l "Al")); (s2l "home", PDict [(s2l "street", PStr (s2l "High St"))])])) [] q (Node d None)) /\
  back (PDict [(s2l "name", PStr (s2l "Al")); (s2l "home", PDict [(s2l "street", PStr (s2l "High St"))])]) 0 = Val al.
Proof.
  split; [|vm_compute; reflexivity]. intros q d M.
  inversion M as [| |c v q0 p d' q1 t Ip S T M'|c v w' q0 k x d' co q1 t C]; subst; [|now destruct C].
  simpl in Ip. in_cases; [destruct T|destruct T|]. simpl in T. subst d'. cbn [key_of] in M'.
  inversion M' as [| |c v q0 p d' q1 t Ip S' T M''|c v w' q0 k x d' co q1 t C]; subst; [|now destruct C].
  simpl in Ip. in_cases; destruct T.
Qed.

(** *** Where it does not do what is documented *)

(** "your apply method will be called even if there is no corresponding value in the input"
    (visitor.py:46-49): not for properties of a record class.  The hook here fails if called for home,
    which is not set; the visit succeeds all the same. *)
Theorem C61_not_called_refuted : exists f out,
  In (vprop "home" (TCls 1 None)) (w_props w 0) /\ shown default_opts None [] (vprop "home" (TCls 1 None)) /\
  held_at (Some bo) (s2l "home") = None /\
  (forall p x, f [EStr (s2l "home")] p x = Exc [] ValueErr) /\
  visit_e w default_opts true f 9 (Some bo) 0 [] = Val out.
Proof.
  exists (fun q _ x => match q with [EStr _] => if match q with [k] => elem_eqb k (EStr (s2l "home")) | _ => false end
                                          then Exc [] ValueErr else default_apply_e q None x
                  | _ => default_apply_e q None x end).
  eexists. split; [simpl; auto|]. split; [now apply ex_shown|]. split; [reflexivity|]. split; [reflexivity|].
  vm_compute. reflexivity.
Qed.

(** Instead the record shows as an empty one, and comes back so. *)
Theorem C61_phantom_refuted : exists j x,
  visit_e w default_opts true default_apply_e 9 (Some bo) 0 [] = Val j /\
  cast w default_opts default_apply rec (fun l => l) j 0 [] = Val x /\
  held_at (Some bo) (s2l "home") = None /\ held_at (Some x) (s2l "home") = Some (PObj 1 []).
Proof.
  exists (PDict [(s2l "name", PStr (s2l "Bo")); (s2l "home", PDict [])]).
  exists (PObj 0 [(s2l "name", PStr (s2l "Bo")); (s2l "home", PObj 1 [])]).
  repeat split; vm_compute; reflexivity.
Qed.

(** A collection that is not set makes the visit fail, whatever the hook. *)
Theorem C61_collection_refuted : exists v, forall f n out,
  held_at (Some v) (s2l "people") = None /\
  visit_e w default_opts false default_apply_e 9 (Some v) 3 [] = Val (PDict [(s2l "title", PStr (s2l "us"))]) /\
  visit_e w default_opts true f n (Some v) 3 [] <> Val out.
Proof.
  exists (PObj 3 [(s2l "title", PStr (s2l "us"))]). intros f n out. split; [reflexivity|]. split; [vm_compute; reflexivity|].
  intros E.
  assert (M : meets w default_opts None true 3 (Some (PObj 3 [(s2l "title", PStr (s2l "us"))])) [] [EStr (s2l "people")] (Node 2 None)).
  { apply (mt_slot w default_opts None true 3 _ [] (vprop "people" (TCls 2 None)) 2); [simpl; auto|now apply ex_shown|reflexivity|reflexivity|].
    apply mt_here. }
  destruct (all_met w default_opts None eq_refl true f 3 _ [] _ _ M n out E) as (m & y & _ & Y).
  destruct m; discriminate Y.
Qed.

(** So does a class with a property of the same class: the descent never ends. *)
Theorem C61_cyclic_refuted : exists v, forall f n out,
  visit_e knot default_opts false default_apply_e 9 (Some v) 0 [] = Val (PDict [(s2l "name", PStr (s2l "a"))]) /\
  visit_e knot default_opts true f n (Some v) 0 [] <> Val out.
Proof.
  exists (PObj 0 [(s2l "name", PStr (s2l "a"))]). intros f n out. split; [vm_compute; reflexivity|].
  apply (C61_endless knot default_opts f n 0 _ [EStr (s2l "next")] 0 out eq_refl).
  - apply (mt_slot knot default_opts None true 0 _ [] (vprop "next" (TCls 0 None)) 0); [simpl; auto|now apply ex_shown|reflexivity|reflexivity|].
    apply mt_here.
  - apply (wi_one knot default_opts 0 (vprop "next" (TCls 0 None)) 0 None); [simpl; auto| |reflexivity]. intros [X _]; discriminate X.
Qed.

(** Casting data without a key for a record fails, with any hook. *)
Theorem C61_cast_refuted : exists j x, forall f n y,
  cast w default_opts default_apply rec (fun l => l) j 0 [] = Val x /\
  cast_e w default_opts true f rec (fun l => l) n (Some j) 0 [] <> Val y.
Proof.
  exists (PDict [(s2l "name", PStr (s2l "Bo"))]), bo. intros f n y. split; [vm_compute; reflexivity|].
  apply (C61_cast_absent w default_opts None f rec _ n 0 _ (vprop "home" (TCls 1 None)) 1 None y eq_refl);
    [simpl; auto|now apply ex_shown|reflexivity|reflexivity|].
  left. exists (vprop "street" t_str). split; [simpl; auto|now apply ex_shown].
Qed.

Print Assumptions C61_off.
Print Assumptions C61_cast_off.
Print Assumptions C61_called.
Print Assumptions C61_only.
Print Assumptions C61_placed.
Print Assumptions C61_same.
Print Assumptions C61_default.
Print Assumptions C61_ends.
Print Assumptions C61_endless.
Print Assumptions C61_cast_same.
Print Assumptions C61_cast_absent.
Print Assumptions C61_not_called_refuted.
Print Assumptions C61_phantom_refuted.
Print Assumptions C61_collection_refuted.
Print Assumptions C61_cyclic_refuted.
Print Assumptions C61_cast_refuted.
