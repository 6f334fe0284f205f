(** C35: subtypes. *)
From Coq Require Import String List NArith Bool Permutation.
From Verif Require Import Prelude PropModel PropProofs PropProps SubModel.
Import ListNotations.

Arguments SBase {A W}. Arguments SSub {A W}. Arguments inst {A W}. Arguments sub_call {A W}. Arguments sub_prop {A W}.

Section Sub.
Context {A W : Type}.
Notation V := (pval A).
Notation styp := (styp A W).
Notation coercion := (V -> W -> cres A * W).

(** ** Specification: a value conforms to a subtype if it conforms to the base type and
    the predicate answers yes (and does not raise). *)
Inductive conforms : styp -> V -> Prop :=
| conf_base isa v : isa v = true -> conforms (SBase isa) v
| conf_sub of wh c v : conforms of v -> wh v = Ok true -> conforms (SSub of wh c) v.

(** The types a subtype is made from, outermost first. *)
Inductive part_of : styp -> styp -> Prop :=
| part_refl t : part_of t t
| part_sub t of wh c : part_of t of -> part_of t (SSub of wh c).

(** [isinstance] decides conformance. *)
Theorem C35_isinstance (t : styp) (v : V) : inst t v = true <-> conforms t v.
Proof.
  split.
  - revert v. induction t as [isa|of IH wh c]; simpl; intros v h; [now constructor|].
    destruct (inst of v) eqn:e; [|discriminate]. destruct (wh v) as [b|x] eqn:ew; [|discriminate].
    subst b. constructor; auto.
  - induction 1 as [isa v h|of wh c v h1 IH h2]; simpl; auto. now rewrite IH, h2.
Qed.
Lemma inst_false (t : styp) (v : V) : inst t v = false <-> ~ conforms t v.
Proof. rewrite <- C35_isinstance. destruct (inst t v); intuition congruence. Qed.

(** A conforming value conforms to every type it is made from; and a predicate, at any
    depth, that raises or answers no makes the value non-conforming. *)
Theorem C35_parts (t : styp) (v : V) : conforms t v <->
  (forall isa, part_of (SBase isa) t -> isa v = true) /\
  (forall of wh c, part_of (SSub of wh c) t -> wh v = Ok true).
Proof.
  split.
  - intros h. split.
    + induction h as [isa' v h|of wh c v h1 IH h2]; intros isa p; inversion p; subst; auto.
    + induction h as [isa' v h|of wh c v h1 IH h2]; intros of' wh' c' p; inversion p; subst; eauto.
  - intros [h1 h2]. induction t as [isa|of IH wh c].
    + constructor. apply h1. constructor.
    + constructor.
      * apply IH; [intros isa p; apply h1|intros o w c' p; eapply h2]; constructor; exact p.
      * eapply h2. constructor.
Qed.

(** ** Calling a subtype *)

(** A conforming value is returned as it is; nothing is run. *)
Theorem C35_unchanged of wh c (v : V) (w : W) :
  conforms (SSub of wh c) v -> sub_call of wh c v w = (CRet v, w).
Proof. intros h. unfold sub_call. apply C35_isinstance in h. now rewrite h. Qed.

(** Whatever is returned conforms; it is the value passed, or what the coercion made of it. *)
Theorem C35_result of wh c (v r : V) (w w' : W) :
  sub_call of wh c v w = (CRet r, w') ->
  conforms (SSub of wh c) r /\
  ((conforms (SSub of wh c) v /\ r = v /\ w' = w) \/
   (~ conforms (SSub of wh c) v /\ exists f, c = Some f /\ f v w = (CRet r, w'))).
Proof.
  unfold sub_call. destruct (inst (SSub of wh c) v) eqn:e.
  - intros E; injection E as <- <-. apply C35_isinstance in e. auto.
  - apply inst_false in e. destruct c as [f|]; [|discriminate].
    destruct (f v w) as [[x|x|x] w1] eqn:ef; [|discriminate|discriminate].
    destruct (inst (SSub of wh (Some f)) x) eqn:ex; [|discriminate].
    intros E; injection E as <- <-. apply C35_isinstance in ex. split; auto. right. split; auto. exists f. auto.
Qed.

(** Exactly what happens to a value that does not conform. *)
Theorem C35_nonconforming of wh c (v : V) (w : W) : ~ conforms (SSub of wh c) v ->
  (c = None -> sub_call of wh c v w = (CRaise SubtypeNoCoerce, w)) /\
  (forall f w', c = Some f ->
     (forall r, f v w = (CRet r, w') -> conforms (SSub of wh c) r -> sub_call of wh c v w = (CRet r, w')) /\
     (forall r, f v w = (CRet r, w') -> ~ conforms (SSub of wh c) r -> sub_call of wh c v w = (CSubtype r, w')) /\
     (forall r, f v w = (CSubtype r, w') -> sub_call of wh c v w = (CSubtype r, w')) /\
     (forall e, f v w = (CRaise e, w') -> sub_call of wh c v w = (CRaise e, w'))).
Proof.
  intros h. apply inst_false in h. unfold sub_call. rewrite h. split.
  - intros ->. reflexivity.
  - intros f w' ->. repeat split; intros r E; rewrite E; auto; intros h2.
    + apply C35_isinstance in h2. now rewrite h2.
    + apply inst_false in h2. now rewrite h2.
Qed.

(** Calling is idempotent. *)
Theorem C35_idempotent of wh c (v r : V) (w w' w2 : W) :
  sub_call of wh c v w = (CRet r, w') -> sub_call of wh c r w2 = (CRet r, w2).
Proof. intros E. apply C35_unchanged. now apply C35_result in E as [E _]. Qed.

(** ** As the type of a property *)

(** What the property makes of a value: [made v w r w'], the coercion turns [v] into [r]
    whether or not that conforms. *)
Definition made (f : coercion) (v : V) (w : W) (r : V) (w' : W) : Prop :=
  f v w = (CRet r, w') \/ f v w = (CSubtype r, w').

Lemma made_call of wh c f v w r w' : c = Some f -> ~ conforms (SSub of wh c) v ->
  made f v w r w' -> made (sub_call of wh c) v w r w'.
Proof.
  intros -> h [E|E]; destruct (C35_nonconforming of wh (Some f) v w h) as [_ k];
    destruct (k f w' eq_refl) as (k1 & k2 & k3 & _).
  - destruct (inst (SSub of wh (Some f)) r) eqn:e.
    + left. apply k1; auto. now apply C35_isinstance.
    + right. apply k2; auto. now apply inst_false.
  - right. auto.
Qed.

Lemma opt_cases {X} (o : option X) : o = None \/ exists x, o = Some x.
Proof. destruct o; eauto. Qed.

Section Property.
Variables (of : styp) (wh : V -> res bool) (c own : option coercion) (lz req : bool) (set : setter)
  (chk : option (V -> res bool)) (dflt : deflt A W) (v1 : V) (eqv1 : V -> bool).
Let S := SSub of wh c.
Let P := sub_prop of wh c own lz req set chk dflt v1 eqv1.
(** The coercion in force: the property's own, else the subtype's. *)
Definition effective : option coercion := match own with Some f => Some f | None => c end.

Definition checked (v : V) : res V :=
  match chk with
  | None => Ok v
  | Some f => match f v with Ok true => Ok v | Ok false => Err ValueCheckErr | Err e => Err e end
  end.
Lemma run_checked v : run_check P v = checked v.
Proof. unfold run_check, checked, P, sub_prop. simpl. destruct chk as [f|]; reflexivity. Qed.

Definition accept_coerced (none_ok : bool) (r : V) : res V :=
  if inst S r then checked r
  else match r with
       | PNone => if none_ok && negb req then Ok PUnset else Err ValueCoercionErr
       | _ => Err ValueCoercionErr
       end.

Lemma ts_nonconforming v none_ok w : ~ conforms S v ->
  type_safe_value P v none_ok w =
  (match effective with
   | None => (Err CoerceErr, w)
   | Some f => match f v w with
               | (CRet r, w') | (CSubtype r, w') => (accept_coerced none_ok r, w')
               | (CRaise _, w') => (Err CoerceErr, w')
               end
   end).
Proof.
  intros h. pose proof h as h'. apply inst_false in h. unfold type_safe_value. cbn [P sub_prop p_isa p_required p_coerce no_isa].
  rewrite andb_false_r. fold S. rewrite h.
  assert (J : forall r, (if negb (inst S r) then if none_ok && is_none r && negb req then Ok PUnset else Err ValueCoercionErr
                   else run_check P r) = accept_coerced none_ok r).
  { intros r. unfold accept_coerced. rewrite run_checked. destruct (inst S r); simpl; auto.
    destruct r; simpl; rewrite ?andb_true_r, ?andb_false_r; auto. }
  unfold effective. destruct own as [f|] eqn:eo.
  - destruct (f v w) as [[r|r|e] w']; rewrite ?J; reflexivity.
  - unfold sub_call. fold S. rewrite h. destruct (opt_cases c) as [E|[f E]]; rewrite E; [reflexivity|].
    destruct (f v w) as [[r|r|e] w']; [|now rewrite J|reflexivity].
    destruct (inst S r); now rewrite J.
Qed.

(** A property of a subtype yields conforming values only; or drops the slot, which takes
    an optional property under construction and a coercion that gave None. *)
Theorem C35_property v none_ok w r w' :
  type_safe_value P v none_ok w = (Ok r, w') ->
  (conforms S r /\ checked r = Ok r /\
   ((conforms S v /\ r = v /\ w' = w) \/
    (~ conforms S v /\ exists f, effective = Some f /\ made f v w r w'))) \/
  (r = PUnset /\ none_ok = true /\ req = false /\ ~ conforms S v /\ ~ conforms S PNone /\
   exists f, effective = Some f /\ made f v w PNone w').
Proof.
  assert (K : forall x y, checked x = Ok y -> y = x /\ checked x = Ok x).
  { intros x y. unfold checked. destruct chk as [f|]; [|intros E; injection E as <-; auto].
    destruct (f x) as [[|]|]; try discriminate. intros E; injection E as <-; auto. }
  destruct (inst S v) eqn:e.
  - unfold type_safe_value. cbn [P sub_prop p_isa p_required p_coerce no_isa]. rewrite andb_false_r. fold S. rewrite e, run_checked.
    intros E; injection E as E <-. apply K in E as [-> E]. apply C35_isinstance in e. left. auto 6.
  - apply inst_false in e. rewrite (ts_nonconforming v none_ok w e).
    destruct effective as [f|] eqn:ef; [|discriminate].
    assert (M : forall x wx, made f v w x wx -> accept_coerced none_ok x = Ok r ->
      (conforms S r /\ checked r = Ok r /\
       ((conforms S v /\ r = v /\ wx = w) \/
        (~ conforms S v /\ exists f0, Some f = Some f0 /\ made f0 v w r wx))) \/
      (r = PUnset /\ none_ok = true /\ req = false /\ ~ conforms S v /\ ~ conforms S PNone /\
       exists f0, Some f = Some f0 /\ made f0 v w PNone wx)).
    { intros x wx m. unfold accept_coerced. destruct (inst S x) eqn:ex.
      - intros E. apply K in E as [-> E]. apply C35_isinstance in ex. left. split; auto. split; auto. right. split; auto.
        exists f. auto.
      - apply inst_false in ex. destruct x as [| |a]; try discriminate.
        destruct none_ok, req; simpl; try discriminate. intros E; injection E as <-. right. repeat split; auto.
        exists f. auto. }
    destruct (f v w) as [[x|x|x] wx] eqn:ex; [| |discriminate]; intros E; injection E as E <-; apply (M x wx); auto;
      [now left|now right].
Qed.

(** A conforming value is not coerced at all, only checked. *)
Theorem C35_property_conforming v none_ok w : conforms S v -> type_safe_value P v none_ok w = (checked v, w).
Proof.
  intros h. apply C35_isinstance in h. unfold type_safe_value. cbn [P sub_prop p_isa p_required p_coerce no_isa].
  rewrite andb_false_r. fold S. now rewrite h, run_checked.
Qed.

(** A coercion that gives None, where None does not conform: an optional slot is left unset
    by the constructor, a required one is an error; assignment is an error, and keeps what
    was there.  [C] is the class. *)
Theorem C35_none_at_construction C fuel n v st f w' : find n C = Some P -> v <> PUnset ->
  ~ conforms S v -> ~ conforms S PNone -> effective = Some f -> made f v (world st) PNone w' ->
  init_prop C fuel n P (Some v) st = (if req then Err ValueCoercionErr else Ok tt, set_world w' st).
Proof.
  intros _ hu hv hn hf hm. unfold init_prop. cbn iota. destruct (is_unset v) eqn:eu; [destruct v; try discriminate; congruence|].
  rewrite (ts_nonconforming v true (world st) hv), hf. apply inst_false in hn.
  assert (J : accept_coerced true PNone = if req then Err ValueCoercionErr else Ok PUnset).
  { unfold accept_coerced. rewrite hn. destruct req; reflexivity. }
  destruct hm as [-> | ->]; rewrite J; destruct req eqn:er; simpl; auto.
Qed.

Theorem C35_none_on_assignment C n v st f w' : find n C = Some P -> set = Safe ->
  ~ conforms S v -> ~ conforms S PNone -> effective = Some f -> made f v (world st) PNone w' ->
  setattr C n v st = (Err ValueCoercionErr, set_world w' st).
Proof.
  intros hf hs hv hn he hm. unfold setattr. rewrite hf. assert (hp : p_set P = Safe) by exact hs. rewrite hp. unfold safe_set.
  rewrite (ts_nonconforming v false (world st) hv), he. apply inst_false in hn.
  assert (J : accept_coerced false PNone = Err ValueCoercionErr).
  { unfold accept_coerced. rewrite hn. reflexivity. }
  destruct hm as [-> | ->]; rewrite J; reflexivity.
Qed.

(** Without any coercion, a non-conforming value is refused both ways. *)
Theorem C35_no_coercion v none_ok w : effective = None -> ~ conforms S v ->
  type_safe_value P v none_ok w = (Err CoerceErr, w).
Proof. intros he hv. rewrite (ts_nonconforming v none_ok w hv), he. reflexivity. Qed.

(** In every record that exists, whatever was done to it, the slot of such a property holds
    a conforming value if it is set. *)
Theorem C35_slots C st n v : reachable C st -> find n C = Some P -> set <> Unsafe -> slots st n = Some v -> conforms S v.
Proof.
  intros hr hf hs hv. apply C35_isinstance.
  destruct (C13_type_safe C st hr n P v hf hs hv) as [h _]. apply (h (inst S)). reflexivity.
Qed.
End Property.
End Sub.

(** ** Examples: a type of short numbers, halved by its coercion; even ones of those *)
Section Examples.
Local Open Scope list_scope.
Notation V := (pval nat).
Definition nums : styp nat unit := SBase (fun v => match v with PV _ => true | _ => false end).
Definition below10 (v : V) : res bool := match v with PV n => Ok (Nat.ltb n 10) | _ => Err TypeErr end.
Definition halve (v : V) (w : unit) : cres nat * unit :=
  match v with PV n => (if Nat.eqb n 100 then CRet PNone else CRet (PV (Nat.div2 n)), w) | _ => (CRaise TypeErr, w) end.
Definition even_or_fail (v : V) : res bool := match v with PV 7 => Err UserErr | PV n => Ok (Nat.even n) | _ => Ok true end.
Definition short : styp nat unit := SSub nums below10 (Some halve).
Definition evens : styp nat unit := SSub short even_or_fail (Some (sub_call nums below10 (Some halve))).

Example ex_conforms : conforms evens (PV 4) /\ ~ conforms evens (PV 5) /\ ~ conforms evens (PV 7) /\ ~ conforms evens PNone.
Proof. repeat split; rewrite <- ?C35_isinstance; try discriminate; reflexivity. Qed.
Example ex_part : part_of nums evens.
Proof. repeat constructor. Qed.
Example ex_call : sub_call nums below10 (Some halve) (PV 16) tt = (CRet (PV 8), tt)
  /\ sub_call nums below10 (Some halve) (PV 6) tt = (CRet (PV 6), tt)
  /\ sub_call nums below10 (Some halve) (PV 60) tt = (CSubtype (PV 30), tt)
  /\ sub_call nums below10 (Some halve) PNone tt = (CRaise TypeErr, tt)
  /\ sub_call nums below10 None (PV 60) tt = (CRaise SubtypeNoCoerce, tt).
Proof. repeat split. Qed.
(** nested: the outer coercion is the inner subtype *)
Example ex_nested : sub_call short even_or_fail (Some (sub_call nums below10 (Some halve))) (PV 12) tt = (CRet (PV 6), tt)
  /\ sub_call short even_or_fail (Some (sub_call nums below10 (Some halve))) (PV 14) tt = (CSubtype (PV 7), tt)
  /\ sub_call short even_or_fail (Some (sub_call nums below10 (Some halve))) (PV 60) tt = (CSubtype (PV 30), tt).
Proof. repeat split. Qed.
Definition ex_prop (req : bool) : prop nat unit :=
  sub_prop nums below10 (Some halve) None false req Safe None DNone PNone (fun _ => false).
Definition ex_cls : cls nat unit := [(s2l "n", ex_prop false)].
Example ex_property : type_safe_value (ex_prop false) (PV 16) false tt = (Ok (PV 8), tt)
  /\ type_safe_value (ex_prop false) (PV 100) true tt = (Ok PUnset, tt)
  /\ type_safe_value (ex_prop false) (PV 100) false tt = (Err ValueCoercionErr, tt)
  /\ type_safe_value (ex_prop true) (PV 100) true tt = (Err ValueCoercionErr, tt)
  /\ type_safe_value (ex_prop false) (PV 60) true tt = (Err ValueCoercionErr, tt)
  /\ type_safe_value (ex_prop false) PNone true tt = (Err CoerceErr, tt).
Proof. repeat split. Qed.
(** the hypotheses of the two theorems on None *)
Example ex_none : find (s2l "n") ex_cls = Some (ex_prop false) /\ PV 100 <> (PUnset : V) /\
  ~ conforms short (PV 100) /\ ~ conforms short PNone /\
  effective (Some halve) None = Some halve /\ made halve (PV 100) tt PNone tt.
Proof.
  split; [reflexivity|]. split; [discriminate|]. split; [rewrite <- C35_isinstance; discriminate|].
  split; [rewrite <- C35_isinstance; discriminate|]. split; [reflexivity|]. now left.
Qed.
Example ex_reached : exists st, reachable ex_cls st /\ slots st (s2l "n") = Some (PV 8).
Proof.
  eexists. split.
  - exists (fun l => l), 5, None, [(s2l "n", PV 6)], tt. eexists. exists 5, [OSet (s2l "n") (PV 16)], [Done (Ok tt)].
    split; [auto|]. split; reflexivity.
  - reflexivity.
Qed.
(** a property without any coercion *)
Example ex_no_coercion : type_safe_value (sub_prop nums below10 None None false false Safe None DNone PNone (fun _ => false)) (PV 60) true tt
  = (Err CoerceErr, tt).
Proof. reflexivity. Qed.
End Examples.

(** ** What does not hold: a subtype made from another one does not inherit its coercion,
    though everything that coercion returns may conform. *)
Theorem C35_coercion_inherited_refuted : exists (of : styp nat unit) wh f wh2 v r,
  sub_call of wh (Some f) v tt = (CRet r, tt) /\ wh2 r = Ok true /\
  sub_call (SSub of wh (Some f)) wh2 None v tt = (CRaise SubtypeNoCoerce, tt).
Proof. exists nums, below10, halve, (fun _ => Ok true), (PV 16), (PV 8). repeat split. Qed.

Print Assumptions C35_isinstance.
Print Assumptions C35_parts.
Print Assumptions C35_unchanged.
Print Assumptions C35_result.
Print Assumptions C35_nonconforming.
Print Assumptions C35_idempotent.
Print Assumptions C35_property.
Print Assumptions C35_property_conforming.
Print Assumptions C35_none_at_construction.
Print Assumptions C35_none_on_assignment.
Print Assumptions C35_no_coercion.
Print Assumptions C35_slots.
Print Assumptions C35_coercion_inherited_refuted.
