(** C64: hooks of a visit know where they are. *)
From Coq Require Import String List Bool Arith Lia.
From Verif Require Import Prelude SelPathModel FSModel FSProofs HookModel HookSpec HookProofs.
Import ListNotations.
Local Open Scope list_scope.

Section Props.
Variable filtered : list elem -> elem -> bool.

(** Whatever hooks do, as long as they begin the generators they are given while their value is
    being visited (they may finish them at any time, in any order, or not): throughout every call of
    a hook the visitor it was given says where the value is, *)
Theorem C64_position s v p c : reach filtered timely s ->
  In (User v p c) (stack s) -> cues s v = selector p.
Proof.
  intros R J. destruct (reach_right filtered s R) as (I & Q).
  apply (frame_paths filtered s (stack s) (inv_core s I) Q (i_wf s I)) in J. tauto.
Qed.

(** and no hook is called for what the filter excludes. *)
Theorem C64_filter s v p c : reach filtered timely s ->
  In (User v p c) (stack s) -> admitted filtered p.
Proof.
  intros R J. destruct (reach_right filtered s R) as (I & Q).
  apply (frame_paths filtered s (stack s) (inv_core s I) Q (i_wf s I)) in J. tauto.
Qed.

(** Without any such condition: while a hook runs, its visitor's position stays what it was when it was
    called; *)
Theorem C64_kept s v p c : reach filtered anyhow s ->
  In (User v p c) (stack s) -> cues s v = c.
Proof.
  intros R J. pose proof (i_wf s (reach_inv filtered anyhow s R)) as W. revert J.
  induction W as [|v' p' stg made st H IH|v' g' k st H IH E|v' g' k stg made st H IH E M
                 |v' stg made f st H IH U L O C M|g' rv k f st H IH U L E N]; intros J;
    destruct J as [J|J]; try discriminate; try (exact (IH J)); try (injection J as <- <- <-; reflexivity).
  destruct J.
Qed.

(** a generator's visitor is at the place it was copied at, or at the key being visited there; *)
Theorem C64_own_visitor s g rv k : reach filtered anyhow s -> g < n_gens s ->
  g_phase (gens s g) = Suspended rv k \/ g_phase (gens s g) = Running rv k ->
  cues s rv = g_base (gens s g) ++ match k with Some k => [k] | None => [] end.
Proof. intros R L H. apply (i_cue s (reach_inv filtered anyhow s R) g rv k L H). Qed.

(** so the assertion in [pop] never fails: a generator that can run, does. *)
Theorem C64_pop s g rv k : reach filtered anyhow s -> g < n_gens s ->
  g_phase (gens s g) = Suspended rv (Some k) \/ g_phase (gens s g) = Running rv (Some k) ->
  exists s', pop s rv k = Some s' /\ cues s' rv = g_base (gens s g).
Proof.
  intros R L H. exists (with_cue s rv (g_base (gens s g))). split.
  - apply pop_app. apply (C64_own_visitor s g rv (Some k) R L H).
  - cbn. apply set_same.
Qed.
End Props.

(** ** Generators begun late *)
Lemma due filtered s f st g rv k c : stack s = f :: st -> raising s = false -> is_user f ->
  g < n_gens s -> g_phase (gens s g) = Suspended rv (Some k) -> cues s rv = c ++ [k] ->
  step filtered s (with_stack (with_phase (with_cue s rv c) g (Running rv None)) (Resume g :: stack s) false).
Proof. intros A B C D E F. apply (next_due filtered s (with_cue s rv c) f st g rv k); auto. apply pop_app, F. Qed.

Section Late.
Local Open Scope string_scope.
Let a := EStr (s2l "a").
Let b := EStr (s2l "b").
Let c := EStr (s2l "c").
Let d := EStr (s2l "d").
(** a.c is filtered, all else is not. *)
Let filtered (q : list elem) (k : elem) : bool :=
  match q with
  | [x] => elem_eqb x a && elem_eqb k c
  | _ => false
  end.
Arguments set {A} f n a !m /.
Ltac in_time :=
  intros g L E N1 N2; cbn in L; do 4 (try (destruct g as [|g];
    [cbn in E, N1, N2;
     first [discriminate E | congruence
           | do 4 eexists; split;
             [cbn; first [left; reflexivity|right; left; reflexivity|right; right; left; reflexivity
                   |right; right; right; left; reflexivity|right; right; right; right; left; reflexivity]
             |cbn; auto]]|])); lia.
Tactic Notation "go" hyp(R) uconstr(tm) :=
  match type of R with reach ?f ?ok ?s =>
    let S := fresh "S" in let h := fresh in let h2 := fresh in let R' := fresh in
    evar (S : state);
    assert (h : step f s S) by (subst S; eapply tm; first [reflexivity|exact I|cbn; lia]);
    assert (h2 : ok s S) by (subst S; first [exact I|in_time]);
    pose proof (reach_step f ok s S R h h2) as R'; clear h h2; clear R; rename R' into R; subst S;
    match type of R with reach _ _ ?x =>
      let y := eval cbn in x in change x with y in R end
  end.

(** Finding: [reduce] for the value at a returns its generator without having asked it for anything;
    it is begun after the visit has gone on to b.  The properties of the value at a are visited as if
    they were at b, and the one that is filtered is visited. *)
Theorem C64_late_refuted : exists filtered s v p c,
  reach filtered anyhow s /\ In (User v p c) (stack s)
  /\ cues s v <> selector p /\ ~ admitted filtered p
  /\ admitted filtered [(Props, EStr (s2l "a"))].
Proof.
  pose proof (reach_start filtered anyhow) as R.
  go R (visit _ _ Program []).
  go R (return_).
  go R (map_nocoll).
  go R (map_props).
  (* reduce of the whole asks for the first property, a *)
  go R (next_fresh _ _ _ _ 0).
  go R (gen_prop _ _ 0 _ _ a).
  go R (return_).
  go R (gen_map _ _ 0 _ _ a).
  go R (return_).
  go R (map_nocoll).
  go R (map_props).
  (* reduce of a returns at once *)
  go R (return_).
  go R (map_return).
  go R (gen_yield_prop _ _ 0 _ _ a).
  (* the next property, b *)
  go R (due _ _ _ _ 0 _ a []).
  go R (gen_prop _ _ 0 _ _ b).
  go R (return_).
  go R (gen_yield_prop _ _ 0 _ _ b).
  (* then what came for a is looked into *)
  go R (next_fresh _ _ _ _ 1).
  go R (gen_prop _ _ 1 _ _ c).
  exists filtered. eexists. exists 2, [(Props, a); (Props, c)]. eexists.
  split; [exact R|]. split; [left; reflexivity|]. split; [|split].
  - cbn. discriminate.
  - intros A. specialize (A [(Props, a)] c [] eq_refl). discriminate.
  - intros q k r E. destruct q as [|x [|y q]]; try discriminate. injection E as <- <-. reflexivity.
Qed.

(** A run with generators begun in time, but not finished: [reduce] for the value at a takes one pair
    and returns; the generator is run on when the visit is at b.  Its properties are still those of
    a. *)
Example C64_case : exists s v c', 
  reach filtered timely s /\ In (User v [(Props, a); (Props, d)] c') (stack s) /\ cues s v = [a; d]
  /\ g_phase (gens s 0) = Suspended 1 (Some b).
Proof.
  pose proof (reach_start filtered timely) as R.
  go R (visit _ _ Program []).
  go R (return_).
  go R (map_nocoll).
  go R (map_props).
  go R (next_fresh _ _ _ _ 0).
  go R (gen_prop _ _ 0 _ _ a).
  go R (return_).
  go R (gen_map _ _ 0 _ _ a).
  go R (return_).
  go R (map_nocoll).
  go R (map_props).
  (* reduce of a asks for one pair and returns *)
  go R (next_fresh _ _ _ _ 1).
  go R (gen_filtered _ _ 1 _ _ c).
  go R (gen_prop _ _ 1 _ _ b).
  go R (return_).
  go R (gen_yield_prop _ _ 1 _ _ b).
  go R (return_).
  go R (map_return).
  go R (gen_yield_prop _ _ 0 _ _ a).
  go R (due _ _ _ _ 0 _ a []).
  go R (gen_prop _ _ 0 _ _ b).
  go R (return_).
  go R (gen_yield_prop _ _ 0 _ _ b).
  (* the rest of a *)
  go R (due _ _ _ _ 1 _ b [a]).
  go R (gen_prop _ _ 1 _ _ d).
  eexists. exists 2. eexists.
  split; [exact R|]. split; [left; reflexivity|]. split; [|reflexivity].
  exact (C64_position filtered _ 2 [(Props, a); (Props, d)] _ R (or_introl eq_refl)).
Qed.
(** Without the condition: a suspended generator with a key to pop, and a hook running. *)
Example C64_case_anyhow : exists s s', 
  reach filtered anyhow s /\ g_phase (gens s 0) = Suspended 1 (Some a) /\ pop s 1 a = Some s'
  /\ cues s' 1 = [] /\ In (User 0 [] []) (stack s) /\ cues s 0 = [].
Proof.
  pose proof (reach_start filtered anyhow) as R.
  go R (visit _ _ Program []).
  go R (return_).
  go R (map_nocoll).
  go R (map_props).
  go R (next_fresh _ _ _ _ 0).
  go R (gen_prop _ _ 0 _ _ a).
  go R (return_).
  go R (gen_yield_prop _ _ 0 _ _ a).
  destruct (C64_pop filtered _ 0 1 a R (le_n 1) (or_introl eq_refl)) as (s' & P & C).
  eexists. exists s'. split; [exact R|]. split; [reflexivity|]. split; [exact P|]. split; [exact C|].
  split; [left; reflexivity|].
  exact (C64_kept filtered _ 0 [] [] R (or_introl eq_refl)).
Qed.
End Late.

Print Assumptions C64_position.
Print Assumptions C64_filter.
Print Assumptions C64_kept.
Print Assumptions C64_own_visitor.
Print Assumptions C64_pop.
Print Assumptions C64_late_refuted.
