From Coq Require Import List Arith Bool Lia.
From Verif Require Import Prelude OwnModel OwnSpec.
Import ListNotations.

Section Proofs.
Context {V : Type}.
Variable fits : V -> bool.
Variable coerce : V -> option V.
Notation store := (store V).
Notation coerce_value := (coerce_value fits coerce).
Notation coerce_all := (coerce_all fits coerce).
Notation step := (step fits coerce).
Notation coerced := (coerced fits coerce).
Notation all_coerced := (all_coerced fits coerce).

Lemma coerce_value_spec v w : coerce_value v = Some w -> coerced v w.
Proof. unfold OwnModel.coerce_value, OwnSpec.coerced. destruct (fits v); [intros Z; injection Z as <-; auto|auto]. Qed.
Lemma coerce_all_spec l m : coerce_all l = Some m -> all_coerced l m.
Proof.
  revert m. induction l as [|v l IH]; cbn; intros m H; [injection H as <-; constructor|].
  destruct (coerce_value v) as [w|] eqn:E; [|discriminate]. destruct (coerce_all l) as [m'|]; [|discriminate]. injection H as <-.
  constructor; [now apply coerce_value_spec|now apply IH].
Qed.
Lemma set_nth_length {X} r (x : X) l : length (set_nth r x l) = length l.
Proof. revert r. induction l; intros [|r]; cbn; auto. Qed.
Lemma set_nth_same {X} r (x : X) l : r < length l -> nth_error (set_nth r x l) r = Some x.
Proof. revert r. induction l; intros [|r] H; cbn in *; try lia; auto. apply IHl. lia. Qed.
Lemma set_nth_other {X} r q (x : X) l : r <> q -> nth_error (set_nth r x l) q = nth_error l q.
Proof. revert r q. induction l; intros [|r] [|q] H; cbn; auto; try lia. Qed.

(** Objects have different lists, which exist. *)
Definition private (s : store) : Prop := NoDup (map snd (objs s)) /\ forall o k r, nth_error (objs s) o = Some (k, r) -> r < length (lists s).
Definition valid (s : store) : Prop := forall o k r, nth_error (objs s) o = Some (k, r) -> r < length (lists s).

(** Only the list [r] may have changed. *)
Definition only (r : nat) (s s' : store) : Prop :=
  objs s' = objs s /\ length (lists s') = length (lists s) /\ forall q, q <> r -> nth_error (lists s') q = nth_error (lists s) q.
Lemma only_refl r s : only r s s.
Proof. repeat split; auto. Qed.
Lemma only_store r l s : only r s (store_list s r l).
Proof. split; [reflexivity|]. split; [apply set_nth_length|]. intros q Ne. apply set_nth_other. auto. Qed.
Lemma only_trans r s1 s2 s3 : only r s1 s2 -> only r s2 s3 -> only r s1 s3.
Proof. intros (A1 & A2 & A3) (B1 & B2 & B3). split; [congruence|]. split; [congruence|]. intros q Ne. rewrite B3, A3; auto. Qed.
Lemma only_extend_items r l s s' out : extend_items fits coerce s r l = (s', out) -> only r s s'.
Proof.
  revert s. induction l as [|v l IH]; cbn; intros s H; [injection H as <- <-; apply only_refl|].
  destruct (coerce_value v); [|injection H as <- <-; apply only_refl]. eapply only_trans; [apply only_store|eauto].
Qed.
Lemma only_extend_from n r q p s s' out : extend_from fits coerce n s r q p = (s', out) -> only r s s'.
Proof.
  revert s p. induction n as [|n IH]; cbn; intros s p H; [injection H as <- <-; apply only_refl|].
  destruct (nth_error _ p); [|injection H as <- <-; apply only_refl].
  destruct (coerce_value v); [|injection H as <- <-; apply only_refl]. eapply only_trans; [apply only_store|eauto].
Qed.

(** What a step can do *)
Inductive did (s : store) (x : op V) : store -> outcome -> Prop :=
| d_nothing out : (out = Raises \/ out = Nonsense) -> did s x s out
| d_changed s' o k r out : target x = Some o -> nth_error (objs s) o = Some (k, r) -> only r s s' -> (forall c, out <> Made c) -> did s x s' out
| d_new k l : target x = None -> did s x (Store (objs s ++ [(k, length (lists s))]) (lists s ++ [l])) (Made (length (objs s)))
| d_shared o r : x = Copied o -> nth_error (objs s) o = Some (Declared, r) ->
    did s x (Store (objs s ++ [(Declared, r)]) (lists s)) (Made (length (objs s))).
Lemma did_construct s x k l s' out : target x = None -> construct fits coerce s k l = (s', out) -> did s x s' out.
Proof.
  unfold construct, new. intros T. destruct (coerce_all l); intros H; injection H as <- <-; [now apply d_new|apply d_nothing; auto].
Qed.
Lemma step_did n s x s' out : step n s x = (s', out) -> did s x s' out.
Proof.
  assert (No : forall out, out = Raises \/ out = Nonsense -> did s x s out) by (intros; now apply d_nothing).
  assert (Upd : forall o k r l, target x = Some o -> nth_error (objs s) o = Some (k, r) -> did s x (store_list s r l) Done).
  { intros o k r l T E. eapply d_changed; eauto; [apply only_store|discriminate]. }
  assert (WC : forall o f, with_coll s o f = (s', out) -> (s' = s /\ out = Nonsense) \/
    exists k r l, k <> Plain /\ nth_error (objs s) o = Some (k, r) /\ nth_error (lists s) r = Some l /\ f k r l = (s', out)).
  { intros o f H. unfold with_coll in H. destruct (nth_error (objs s) o) as [[k r]|] eqn:E; [|injection H as <- <-; auto].
    destruct k; [| |injection H as <- <-; auto]; (destruct (nth_error (lists s) r) as [l|] eqn:El; [|injection H as <- <-; auto]);
      right; do 3 eexists; (split; [|eauto]); discriminate. }
  assert (WI : forall src f, with_items s src f = (s', out) -> (s' = s /\ out = Nonsense) \/ exists m, items s src = Some m /\ f m = (s', out)).
  { intros src f H. unfold with_items in H. destruct (items s src); [eauto|injection H as <- <-; auto]. }
  destruct x as [l|o l|k src|o v|o src|o lo hi src|o lo hi|o|o src|o lo hi|o|o]; cbn; intros H.
  - unfold new in H. injection H as <- <-. now apply d_new.
  - destruct (nth_error (objs s) o) as [[[] r]|] eqn:E; injection H as <- <-; auto. now eapply Upd; eauto.
  - destruct k; [| |injection H as <- <-; auto]; (apply WI in H as [[-> ->]|(m & _ & H)]; [auto|]); eapply did_construct; eauto.
  - apply WC in H as [[-> ->]|(k & r & l & _ & E & _ & H)]; auto. destruct (coerce_value v); injection H as <- <-; auto. now eapply Upd; eauto.
  - apply WC in H as [[-> ->]|(k & r & l & _ & E & _ & H)]; auto. destruct src as [m|p].
    + eapply d_changed; [reflexivity|exact E|eapply only_extend_items; eauto|].
      clear -H. revert s H. induction m as [|v m IH]; cbn; intros s H; [injection H as <- <-; discriminate|]. destruct (coerce_value v); [eauto|injection H as <- <-; discriminate].
    + destruct (nth_error (objs s) p) as [[kp q]|]; [|injection H as <- <-; auto].
      eapply d_changed; [reflexivity|exact E|eapply only_extend_from; eauto|].
      clear -H. revert s H. generalize 0. induction n as [|n IH]; cbn; intros j s H; [injection H as <- <-; discriminate|].
      destruct (nth_error _ j); [|injection H as <- <-; discriminate]. destruct (coerce_value v); [eauto|injection H as <- <-; discriminate].
  - apply WC in H as [[-> ->]|(k & r & l & _ & E & _ & H)]; auto. apply WI in H as [[-> ->]|(m & _ & H)]; auto.
    destruct (coerce_all m); injection H as <- <-; auto. now eapply Upd; eauto.
  - apply WC in H as [[-> ->]|(k & r & l & _ & E & _ & H)]; auto. injection H as <- <-. now eapply Upd; eauto.
  - apply WC in H as [[-> ->]|(k & r & l & _ & E & _ & H)]; auto. injection H as <- <-. now eapply Upd; eauto.
  - apply WC in H as [[-> ->]|(k & r & l & _ & E & _ & H)]; auto. apply WI in H as [[-> ->]|(m & _ & H)]; auto.
    match type of H with match ?c with _ => _ end = _ => destruct c end; [now eapply did_construct; eauto|injection H as <- <-; auto].
  - apply WC in H as [[-> ->]|(k & r & l & _ & E & _ & H)]; auto. unfold new in H. injection H as <- <-. now apply d_new.
  - destruct (nth_error (objs s) o) as [[[] r]|] eqn:E; destruct (contents s o); try (injection H as <- <-; auto; fail);
      try (unfold new in H; injection H as <- <-; now apply d_new). now eapply did_construct; eauto.
  - destruct (nth_error (objs s) o) as [[[] r]|] eqn:E; destruct (contents s o); try (injection H as <- <-; auto; fail);
      try (unfold new in H; injection H as <- <-; now apply d_new).
    + injection H as <- <-. eapply d_shared; eauto.
    + now eapply did_construct; eauto.
Qed.

Lemma nth_error_snoc {X} (l : list X) y o z : nth_error (l ++ [y]) o = Some z -> nth_error l o = Some z \/ (o = length l /\ z = y).
Proof.
  intros H. destruct (lt_dec o (length l)).
  - rewrite nth_error_app1 in H; auto.
  - rewrite nth_error_app2 in H by lia. destruct (o - length l) as [|m] eqn:E; cbn in H; [injection H as <-; right; split; auto; lia|destruct m; discriminate H].
Qed.
Lemma did_valid s x s' out : valid s -> did s x s' out -> valid s'.
Proof.
  intros Hv [out' _|s'' o k r out' T E (O1 & O2 & _) _|k l T|o r -> E]; auto; intros p kp q H; cbn in *.
  - rewrite O1 in H. rewrite O2. eauto.
  - rewrite app_length. cbn. apply nth_error_snoc in H as [H|[_ H]]; [apply Hv in H; lia|injection H as -> ->; lia].
  - apply nth_error_snoc in H as [H|[_ H]]; [eauto|injection H as -> ->; eauto].
Qed.
Lemma did_private s x s' out : private s -> ~ shallow s x -> did s x s' out -> private s'.
Proof.
  intros [N Hv] Sh D. split; [|exact (did_valid s x s' out Hv D)].
  destruct D as [out' _|s'' o k r out' T E (O1 & O2 & _) _|k l T|o r -> E]; auto.
  - now rewrite O1.
  - cbn. rewrite map_app. cbn. apply NoDup_remove_1 with (l' := []) (a := length (lists s)) || idtac.
    apply (NoDup_Add (a := length (lists s)) (l := map snd (objs s))); [rewrite <- (app_nil_r (map snd (objs s))) at 1; apply Add_app|]. split; auto.
    intros I. apply in_map_iff in I as ([k' r'] & E' & I). cbn in E'. subst r'. apply In_nth_error in I as (o & I). apply Hv in I. lia.
  - destruct Sh. now exists o, r.
Qed.
Lemma did_contents s x s' out o : private s -> did s x s' out -> target x <> Some o -> o < length (objs s) -> contents s' o = contents s o.
Proof.
  intros [N Hv] D T Lt. unfold contents.
  destruct D as [out' _|s'' p k r out' Tx E (O1 & O2 & O3) _|k l Tx|p r -> E]; auto; cbn [objs lists].
  - rewrite O1. destruct (nth_error (objs s) o) as [[k' r']|] eqn:Eo; auto. apply O3. intros ->. apply T. rewrite Tx. f_equal.
    apply (proj1 (NoDup_nth_error (map snd (objs s))) N).
    + rewrite map_length. apply nth_error_Some. congruence.
    + rewrite !nth_error_map, E, Eo. reflexivity.
  - rewrite nth_error_app1 by auto. destruct (nth_error (objs s) o) as [[k' r']|] eqn:Eo; auto. rewrite nth_error_app1; auto. now apply Hv in Eo.
  - now rewrite nth_error_app1 by auto.
Qed.

(** The effects *)
Lemma replace_split lo hi (m l : list V) : exists a b c, l = a ++ b ++ c /\ length a = Nat.min lo (length l) /\
  length (a ++ b) = Nat.min (Nat.max lo hi) (length l) /\ replace lo hi m l = a ++ m ++ c.
Proof.
  exists (firstn lo l), (firstn (Nat.max lo hi - lo) (skipn lo l)), (skipn (Nat.max lo hi) l).
  assert (E : firstn lo l ++ firstn (Nat.max lo hi - lo) (skipn lo l) = firstn (Nat.max lo hi) l).
  { rewrite firstn_skipn_comm. replace (lo + (Nat.max lo hi - lo)) with (Nat.max lo hi) by lia.
    rewrite <- (firstn_skipn lo (firstn (Nat.max lo hi) l)) at 2. f_equal. rewrite firstn_firstn. f_equal. lia. }
  split; [|split; [|split]].
  - rewrite app_assoc, E. now rewrite firstn_skipn.
  - apply firstn_length.
  - rewrite E. apply firstn_length.
  - reflexivity.
Qed.
Lemma extend_items_spec r l s s' : r < length (lists s) -> extend_items fits coerce s r l = (s', Done) ->
  exists m, all_coerced l m /\ nth r (lists s') [] = nth r (lists s) [] ++ m.
Proof.
  revert s. induction l as [|v l IH]; cbn; intros s Lt H; [injection H as <-; exists []; split; [constructor|now rewrite app_nil_r]|].
  destruct (coerce_value v) as [w|] eqn:E; [|discriminate H]. apply IH in H as (m & H1 & H2); [|cbn; now rewrite set_nth_length].
  exists (w :: m). split; [constructor; [now apply coerce_value_spec|auto]|]. rewrite H2. unfold store_list. cbn [lists].
  rewrite (nth_error_nth (set_nth r _ (lists s)) r [] (set_nth_same r _ (lists s) Lt)). now rewrite <- app_assoc.
Qed.
Lemma extend_from_spec n r q p s s' : r <> q -> r < length (lists s) -> extend_from fits coerce n s r q p = (s', Done) ->
  exists m, all_coerced (skipn p (nth q (lists s) [])) m /\ nth r (lists s') [] = nth r (lists s) [] ++ m.
Proof.
  intros Ne. revert s p. induction n as [|n IH]; cbn; intros s p Lt H; [discriminate H|].
  destruct (nth_error (nth q (lists s) []) p) as [v|] eqn:Ep.
  - destruct (coerce_value v) as [w|] eqn:E; [|discriminate H]. apply IH in H as (m & H1 & H2); [|cbn; now rewrite set_nth_length].
    assert (Eq : nth q (lists (store_list s r (nth r (lists s) [] ++ [w]))) [] = nth q (lists s) []).
    { cbn. clear -Ne. revert q Ne. generalize (lists s) at 2 3. intros ls. generalize (nth r (lists s) [] ++ [w]). intros x. revert r. induction ls; intros [|r] [|q] Ne; cbn; auto; lia. }
    rewrite Eq in H1. exists (w :: m). split.
    + assert (Es : skipn p (nth q (lists s) []) = v :: skipn (S p) (nth q (lists s) [])).
      { clear -Ep. revert Ep. generalize (nth q (lists s) []). intros l. revert p. induction l as [|y l IH]; intros [|p] H; cbn in *; try discriminate; [now injection H as ->|now apply IH]. }
      rewrite Es. constructor; [now apply coerce_value_spec|auto].
    + rewrite H2. unfold store_list. cbn [lists]. rewrite (nth_error_nth (set_nth r _ (lists s)) r [] (set_nth_same r _ (lists s) Lt)). now rewrite <- app_assoc.
  - injection H as <-. exists []. split; [|now rewrite app_nil_r]. apply nth_error_None in Ep. rewrite skipn_all2 by auto. constructor.
Qed.
Lemma nth_set_nth {X} r q (x d : X) ls : r <> q -> nth q (set_nth r x ls) d = nth q ls d.
Proof. revert r q. induction ls; intros [|r] [|q] Ne; cbn; auto; lia. Qed.
Lemma extend_from_ends n r q p s : r <> q -> p <= length (nth q (lists s) []) -> length (nth q (lists s) []) < p + n ->
  snd (extend_from fits coerce n s r q p) = Done \/ snd (extend_from fits coerce n s r q p) = Raises.
Proof.
  intros Ne. revert s p. induction n as [|n IH]; cbn; intros s p Le Lt; [lia|].
  destruct (nth_error (nth q (lists s) []) p) as [v|] eqn:Ep; [|auto]. destruct (coerce_value v) as [w|]; [|auto].
  assert (p < length (nth q (lists s) [])) by (apply nth_error_Some; congruence).
  apply IH; unfold store_list; cbn [lists]; rewrite nth_set_nth by auto; lia.
Qed.
(** Reading from the list that grows *)
Lemma extend_self n r p s : r < length (lists s) -> p < length (nth r (lists s) []) -> Forall (fun v => fits v = true) (nth r (lists s) []) ->
  exists s', extend_from fits coerce n s r r p = (s', Endless) /\ length (nth r (lists s') []) = length (nth r (lists s) []) + n.
Proof.
  revert p s. induction n as [|n IH]; intros p s Hr Hp Hf; cbn; [exists s; split; auto|].
  destruct (nth_error (nth r (lists s) []) p) as [v|] eqn:Ep; [|apply nth_error_None in Ep; lia].
  assert (Fv : fits v = true) by (rewrite Forall_forall in Hf; apply Hf; eapply nth_error_In; eauto).
  unfold OwnModel.coerce_value. rewrite Fv. set (l := nth r (lists s) []) in *.
  assert (Er : nth r (lists (store_list s r (l ++ [v]))) [] = l ++ [v]) by (apply nth_error_nth; apply set_nth_same; auto).
  destruct (IH (S p) (store_list s r (l ++ [v]))) as (s' & E & Len).
  - cbn. now rewrite set_nth_length.
  - rewrite Er, app_length. cbn. lia.
  - rewrite Er. apply Forall_app. auto.
  - exists s'. split; auto. rewrite Len, Er, app_length. cbn. lia.
Qed.

Lemma reachable_private s : reachable fits coerce s -> private s.
Proof.
  induction 1 as [|n s x s' out _ IH Sh E]; [split; [constructor|intros [|o] k r H; discriminate H]|].
  eapply did_private; eauto. eapply step_did; eauto.
Qed.
Lemma gives_items (s : store) x m : items s x = Some m -> gives s x m.
Proof. destruct x; cbn; intros H; [injection H as <-|]; constructor; auto. Qed.

(** Fates of the references *)
Lemma did_objs s x s' out : did s x s' out -> exists e, objs s' = objs s ++ e.
Proof.
  intros [out' _|s'' o k r out' T E (O1 & O2 & _) _|k l T|o r -> E]; cbn; eauto; exists []; now rewrite app_nil_r.
Qed.
Lemma run_objs n prog s : exists e, objs (fst (run fits coerce n s prog)) = objs s ++ e.
Proof.
  revert s. induction prog as [|x prog IH]; intros s; cbn; [exists []; now rewrite app_nil_r|].
  destruct (step n s x) as [s1 out] eqn:E. apply step_did, did_objs in E as (e & E).
  destruct (IH s1) as (e' & E'). destruct (run fits coerce n s1 prog) as [s2 outs]. cbn in *. exists (e ++ e'). rewrite E', E. now rewrite app_assoc.
Qed.

Lemma with_coll_done (s : store) o f s' out : with_coll s o f = (s', out) -> out <> Nonsense ->
  exists k r l, k <> Plain /\ nth_error (objs s) o = Some (k, r) /\ nth_error (lists s) r = Some l /\ f k r l = (s', out).
Proof.
  intros H Ne. unfold with_coll in H. destruct (nth_error (objs s) o) as [[k r]|] eqn:E; [|injection H as <- <-; congruence].
  destruct k; [| |injection H as <- <-; congruence]; (destruct (nth_error (lists s) r) as [l|] eqn:El; [|injection H as <- <-; congruence]);
    do 3 eexists; (split; [|eauto]); discriminate.
Qed.
Lemma with_items_done (s : store) src f s' out : with_items s src f = (s', out) -> out <> Nonsense -> exists m, items s src = Some m /\ f m = (s', out).
Proof. intros H Ne. unfold with_items in H. destruct (items s src); [eauto|injection H as <- <-; congruence]. Qed.
Lemma contents_stored (s : store) o (k : kind) r l : nth_error (objs s) o = Some (k, r) -> r < length (lists s) -> contents (store_list s r l) o = Some l.
Proof. intros E Lt. unfold contents, store_list. cbn. rewrite E. now apply set_nth_same. Qed.
Lemma contents_is (s : store) o (k : kind) r l : nth_error (objs s) o = Some (k, r) -> nth_error (lists s) r = Some l -> contents s o = Some l.
Proof. intros E El. unfold contents. now rewrite E. Qed.

(** A change that succeeds *)
Lemma step_alters n s x o s' : private s -> target x = Some o -> x <> Extend o (Object o) -> step n s x = (s', Done) ->
  exists l l', contents s o = Some l /\ contents s' o = Some l' /\ alters fits coerce s x l l'.
Proof.
  intros [N Hv] T Ns H. destruct x as [l|o' l|k src|o' v|o' src|o' lo hi src|o' lo hi|o'|o' src|o' lo hi|o'|o']; try discriminate T; injection T as ->; cbn in H.
  - destruct (nth_error (objs s) o) as [[[] r]|] eqn:E; try discriminate H. injection H as <-. assert (Lt := Hv _ _ _ E).
    destruct (nth_error (lists s) r) as [l0|] eqn:El; [|apply nth_error_None in El; lia].
    exists l0, l. split; [eapply contents_is; eauto|]. split; [eapply contents_stored; eauto|constructor].
  - apply with_coll_done in H as (k & r & l & _ & E & El & H); [|discriminate]. assert (Lt := Hv _ _ _ E).
    destruct (coerce_value v) as [w|] eqn:Ec; [|discriminate H]. injection H as <-.
    exists l, (l ++ [w]). split; [eapply contents_is; eauto|]. split; [eapply contents_stored; eauto|]. constructor. now apply coerce_value_spec.
  - apply with_coll_done in H as (k & r & l & _ & E & El & H); [|discriminate]. assert (Lt := Hv _ _ _ E). destruct src as [m|p].
    + destruct (only_extend_items _ _ _ _ _ H) as (O1 & O2 & _). apply extend_items_spec in H as (m' & Hm & H); auto.
      exists l, (l ++ m'). split; [eapply contents_is; eauto|]. split.
      * unfold contents. rewrite O1, E. rewrite (nth_error_nth' _ []) by lia. rewrite H. now rewrite (nth_error_nth _ _ [] El).
      * econstructor; [constructor|auto].
    + destruct (nth_error (objs s) p) as [[kp q]|] eqn:Ep; [|discriminate H].
      assert (Ne : r <> q).
      { intros ->. apply Ns. do 2 f_equal. apply (proj1 (NoDup_nth_error (map snd (objs s))) N).
        - rewrite map_length. apply nth_error_Some. congruence.
        - now rewrite !nth_error_map, E, Ep. }
      destruct (only_extend_from _ _ _ _ _ _ _ H) as (O1 & O2 & _). apply extend_from_spec in H as (m' & Hm & H); auto.
      exists l, (l ++ m'). split; [eapply contents_is; eauto|]. split.
      * unfold contents. rewrite O1, E. rewrite (nth_error_nth' _ []) by lia. rewrite H. now rewrite (nth_error_nth _ _ [] El).
      * econstructor; [|exact Hm]. constructor. unfold contents. rewrite Ep. cbn [skipn]. apply nth_error_nth'. eauto.
  - apply with_coll_done in H as (k & r & l & _ & E & El & H); [|discriminate]. assert (Lt := Hv _ _ _ E).
    apply with_items_done in H as (m & Em & H); [|discriminate]. destruct (coerce_all m) as [m'|] eqn:Ec; [|discriminate H]. injection H as <-.
    destruct (replace_split lo hi m' l) as (a & b & c & E1 & E2 & E3 & E4).
    exists l, (replace lo hi m' l). split; [eapply contents_is; eauto|]. split; [eapply contents_stored; eauto|]. rewrite E4.
    econstructor; eauto using gives_items, coerce_all_spec.
  - apply with_coll_done in H as (k & r & l & _ & E & El & H); [|discriminate]. assert (Lt := Hv _ _ _ E). injection H as <-.
    destruct (replace_split lo hi [] l) as (a & b & c & E1 & E2 & E3 & E4).
    exists l, (replace lo hi [] l). split; [eapply contents_is; eauto|]. split; [eapply contents_stored; eauto|]. rewrite E4.
    econstructor; eauto.
  - apply with_coll_done in H as (k & r & l & _ & E & El & H); [|discriminate]. assert (Lt := Hv _ _ _ E). injection H as <-.
    exists l, (rev l). split; [eapply contents_is; eauto|]. split; [eapply contents_stored; eauto|constructor].
Qed.

Lemma contents_new (s : store) (k : kind) l : contents (Store (objs s ++ [(k, length (lists s))]) (lists s ++ [l])) (length (objs s)) = Some l.
Proof. unfold contents. cbn. rewrite nth_error_app2, Nat.sub_diag by auto. cbn. now rewrite nth_error_app2, Nat.sub_diag by auto. Qed.
Lemma construct_made (s : store) k l s' c : construct fits coerce s k l = (s', Made c) -> exists m, c = length (objs s) /\ all_coerced l m /\ contents s' c = Some m.
Proof.
  unfold construct, new. destruct (coerce_all l) as [m|] eqn:E; [|discriminate]. intros H. injection H as <- <-. exists m.
  split; auto. split; [now apply coerce_all_spec|apply contents_new].
Qed.
Lemma step_makes n s x s' c : step n s x = (s', Made c) -> exists l, c = length (objs s) /\ contents s' c = Some l /\ makes fits coerce s x l.
Proof.
  destruct x as [l|o l|k src|o v|o src|o lo hi src|o lo hi|o|o src|o lo hi|o|o]; intros H;
    try (apply step_did in H; inversion H as [? [|]|? ? ? ? ? T E O Nm| |]; subst; try discriminate; try (exfalso; eapply Nm; reflexivity); fail); cbn in H.
  - unfold new in H. injection H as <- <-. exists l. split; auto. split; [apply contents_new|constructor].
  - destruct k; [| |discriminate H]; (apply with_items_done in H as (m & Em & H); [|discriminate]); apply construct_made in H as (m' & -> & Hm & H);
      exists m'; split; auto; split; auto; econstructor; eauto using gives_items.
  - apply with_coll_done in H as (k & r & l & _ & E & El & H); [|discriminate]. apply with_items_done in H as (m & Em & H); [|discriminate].
    match type of H with (match (if ?b then _ else _) with _ => _ end) = _ => destruct b end.
    + apply construct_made in H as (m' & -> & Hm & H). exists m'. split; auto. split; auto.
      econstructor; [eapply contents_is; eauto|apply gives_items; eauto|right; reflexivity|auto].
    + destruct (coerce_all m) as [m1|] eqn:Ec; [|discriminate H]. apply construct_made in H as (m' & -> & Hm & H). exists m'. split; auto. split; auto.
      econstructor; [eapply contents_is; eauto|apply gives_items; eauto|left; apply coerce_all_spec; eauto|auto].
  - apply with_coll_done in H as (k & r & l & _ & E & El & H); [|discriminate]. unfold new in H. injection H as <- <-.
    eexists. split; [reflexivity|]. split; [apply contents_new|].
    assert (Es : firstn lo l ++ firstn (Nat.max lo hi - lo) (skipn lo l) = firstn (Nat.max lo hi) l).
    { rewrite firstn_skipn_comm. replace (lo + (Nat.max lo hi - lo)) with (Nat.max lo hi) by lia.
      rewrite <- (firstn_skipn lo (firstn (Nat.max lo hi) l)) at 2. f_equal. rewrite firstn_firstn. f_equal. lia. }
    replace (hi - lo) with (Nat.max lo hi - lo) by lia.
    apply (m_slice fits coerce s o lo hi l (firstn lo l) (firstn (Nat.max lo hi - lo) (skipn lo l)) (skipn (Nat.max lo hi) l)).
    + eapply contents_is; eauto.
    + rewrite app_assoc, Es. now rewrite firstn_skipn.
    + apply firstn_length.
    + rewrite Es. apply firstn_length.
  - destruct (nth_error (objs s) o) as [[[] r]|] eqn:E; destruct (contents s o) as [l|] eqn:El; try discriminate H.
    + unfold new in H. injection H as <- <-. exists l. split; auto. split; [apply contents_new|econstructor; eauto].
    + apply construct_made in H as (m & -> & Hm & H). exists m. split; auto. split; auto. econstructor; eauto.
    + unfold new in H. injection H as <- <-. exists l. split; auto. split; [apply contents_new|econstructor; eauto].
  - destruct (nth_error (objs s) o) as [[[] r]|] eqn:E; destruct (contents s o) as [l|] eqn:El; try discriminate H.
    + injection H as <- <-. exists l. split; auto. split; [|econstructor; eauto]. unfold contents in *. cbn. rewrite nth_error_app2, Nat.sub_diag by auto. cbn. now rewrite E in El.
    + apply construct_made in H as (m & -> & Hm & H). exists m. split; auto. split; auto. econstructor; eauto.
    + unfold new in H. injection H as <- <-. exists l. split; auto. split; [apply contents_new|econstructor; eauto].
Qed.
End Proofs.
