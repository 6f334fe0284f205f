From Coq Require Import List Arith Bool Lia.
From Verif Require Import Prelude OwnModel OwnSpec OwnProofs MapOwnModel MapOwnSpec.
Import ListNotations.

Section Proofs.
Context {K V : Type}.
Variable keqb : K -> K -> bool.
Variable fits : V -> bool.
Variable coerce : V -> option V.
Hypothesis keqb_spec : forall a b, keqb a b = true <-> a = b.
Notation mstore := (mstore K V).
Notation dict := (@MapOwnModel.dict K V).
Notation get := (@MapOwnModel.get K V keqb).
Notation put := (@MapOwnModel.put K V keqb).
Notation drop := (@MapOwnModel.drop K V keqb).
Notation dict_of := (@MapOwnModel.dict_of K V keqb).
Notation mstep := (mstep keqb fits coerce).
Notation coerced := (coerced fits coerce).
Notation keys d := (map (@fst K V) d).

Lemma keqb_refl k : keqb k k = true.
Proof. now apply keqb_spec. Qed.
Lemma keqb_cases a b : (keqb a b = true /\ a = b) \/ (keqb a b = false /\ a <> b).
Proof. destruct (keqb a b) eqn:E; [left|right]; split; auto; [now apply keqb_spec|]. intros H. apply keqb_spec in H. congruence. Qed.

(** Dicts *)
Lemma get_put k v d j : get j (put k v d) = if keqb j k then Some v else get j d.
Proof.
  induction d as [|[i u] d IH]; cbn; [reflexivity|].
  destruct (keqb_cases k i) as [[-> ->]|[-> Ne]]; cbn.
  - destruct (keqb j i); auto.
  - destruct (keqb_cases j i) as [[-> ->]|[-> Nj]]; [|auto]. destruct (keqb_cases i k) as [[_ ->]|[-> _]]; [congruence|auto].
Qed.
Lemma keys_put k v d : (In k (keys d) /\ keys (put k v d) = keys d) \/ (~ In k (keys d) /\ keys (put k v d) = keys d ++ [k]).
Proof.
  induction d as [|[i u] d IH]; cbn; [right; auto|].
  destruct (keqb_cases k i) as [[-> ->]|[-> Ne]]; cbn; [left; auto|].
  destruct IH as [[I ->]|[I ->]]; [left; auto|right; split; auto]. intros [Z|Z]; congruence.
Qed.
Lemma put_nodup k v d : NoDup (keys d) -> NoDup (keys (put k v d)).
Proof.
  intros N. destruct (keys_put k v d) as [[_ ->]|[I ->]]; auto.
  apply (NoDup_Add (a := k) (l := keys d)); [rewrite <- (app_nil_r (keys d)) at 1; apply Add_app|auto].
Qed.
Lemma get_in d k v : NoDup (keys d) -> get k d = Some v <-> In (k, v) d.
Proof.
  induction d as [|[i u] d IH]; cbn; intros N; [split; [discriminate|tauto]|]. apply NoDup_cons_iff in N as [I N]. specialize (IH N).
  destruct (keqb_cases k i) as [[-> ->]|[-> Ne]].
  - split; [intros Z; injection Z as ->; auto|]. intros [Z|Z]; [now injection Z as ->|]. apply (in_map fst) in Z. contradiction.
  - rewrite IH. split; [auto|]. intros [Z|Z]; [congruence|auto].
Qed.
Lemma get_none d k : get k d = None <-> ~ In k (keys d).
Proof.
  induction d as [|[i u] d IH]; cbn; [tauto|]. destruct (keqb_cases k i) as [[-> ->]|[-> Ne]]; [split; [discriminate|tauto]|].
  rewrite IH. split; [intros H [Z|Z]; [congruence|auto]|auto].
Qed.
Lemma get_key d k : In k (keys d) -> exists v, get k d = Some v.
Proof. intros I. destruct (get k d) eqn:E; [eauto|]. apply get_none in E. contradiction. Qed.
Lemma drop_nodup k d : NoDup (keys d) -> NoDup (keys (drop k d)).
Proof.
  induction d as [|[i u] d IH]; cbn; intros N; [constructor|]. apply NoDup_cons_iff in N as [I N].
  destruct (keqb k i); cbn; auto. constructor; auto. intros Z. apply I. apply in_map_iff in Z as (p & <- & Z). apply filter_In in Z as [Z _]. now apply in_map.
Qed.
Lemma drop_in k d j v : In (j, v) (drop k d) <-> j <> k /\ In (j, v) d.
Proof.
  unfold MapOwnModel.drop. rewrite filter_In. cbn. rewrite negb_true_iff.
  destruct (keqb_cases k j) as [[-> ->]|[-> Ne]]; split; intros []; split; auto; congruence.
Qed.
Lemma last_of_nodup (d : dict) k v : NoDup (keys d) -> last_of d k v <-> In (k, v) d.
Proof.
  intros N. split.
  - intros (a & b & -> & _). apply in_app_iff. right. now left.
  - intros I. apply in_split in I as (a & b & ->). exists a, b. split; auto. rewrite map_app in N. cbn in N. apply NoDup_remove_2 in N.
    intros Z. apply N. apply in_app_iff. auto.
Qed.
Lemma last_of_cons (l : list (K * V)) k0 v0 k v : last_of ((k0, v0) :: l) k v <-> last_of l k v \/ (k = k0 /\ v = v0 /\ ~ In k (keys l)).
Proof.
  split.
  - intros ([|p a] & b & E & N); cbn in E; [injection E as -> -> ->; auto|injection E as _ ->; left; now exists a, b].
  - intros [(a & b & -> & N)|(-> & -> & N)]; [now exists ((k0, v0) :: a), b|now exists [], l].
Qed.
Lemma last_of_in (l : list (K * V)) k v : last_of l k v -> In k (keys l).
Proof. intros (a & b & -> & _). rewrite map_app. apply in_app_iff. right. now left. Qed.
(** A dict made of pairs, onto another *)
Lemma fold_put l d k v : NoDup (keys d) -> In (k, v) (fold_left (fun d p => put (fst p) (snd p) d) l d) <-> last_of l k v \/ (~ In k (keys l) /\ In (k, v) d).
Proof.
  revert d. induction l as [|[j u] l IH]; cbn; intros d N.
  - split; [auto|]. intros [(a & b & E & _)|[_ H]]; auto. destruct a; discriminate E.
  - rewrite IH by now apply put_nodup. rewrite last_of_cons. rewrite <- (get_in (put j u d)) by now apply put_nodup. rewrite get_put.
    rewrite <- (get_in d) by auto.
    destruct (keqb_cases k j) as [[-> ->]|[-> Ne]].
    + split.
      * intros [H|[H E]]; [auto|injection E as <-; auto].
      * intros [[H|(_ & -> & H)]|[H _]]; auto. destruct H. auto.
    + split.
      * intros [H|[H E]]; [auto|]. right. split; auto. intros [Z|Z]; auto.
      * intros [[H|(Z & _)]|[H E]]; [auto|contradiction|right; auto].
Qed.
Lemma dict_of_spec l k v : In (k, v) (dict_of l) <-> last_of l k v.
Proof. unfold MapOwnModel.dict_of. rewrite fold_put by constructor. cbn. tauto. Qed.
Lemma fold_put_nodup l d : NoDup (keys d) -> NoDup (keys (fold_left (fun d p => put (fst p) (snd p) d) l d)).
Proof. revert d. induction l as [|[j u] l IH]; cbn; intros d N; auto. apply IH. now apply put_nodup. Qed.
Lemma dict_of_nodup l : NoDup (keys (dict_of l)).
Proof. apply fold_put_nodup. constructor. Qed.
Lemma removelast_nodup (d : dict) : NoDup (keys d) -> NoDup (keys (removelast d)).
Proof.
  intros N. destruct d as [|p d']; [constructor|]. rewrite (app_removelast_last p (l := p :: d')) in N by discriminate.
  rewrite map_app in N. cbn [map] in N. apply NoDup_remove_1 in N. now rewrite app_nil_r in N.
Qed.

(** Coercions *)
Lemma coerced_det a b c : coerced a b -> coerced a c -> b = c.
Proof. unfold OwnSpec.coerced. intros [[]|[]] [[]|[]]; congruence. Qed.
Lemma coerce_twice_spec v w : coerce_twice fits coerce v = Some w -> exists u, coerced v u /\ coerced u w.
Proof.
  unfold coerce_twice. destruct (coerce_value fits coerce v) as [u|] eqn:E; [|discriminate]. intros E2. exists u. split; now apply coerce_value_spec.
Qed.
Lemma coerce_pairs_spec l m : coerce_pairs fits coerce l = Some m -> keys m = keys l /\ forall k w, last_of m k w <-> exists v, last_of l k v /\ coerced v w.
Proof.
  revert m. induction l as [|[k v] l IH]; cbn; intros m H.
  - injection H as <-. split; auto. intros k w. split; [intros ([] & b & E & _); discriminate E|intros (v & ([] & b & E & _) & _); discriminate E].
  - destruct (coerce_value fits coerce v) as [u|] eqn:E; [|discriminate]. destruct (coerce_pairs _ _ l) as [m'|]; [|discriminate]. injection H as <-.
    destruct (IH _ eq_refl) as [Ek S]. apply coerce_value_spec in E. split; [cbn; congruence|]. intros j w. rewrite last_of_cons, S, Ek. split.
    + intros [(x & L & C)|(-> & -> & N)]; [exists x|exists v]; rewrite last_of_cons; auto.
    + intros (x & L & C). rewrite last_of_cons in L. destruct L as [L|(-> & -> & N)]; [left; eauto|right]. split; auto. split; auto. eapply coerced_det; eauto.
Qed.

(** Objects have different dicts, which exist; keys are different. *)
Definition mvalid (s : mstore) : Prop :=
  (forall o k r, nth_error (mobjs s) o = Some (k, r) -> r < length (dicts s)) /\ forall r d, nth_error (dicts s) r = Some d -> NoDup (keys d).
Definition mprivate (s : mstore) : Prop := NoDup (map snd (mobjs s)).
(** Only the dict [r] may have changed. *)
Definition monly (r : nat) (s s' : mstore) : Prop :=
  mobjs s' = mobjs s /\ length (dicts s') = length (dicts s) /\ (forall q, q <> r -> nth_error (dicts s') q = nth_error (dicts s) q) /\
  (NoDup (keys (nth r (dicts s) [])) -> NoDup (keys (nth r (dicts s') []))).
Lemma monly_refl r s : monly r s s.
Proof. repeat split; auto. Qed.
Lemma nth_set_same {X} r (x d : X) l : r < length l -> nth r (set_nth r x l) d = x.
Proof. intros H. apply nth_error_nth. now apply set_nth_same. Qed.
Lemma set_nth_out {X} r (x : X) l : length l <= r -> set_nth r x l = l.
Proof. revert r. induction l; intros [|r] H; cbn in *; auto; [lia|]. f_equal. apply IHl. lia. Qed.
Lemma monly_store r d s : (NoDup (keys (nth r (dicts s) [])) -> NoDup (keys d)) -> monly r s (store_dict s r d).
Proof.
  intros N. split; [reflexivity|]. split; [apply set_nth_length|]. split; [intros q Ne; apply set_nth_other; auto|].
  intros H. cbn. destruct (lt_dec r (length (dicts s))); [rewrite nth_set_same; auto|rewrite set_nth_out by lia; auto].
Qed.
Lemma monly_trans r s1 s2 s3 : monly r s1 s2 -> monly r s2 s3 -> monly r s1 s3.
Proof. intros (A1 & A2 & A3 & A4) (B1 & B2 & B3 & B4). split; [congruence|]. split; [congruence|]. split; [|auto]. intros q Ne. rewrite B3, A3; auto. Qed.
Lemma monly_update_pairs r l s s' out : update_pairs keqb fits coerce s r l = (s', out) -> monly r s s' /\ (out = Done \/ out = Raises).
Proof.
  revert s. induction l as [|[k v] l IH]; cbn; intros s H; [injection H as <- <-; split; [apply monly_refl|auto]|].
  destruct (coerce_twice _ _ v); [|injection H as <- <-; split; [apply monly_refl|auto]]. apply IH in H as [H1 H2]. split; auto.
  eapply monly_trans; [apply monly_store; apply put_nodup|eauto].
Qed.
Lemma monly_update_from r q ks s s' out : update_from keqb fits coerce s r q ks = (s', out) -> monly r s s' /\ (out = Done \/ out = Raises).
Proof.
  revert s. induction ks as [|k ks IH]; cbn; intros s H; [injection H as <- <-; split; [apply monly_refl|auto]|].
  destruct (get k _) as [v|]; [|injection H as <- <-; split; [apply monly_refl|auto]].
  destruct (coerce_twice _ _ v); [|injection H as <- <-; split; [apply monly_refl|auto]]. apply IH in H as [H1 H2]. split; auto.
  eapply monly_trans; [apply monly_store; apply put_nodup|eauto].
Qed.

Lemma nth_dict (s : mstore) r d : nth_error (dicts s) r = Some d -> nth r (dicts s) [] = d.
Proof. apply nth_error_nth. Qed.

(** What a step can do *)
Inductive mdid (s : mstore) (x : mop K V) : mstore -> outcome -> Prop :=
| md_nothing out : (out = Raises \/ out = Nonsense) -> mdid s x s out
| md_changed s' o k r out : mtarget x = Some o -> nth_error (mobjs s) o = Some (k, r) -> monly r s s' -> (forall c, out <> Made c) -> mdid s x s' out
| md_new k d : mtarget x = None -> (mvalid s -> NoDup (keys d)) -> mdid s x (MStore (mobjs s ++ [(k, length (dicts s))]) (dicts s ++ [d])) (Made (length (mobjs s)))
| md_shared o r : x = MCopied o -> nth_error (mobjs s) o = Some (Declared, r) ->
    mdid s x (MStore (mobjs s ++ [(Declared, r)]) (dicts s)) (Made (length (mobjs s))).
Lemma mdid_construct s x k l s' out : mtarget x = None -> mconstruct keqb fits coerce s k l = (s', out) -> mdid s x s' out.
Proof.
  unfold mconstruct, mnew. intros T. destruct (coerce_pairs _ _ l); intros H; injection H as <- <-; [apply md_new; auto; intros; apply dict_of_nodup|apply md_nothing; auto].
Qed.
Lemma with_map_cases (s : mstore) o f s' out : with_map s o f = (s', out) -> (s' = s /\ out = Nonsense) \/
  exists k r d, k <> Plain /\ nth_error (mobjs s) o = Some (k, r) /\ nth_error (dicts s) r = Some d /\ f k r d = (s', out).
Proof.
  intros H. unfold with_map in H. destruct (nth_error (mobjs s) o) as [[k r]|] eqn:E; [|injection H as <- <-; auto].
  destruct k; [| |injection H as <- <-; auto]; (destruct (nth_error (dicts s) r) as [l|] eqn:El; [|injection H as <- <-; auto]);
    right; do 3 eexists; (split; [|eauto]); discriminate.
Qed.
Lemma mstep_did s x s' out : mstep s x = (s', out) -> mdid s x s' out.
Proof.
  assert (No : forall out, out = Raises \/ out = Nonsense -> mdid s x s out) by (intros; now apply md_nothing).
  assert (Upd : forall o k r d, mtarget x = Some o -> nth_error (mobjs s) o = Some (k, r) ->
    (NoDup (keys (nth r (dicts s) [])) -> NoDup (keys d)) -> mdid s x (store_dict s r d) Done).
  { intros o k r d T E N. eapply md_changed; eauto; [now apply monly_store|discriminate]. }
  destruct x as [l|o l|k src|o k v|o k|o|o|o src|o|o]; cbn; intros H.
  - unfold mnew in H. injection H as <- <-. apply md_new; auto. intros. apply dict_of_nodup.
  - destruct (nth_error (mobjs s) o) as [[[] r]|] eqn:E; injection H as <- <-; auto. eapply Upd; eauto; [reflexivity|]. intros. apply dict_of_nodup.
  - destruct k; [| |injection H as <- <-; auto]; (destruct (tuples s src); [eapply mdid_construct; eauto|injection H as <- <-; auto]).
  - apply with_map_cases in H as [[-> ->]|(k' & r & d & _ & E & Ed & H)]; auto. destruct (coerce_value _ _ v); injection H as <- <-; auto.
    eapply Upd; eauto; [reflexivity|]. rewrite (nth_dict _ _ _ Ed). apply put_nodup.
  - apply with_map_cases in H as [[-> ->]|(k' & r & d & _ & E & Ed & H)]; auto. destruct (get k d); injection H as <- <-; auto.
    eapply Upd; eauto; [reflexivity|]. rewrite (nth_dict _ _ _ Ed). apply drop_nodup.
  - apply with_map_cases in H as [[-> ->]|(k' & r & d & _ & E & Ed & H)]; auto. injection H as <- <-.
    eapply Upd; eauto; [reflexivity|]. intros. constructor.
  - apply with_map_cases in H as [[-> ->]|(k' & r & d & _ & E & Ed & H)]; auto. destruct d as [|p d]; [injection H as <- <-; auto|].
    assert (Hd : (store_dict s r (removelast (p :: d)), Done) = (s', out)) by exact H. injection Hd as <- <-.
    eapply Upd; eauto; [reflexivity|]. rewrite (nth_dict _ _ _ Ed). apply removelast_nodup.
  - apply with_map_cases in H as [[-> ->]|(k' & r & d & _ & E & Ed & H)]; auto. destruct src as [l|p].
    + apply monly_update_pairs in H as [H1 H2]. eapply md_changed; eauto; [reflexivity|]. destruct H2 as [H2|H2]; rewrite H2; discriminate.
    + destruct (nth_error (mobjs s) p) as [[kp q]|]; [|injection H as <- <-; auto].
      apply monly_update_from in H as [H1 H2]. eapply md_changed; eauto; [reflexivity|]. destruct H2 as [H2|H2]; rewrite H2; discriminate.
  - assert (Nd : forall d, mcontents s o = Some d -> mvalid s -> NoDup (keys d)).
    { intros d Hd [_ Hv]. unfold mcontents in Hd. destruct (nth_error (mobjs s) o) as [[]|]; [eauto|discriminate]. }
    destruct (nth_error (mobjs s) o) as [[[] r]|] eqn:E; destruct (mcontents s o) as [d|] eqn:Ed; try (injection H as <- <-; auto; fail);
      try (unfold mnew in H; injection H as <- <-; apply md_new; auto). eapply mdid_construct; eauto.
  - assert (Nd : forall d, mcontents s o = Some d -> mvalid s -> NoDup (keys d)).
    { intros d Hd [_ Hv]. unfold mcontents in Hd. destruct (nth_error (mobjs s) o) as [[]|]; [eauto|discriminate]. }
    destruct (nth_error (mobjs s) o) as [[[] r]|] eqn:E; destruct (mcontents s o) as [d|] eqn:Ed; try (injection H as <- <-; auto; fail);
      try (unfold mnew in H; injection H as <- <-; apply md_new; auto).
    + injection H as <- <-. eapply md_shared; eauto.
    + eapply mdid_construct; eauto.
Qed.
Lemma mdid_valid s x s' out : mvalid s -> mdid s x s' out -> mvalid s'.
Proof.
  intros [Hv Hn] [out' _|s'' o k r out' T E (O1 & O2 & O3 & O4) _|k d T N|o r -> E]; [split; auto| | |].
  - split.
    + intros p kp q H. rewrite O1 in H. rewrite O2. eauto.
    + intros q d H. destruct (Nat.eq_dec q r) as [->|Ne]; [|rewrite O3 in H by auto; eauto].
      rewrite <- (nth_dict _ _ _ H). apply O4. eapply Hn. apply nth_error_nth'. rewrite <- O2. apply nth_error_Some. congruence.
  - assert (Nd := N (conj Hv Hn)). split; cbn.
    + intros p kp q H. rewrite app_length. cbn. apply nth_error_snoc in H as [H|[_ H]]; [apply Hv in H; lia|injection H as -> ->; lia].
    + intros q d' H. apply nth_error_snoc in H as [H|[_ ->]]; eauto.
  - split; cbn; auto. intros p kp q H. apply nth_error_snoc in H as [H|[_ H]]; [eauto|injection H as -> ->; eauto].
Qed.
Lemma mdid_private s x s' out : mvalid s -> mprivate s -> ~ mshallow s x -> mdid s x s' out -> mprivate s'.
Proof.
  intros [Hv _] N Sh D. unfold mprivate in *. destruct D as [out' _|s'' o k r out' T E (O1 & _) _|k d T Nd|o r -> E]; auto.
  - now rewrite O1.
  - cbn. rewrite map_app. cbn. apply (NoDup_Add (a := length (dicts s)) (l := map snd (mobjs s))); [rewrite <- (app_nil_r (map snd (mobjs s))) at 1; apply Add_app|].
    split; auto. intros I. apply in_map_iff in I as ([k' r'] & E' & I). cbn in E'. subst r'. apply In_nth_error in I as (o & I). apply Hv in I. lia.
  - destruct Sh. now exists o, r.
Qed.
Lemma mdid_contents s x s' out o : mvalid s -> mprivate s -> mdid s x s' out -> mtarget x <> Some o -> o < length (mobjs s) -> mcontents s' o = mcontents s o.
Proof.
  intros [Hv _] N D T Lt. unfold mcontents.
  destruct D as [out' _|s'' p k r out' Tx E (O1 & O2 & O3 & _) _|k d Tx Nd|p r -> E]; auto; cbn [mobjs dicts].
  - rewrite O1. destruct (nth_error (mobjs s) o) as [[k' r']|] eqn:Eo; auto. apply O3. intros ->. apply T. rewrite Tx. f_equal.
    apply (proj1 (NoDup_nth_error (map snd (mobjs s))) N).
    + rewrite map_length. apply nth_error_Some. congruence.
    + rewrite !nth_error_map, E, Eo. reflexivity.
  - rewrite nth_error_app1 by auto. destruct (nth_error (mobjs s) o) as [[k' r']|] eqn:Eo; auto. rewrite nth_error_app1; auto. now apply Hv in Eo.
  - now rewrite nth_error_app1 by auto.
Qed.
Lemma mdid_objs s x s' out : mdid s x s' out -> exists e, mobjs s' = mobjs s ++ e.
Proof. intros [out' _|s'' o k r out' T E (O1 & O2 & _) _|k l T N|o r -> E]; cbn; eauto; exists []; now rewrite app_nil_r. Qed.
Lemma mrun_objs prog s : exists e, mobjs (fst (mrun keqb fits coerce s prog)) = mobjs s ++ e.
Proof.
  revert s. induction prog as [|x prog IH]; intros s; cbn; [exists []; now rewrite app_nil_r|].
  destruct (mstep s x) as [s1 out] eqn:E. apply mstep_did, mdid_objs in E as (e & E).
  destruct (IH s1) as (e' & E'). destruct (mrun keqb fits coerce s1 prog) as [s2 outs]. cbn in *. exists (e ++ e'). rewrite E', E. now rewrite app_assoc.
Qed.
Lemma mvalid_start : mvalid (MStore [] []).
Proof. split; [intros [|o] k r H; discriminate H|intros [|r] d H; discriminate H]. Qed.
Lemma mleads_valid s : mleads keqb fits coerce s -> mvalid s.
Proof. induction 1 as [|s x s' out _ IH E]; [apply mvalid_start|]. eapply mdid_valid; eauto. eapply mstep_did; eauto. Qed.
Lemma mreachable_leads s : mreachable keqb fits coerce s -> mleads keqb fits coerce s.
Proof. induction 1; econstructor; eauto. Qed.
Lemma mreachable_private s : mreachable keqb fits coerce s -> mprivate s.
Proof.
  induction 1 as [|s x s' out R IH Sh E]; [constructor|]. eapply mdid_private; eauto; [|eapply mstep_did; eauto]. now apply mleads_valid, mreachable_leads.
Qed.

(** Updates *)
Lemma update_pairs_spec r l s s' : r < length (dicts s) -> NoDup (keys (nth r (dicts s) [])) -> update_pairs keqb fits coerce s r l = (s', Done) ->
  forall k w, In (k, w) (nth r (dicts s') []) <-> (exists v u, last_of l k v /\ coerced v u /\ coerced u w) \/ (~ In k (keys l) /\ In (k, w) (nth r (dicts s) [])).
Proof.
  revert s. induction l as [|[k v] l IH]; cbn; intros s Lt N H j w.
  - injection H as <-. split; [auto|]. intros [(v & u & ([] & b & E & _) & _)|[_ H]]; auto; discriminate E.
  - destruct (coerce_twice fits coerce v) as [x|] eqn:E; [|discriminate H]. apply coerce_twice_spec in E as (u & C1 & C2).
    assert (Er : nth r (dicts (store_dict s r (put k x (nth r (dicts s) [])))) [] = put k x (nth r (dicts s) [])) by (cbn; now apply nth_set_same).
    rewrite IH with (3 := H); [|cbn; now rewrite set_nth_length|rewrite Er; now apply put_nodup]. rewrite Er.
    rewrite <- (get_in (put k x _)) by now apply put_nodup. rewrite get_put, <- (get_in (nth r (dicts s) [])) by auto.
    split.
    + intros [(v' & u' & L & C3 & C4)|[Nj G]]; [left; exists v', u'; rewrite last_of_cons; auto|].
      destruct (keqb_cases j k) as [[Ek Z]|[Ek Ne]]; rewrite Ek in G.
      * subst j. injection G as <-. left. exists v, u. rewrite last_of_cons. auto.
      * right. split; auto. intros [Z|Z]; auto.
    + intros [(v' & u' & L & C3 & C4)|[Nj G]].
      * apply last_of_cons in L as [L|(-> & -> & Nj)]; [left; eauto|]. right. split; auto. rewrite keqb_refl.
        rewrite <- (coerced_det _ _ _ C1 C3) in C4. f_equal. eapply coerced_det; eauto.
      * right. split; [auto|]. destruct (keqb_cases j k) as [[_ Z]|[Ek Ne]]; [subst; destruct Nj; auto|now rewrite Ek].
Qed.
Lemma update_from_spec r q ks s s' : r < length (dicts s) -> NoDup ks -> update_from keqb fits coerce s r q ks = (s', Done) ->
  forall k, (In k ks -> exists v u w, get k (nth q (dicts s) []) = Some v /\ coerced v u /\ coerced u w /\ get k (nth r (dicts s') []) = Some w) /\
    (~ In k ks -> get k (nth r (dicts s') []) = get k (nth r (dicts s) [])).
Proof.
  revert s. induction ks as [|k ks IH]; cbn; intros s Lt N H j; [injection H as <-; tauto|]. apply NoDup_cons_iff in N as [Nk N].
  destruct (get k (nth q (dicts s) [])) as [v|] eqn:Ev; [|discriminate H]. destruct (coerce_twice fits coerce v) as [x|] eqn:E; [|discriminate H].
  apply coerce_twice_spec in E as (u & C1 & C2). set (s1 := store_dict s r (put k x (nth r (dicts s) []))) in *.
  assert (Er : nth r (dicts s1) [] = put k x (nth r (dicts s) [])) by (cbn; now apply nth_set_same).
  assert (Eq : forall i, i <> k -> get i (nth q (dicts s1) []) = get i (nth q (dicts s) [])).
  { intros i Ne. destruct (Nat.eq_dec r q) as [<-|Nq]; [|cbn; now rewrite nth_set_nth]. rewrite Er, get_put. destruct (keqb_cases i k) as [[_ Z]|[-> _]]; congruence. }
  assert (Lt1 : r < length (dicts s1)) by (cbn; now rewrite set_nth_length).
  destruct (IH s1 Lt1 N H j) as [I1 I2]. split.
  - intros [<-|I]; [|rewrite <- Eq by congruence; auto]. exists v, u, x. do 3 (split; [auto|]). rewrite I2, Er, get_put, keqb_refl by auto. reflexivity.
  - intros Nj. rewrite I2, Er, get_put by auto. destruct (keqb_cases j k) as [[_ Z]|[-> _]]; [subst; destruct Nj; auto|auto].
Qed.
(** Onto a dict with the same values *)
Lemma put_same k v d : get k d = Some v -> put k v d = d.
Proof.
  induction d as [|[i u] d IH]; cbn; [discriminate|]. destruct (keqb k i); intros H; [now injection H as <-|]. now rewrite IH.
Qed.
Lemma set_nth_id {X} r (d : X) l : set_nth r (nth r l d) l = l.
Proof. revert r. induction l; intros [|r]; cbn; auto. f_equal. auto. Qed.
Lemma update_self r ks (s : mstore) : (forall k, In k ks -> exists v, get k (nth r (dicts s) []) = Some v /\ fits v = true) -> update_from keqb fits coerce s r r ks = (s, Done).
Proof.
  induction ks as [|k ks IH]; intros H; cbn; [reflexivity|]. destruct (H k (or_introl eq_refl)) as (v & E & F). rewrite E.
  unfold coerce_twice, coerce_value. rewrite F, F. rewrite put_same by auto. unfold store_dict. rewrite set_nth_id.
  replace (MStore (mobjs s) (dicts s)) with s by now destruct s. apply IH. intros j I. apply H. now right.
Qed.

(** Effects *)
Lemma mcontents_stored (s : mstore) o (k : kind) r d : nth_error (mobjs s) o = Some (k, r) -> r < length (dicts s) -> mcontents (store_dict s r d) o = Some d.
Proof. intros E Lt. unfold mcontents, store_dict. cbn. rewrite E. now apply set_nth_same. Qed.
Lemma mcontents_is (s : mstore) o (k : kind) r d : nth_error (mobjs s) o = Some (k, r) -> nth_error (dicts s) r = Some d -> mcontents s o = Some d.
Proof. intros E El. unfold mcontents. now rewrite E. Qed.
Lemma mstep_alters s x o s' : mvalid s -> mtarget x = Some o -> mstep s x = (s', Done) ->
  exists d d', mcontents s o = Some d /\ mcontents s' o = Some d' /\ malters fits coerce s x d d'.
Proof.
  intros [Hv Hn] T H.
  assert (Wm : forall f, with_map s o f = (s', Done) -> exists k r d, nth_error (mobjs s) o = Some (k, r) /\ nth_error (dicts s) r = Some d /\ f k r d = (s', Done)).
  { intros f Hf. apply with_map_cases in Hf as [[_ Z]|(k' & r & d & _ & E & Ed & Hf)]; [discriminate Z|eauto 6]. }
  destruct x as [l|o' l|k src|o' k v|o' k|o'|o'|o' src|o'|o']; try discriminate T; injection T as ->; cbn in H.
  - destruct (nth_error (mobjs s) o) as [[[] r]|] eqn:E; try discriminate H. injection H as <-. assert (Lt := Hv _ _ _ E).
    destruct (nth_error (dicts s) r) as [d|] eqn:Ed; [|apply nth_error_None in Ed; lia].
    exists d, (dict_of l). split; [eapply mcontents_is; eauto|]. split; [eapply mcontents_stored; eauto|]. intros k v. apply dict_of_spec.
  - apply Wm in H as (k' & r & d & E & Ed & H). assert (Lt := Hv _ _ _ E). assert (N := Hn _ _ Ed).
    destruct (coerce_value fits coerce v) as [w|] eqn:Ec; [|discriminate H]. injection H as <-.
    exists d, (put k w d). split; [eapply mcontents_is; eauto|]. split; [eapply mcontents_stored; eauto|]. exists w. split; [now apply coerce_value_spec|].
    intros j u. rewrite <- (get_in (put k w d)), get_put, <- (get_in d) by auto using put_nodup.
    destruct (keqb_cases j k) as [[-> ->]|[-> Ne]]; split; auto; [intros Z; injection Z as <-; auto|intros [[_ ->]|[Z _]]; congruence|intros [[Z _]|[_ Z]]; [contradiction|auto]].
  - apply Wm in H as (k' & r & d & E & Ed & H). assert (Lt := Hv _ _ _ E).
    destruct (get k d) as [w|] eqn:Eg; [|discriminate H]. injection H as <-.
    exists d, (drop k d). split; [eapply mcontents_is; eauto|]. split; [eapply mcontents_stored; eauto|]. split.
    + apply (get_in d) in Eg; [|eauto]. now apply (in_map fst) in Eg.
    + intros j u. apply drop_in.
  - apply Wm in H as (k' & r & d & E & Ed & H). assert (Lt := Hv _ _ _ E). injection H as <-.
    exists d, []. split; [eapply mcontents_is; eauto|]. split; [eapply mcontents_stored; eauto|]. reflexivity.
  - apply Wm in H as (k' & r & d & E & Ed & H). assert (Lt := Hv _ _ _ E). destruct d as [|p d]; [discriminate H|].
    assert (Hd : (store_dict s r (removelast (p :: d)), Done) = (s', Done)) by exact H. injection Hd as <-.
    exists (p :: d), (removelast (p :: d)). split; [eapply mcontents_is; eauto|]. split; [eapply mcontents_stored; eauto|].
    exists (last (p :: d) p). apply app_removelast_last. discriminate.
  - apply Wm in H as (k' & r & d & E & Ed & H). assert (Lt := Hv _ _ _ E). assert (N := Hn _ _ Ed). assert (En := nth_dict _ _ _ Ed).
    destruct src as [l|p].
    + assert (O := proj1 (monly_update_pairs _ _ _ _ _ H)). destruct O as (O1 & O2 & _ & _).
      exists d, (nth r (dicts s') []). split; [eapply mcontents_is; eauto|]. split; [unfold mcontents; rewrite O1, E; apply nth_error_nth'; lia|].
      exists l. split; [constructor|]. intros j w. rewrite update_pairs_spec with (3 := H); [now rewrite En|auto|now rewrite En].
    + destruct (nth_error (mobjs s) p) as [[kp q]|] eqn:Ep; [|discriminate H]. assert (Lq := Hv _ _ _ Ep).
      assert (O := proj1 (monly_update_from _ _ _ _ _ _ H)). destruct O as (O1 & O2 & _ & O4).
      set (m := nth q (dicts s) []) in *. assert (Em : nth_error (dicts s) q = Some m) by now apply nth_error_nth'. assert (Nm := Hn _ _ Em).
      exists d, (nth r (dicts s') []). split; [eapply mcontents_is; eauto|]. split; [unfold mcontents; rewrite O1, E; apply nth_error_nth'; lia|].
      exists m. split; [constructor; eapply mcontents_is; eauto|]. intros j w.
      assert (U := update_from_spec r q _ s s' Lt Nm H j). fold m in U. rewrite En in U.
      rewrite <- get_in by (apply O4; now rewrite En). rewrite <- (get_in d) by auto. destruct U as [U1 U2]. split.
      * intros G. destruct (get j m) as [v|] eqn:Eg.
        -- assert (I : In j (keys m)) by (apply (get_in m) in Eg; [now apply (in_map fst) in Eg|auto]). destruct (U1 I) as (v' & u & w' & G1 & C1 & C2 & G2).
           left. exists v', u. rewrite last_of_nodup, <- get_in by auto. split; [congruence|]. split; auto. congruence.
        -- right. apply get_none in Eg. split; auto. rewrite <- U2; auto.
      * intros [(v & u & L & C1 & C2)|[I G]]; [|now rewrite U2]. destruct (U1 (last_of_in _ _ _ L)) as (v' & u' & w' & G1 & C3 & C4 & G2).
        rewrite last_of_nodup, <- get_in in L by auto. assert (v' = v) by congruence. subst v'. rewrite (coerced_det _ _ _ C3 C1) in C4.
        rewrite G2. f_equal. eapply coerced_det; eauto.
Qed.
Lemma mcontents_new (s : mstore) (k : kind) d : mcontents (MStore (mobjs s ++ [(k, length (dicts s))]) (dicts s ++ [d])) (length (mobjs s)) = Some d.
Proof. unfold mcontents. cbn. rewrite nth_error_app2, Nat.sub_diag by auto. cbn. now rewrite nth_error_app2, Nat.sub_diag by auto. Qed.
Lemma mconstruct_made (s : mstore) k l s' c : mconstruct keqb fits coerce s k l = (s', Made c) ->
  exists d, c = length (mobjs s) /\ mcontents s' c = Some d /\ forall k w, In (k, w) d <-> exists v, last_of l k v /\ coerced v w.
Proof.
  unfold mconstruct, mnew. destruct (coerce_pairs fits coerce l) as [m|] eqn:E; [|discriminate]. intros H. injection H as <- <-. exists (dict_of m).
  split; auto. split; [apply mcontents_new|]. intros j w. rewrite dict_of_spec. now apply (coerce_pairs_spec l m E).
Qed.
Lemma mstep_makes s x s' c : mvalid s -> mstep s x = (s', Made c) -> exists d, c = length (mobjs s) /\ mcontents s' c = Some d /\ mmakes fits coerce s x d.
Proof.
  intros [Hv Hn]. destruct x as [l|o l|k src|o k v|o k|o|o|o src|o|o]; intros H;
    try (apply mstep_did in H; inversion H as [? [|]|? ? ? ? ? T E O Nm| |]; subst; try discriminate; try (exfalso; eapply Nm; reflexivity); fail); cbn in H.
  - unfold mnew in H. injection H as <- <-. exists (dict_of l). split; auto. split; [apply mcontents_new|]. intros k v. apply dict_of_spec.
  - assert (C : exists l, tuples s src = Some l /\ exists d, c = length (mobjs s) /\ mcontents s' c = Some d /\ forall k w, In (k, w) d <-> exists v, last_of l k v /\ coerced v w).
    { destruct k; [| |discriminate H]; (destruct (tuples s src) as [l|]; [|discriminate H]); exists l; (split; [auto|]); eapply mconstruct_made; eauto. }
    destruct C as (l & El & d & -> & Ed & Sd). exists d. split; auto. split; auto. cbn. destruct src as [l'|p]; cbn in El.
    + injection El as <-. right. exists l'. split; [constructor|]. split; [discriminate|auto].
    + destruct (nth_error (mobjs s) p) as [[kp r]|] eqn:Ep; [|discriminate El]. destruct kp.
      * left. exists p. split; auto. split; [exists Declared, r; split; [auto|discriminate]|]. injection El as <-.
        destruct d as [|[j w] d]; auto. destruct (proj1 (Sd j w) (or_introl eq_refl)) as (v & ([] & b & E & _) & _); discriminate E.
      * left. exists p. split; auto. split; [exists Generic, r; split; [auto|discriminate]|]. injection El as <-.
        destruct d as [|[j w] d]; auto. destruct (proj1 (Sd j w) (or_introl eq_refl)) as (v & ([] & b & E & _) & _); discriminate E.
      * right. exists l. split; [constructor; eapply mcontents_is; eauto|]. split; [|auto]. intros p' Z (k' & r' & E' & Nk). injection Z as <-. congruence.
  - destruct (nth_error (mobjs s) o) as [[[] r]|] eqn:E; destruct (mcontents s o) as [d|] eqn:Ed; try discriminate H.
    + unfold mnew in H. injection H as <- <-. exists d. split; auto. split; [apply mcontents_new|]. exists d. auto.
    + assert (N : NoDup (keys d)) by (unfold mcontents in Ed; rewrite E in Ed; eauto).
      apply mconstruct_made in H as (m & -> & Em & Hm). exists m. split; auto. split; auto. exists d. split; auto. right.
      intros j w. rewrite Hm. split; intros (v & L & C); exists v; split; auto; apply (last_of_nodup d j v N); auto.
    + unfold mnew in H. injection H as <- <-. exists d. split; auto. split; [apply mcontents_new|]. exists d. auto.
  - destruct (nth_error (mobjs s) o) as [[[] r]|] eqn:E; destruct (mcontents s o) as [d|] eqn:Ed; try discriminate H.
    + injection H as <- <-. exists d. split; auto. split; [|exists d; auto]. unfold mcontents in *. cbn. rewrite nth_error_app2, Nat.sub_diag by auto. cbn. now rewrite E in Ed.
    + assert (N : NoDup (keys d)) by (unfold mcontents in Ed; rewrite E in Ed; eauto).
      apply mconstruct_made in H as (m & -> & Em & Hm). exists m. split; auto. split; auto. exists d. split; auto. right.
      intros j w. rewrite Hm. split; intros (v & L & C); exists v; split; auto; apply (last_of_nodup d j v N); auto.
    + unfold mnew in H. injection H as <- <-. exists d. split; auto. split; [apply mcontents_new|]. exists d. auto.
Qed.

(** Updates that fail *)
Lemma coerce_value_none v : coerce_value fits coerce v = None -> fits v = false /\ coerce v = None.
Proof. unfold coerce_value. destruct (fits v); [discriminate|auto]. Qed.
Lemma coerce_twice_none v : coerce_twice fits coerce v = None -> refused fits coerce v.
Proof.
  unfold coerce_twice, refused. destruct (coerce_value fits coerce v) as [u|] eqn:E; intros H; apply coerce_value_none in H || idtac.
  - right. exists u. split; [now apply coerce_value_spec|auto].
  - left. now apply coerce_value_none.
Qed.
Lemma update_pairs_fails r l (s s' : mstore) : update_pairs keqb fits coerce s r l = (s', Raises) ->
  exists l1 k v l2, l = l1 ++ (k, v) :: l2 /\ refused fits coerce v /\ update_pairs keqb fits coerce s r l1 = (s', Done).
Proof.
  revert s. induction l as [|[k v] l IH]; cbn; intros s H; [discriminate H|].
  destruct (coerce_twice fits coerce v) as [w|] eqn:E.
  - apply IH in H as (l1 & j & u & l2 & -> & R & H). exists ((k, v) :: l1), j, u, l2. split; auto. split; auto. cbn. now rewrite E.
  - injection H as <-. exists [], k, v, l. split; auto. split; auto. now apply coerce_twice_none.
Qed.
Lemma update_from_fails r q ks (s s' : mstore) : update_from keqb fits coerce s r q ks = (s', Raises) ->
  exists ks1 k ks2, ks = ks1 ++ k :: ks2 /\ update_from keqb fits coerce s r q ks1 = (s', Done) /\
    forall v, get k (nth q (dicts s') []) = Some v -> refused fits coerce v.
Proof.
  revert s. induction ks as [|k ks IH]; cbn; intros s H; [discriminate H|].
  destruct (get k (nth q (dicts s) [])) as [v|] eqn:Ev; [destruct (coerce_twice fits coerce v) as [w|] eqn:E|].
  - apply IH in H as (ks1 & j & ks2 & -> & H & R). exists (k :: ks1), j, ks2. split; auto. split; auto. cbn. now rewrite Ev, E.
  - injection H as <-. exists [], k, ks. split; auto. split; auto. rewrite Ev. intros v' Z. injection Z as <-. now apply coerce_twice_none.
  - injection H as <-. exists [], k, ks. split; auto. split; auto. rewrite Ev. discriminate.
Qed.
(** Reads of keys not written *)
Lemma update_from_other r q ks (s s' : mstore) k : r < length (dicts s) -> update_from keqb fits coerce s r q ks = (s', Done) -> ~ In k ks ->
  get k (nth q (dicts s') []) = get k (nth q (dicts s) []).
Proof.
  revert s. induction ks as [|j ks IH]; cbn; intros s Lt H N; [now injection H as <-|].
  destruct (get j (nth q (dicts s) [])) as [v|]; [|discriminate H]. destruct (coerce_twice fits coerce v) as [w|]; [|discriminate H].
  rewrite (IH _) with (2 := H); [|cbn; now rewrite set_nth_length|auto].
  cbn. destruct (Nat.eq_dec r q) as [<-|Nq]; [|now rewrite nth_set_nth]. rewrite nth_set_same by auto. rewrite get_put.
  destruct (keqb_cases k j) as [[_ Z]|[-> _]]; [subst; destruct N; auto|auto].
Qed.
(** An update by the first entries of a dict *)
Lemma update_from_first r q m1 m2 (s s' : mstore) : r < length (dicts s) -> NoDup (keys (nth r (dicts s) [])) -> nth q (dicts s) [] = m1 ++ m2 -> NoDup (keys (m1 ++ m2)) ->
  update_from keqb fits coerce s r q (keys m1) = (s', Done) ->
  forall k w, In (k, w) (nth r (dicts s') []) <-> (exists v u, last_of m1 k v /\ coerced v u /\ coerced u w) \/ (~ In k (keys m1) /\ In (k, w) (nth r (dicts s) [])).
Proof.
  intros Lt N Em Nm H k w.
  assert (N1 : NoDup (keys m1)) by (rewrite map_app in Nm; clear -Nm; induction (keys m1) as [|a l IH]; [constructor|]; cbn in Nm; apply NoDup_cons_iff in Nm as [Na Nm]; constructor; auto; intros I; apply Na; apply in_app_iff; auto).
  destruct (update_from_spec r q _ s s' Lt N1 H k) as [U1 U2].
  destruct (monly_update_from _ _ _ _ _ _ H) as [(_ & _ & _ & O4) _].
  assert (G : forall v, In k (keys m1) -> get k (nth q (dicts s) []) = Some v -> In (k, v) m1).
  { intros v I Z. rewrite Em in Z. apply get_in in Z; auto. apply in_app_iff in Z as [Z|Z]; auto.
    exfalso. apply (in_map fst) in Z. cbn in Z. rewrite map_app in Nm. clear -Nm I Z.
    induction (keys m1) as [|a l IH]; [contradiction|]. cbn in Nm. apply NoDup_cons_iff in Nm as [Na Nm]. destruct I as [->|I]; [|auto]. apply Na. apply in_app_iff. auto. }
  rewrite <- get_in by auto. rewrite <- (get_in (nth r (dicts s) [])) by auto. split.
  - intros Z. destruct (get k m1) as [v|] eqn:Eg.
    + assert (I : In k (keys m1)) by (apply (get_in m1) in Eg; [now apply (in_map fst) in Eg|auto]).
      destruct (U1 I) as (v' & u & w' & G1 & C1 & C2 & G2). left. exists v', u. rewrite last_of_nodup by auto. split; [auto|]. split; auto. congruence.
    + apply get_none in Eg. right. split; auto. rewrite <- U2; auto.
  - intros [(v & u & L & C1 & C2)|[I Z]]; [|now rewrite U2]. assert (I := last_of_in _ _ _ L). destruct (U1 I) as (v' & u' & w' & G1 & C3 & C4 & G2).
    rewrite last_of_nodup in L by auto. assert (L' := G _ I G1). rewrite <- (get_in m1) in L, L' by auto.
    assert (v' = v) by congruence. subst v'. rewrite (coerced_det _ _ _ C3 C1) in C4. rewrite G2. f_equal. eapply coerced_det; eauto.
Qed.
Lemma update_fails s o src s' : mvalid s -> mstep s (Update o src) = (s', Raises) ->
  exists d d' l1 k v l2, mcontents s o = Some d /\ mcontents s' o = Some d' /\ mgives s src (l1 ++ (k, v) :: l2) /\ refused fits coerce v /\
    forall j w, In (j, w) d' <-> (exists v u, last_of l1 j v /\ coerced v u /\ coerced u w) \/ (~ In j (keys l1) /\ In (j, w) d).
Proof.
  intros [Hv Hn] H. cbn in H. apply with_map_cases in H as [[_ Z]|(k' & r & d & _ & E & Ed & H)]; [discriminate Z|].
  assert (Lt := Hv _ _ _ E). assert (N := Hn _ _ Ed). assert (En := nth_dict _ _ _ Ed). destruct src as [l|p].
  - apply update_pairs_fails in H as (l1 & k & v & l2 & -> & R & H). destruct (monly_update_pairs _ _ _ _ _ H) as [(O1 & O2 & _ & _) _].
    exists d, (nth r (dicts s') []), l1, k, v, l2. split; [eapply mcontents_is; eauto|]. split; [unfold mcontents; rewrite O1, E; apply nth_error_nth'; lia|].
    split; [constructor|]. split; auto. intros j w. rewrite update_pairs_spec with (3 := H); [now rewrite En|auto|now rewrite En].
  - destruct (nth_error (mobjs s) p) as [[kp q]|] eqn:Ep; [|discriminate H]. assert (Lq := Hv _ _ _ Ep).
    set (m := nth q (dicts s) []) in *. assert (Em : nth_error (dicts s) q = Some m) by now apply nth_error_nth'. assert (Nm := Hn _ _ Em).
    apply update_from_fails in H as (ks1 & k & ks2 & Ek & H & R). destruct (monly_update_from _ _ _ _ _ _ H) as [(O1 & O2 & _ & _) _].
    apply map_eq_app in Ek as (m1 & m2 & Es & E1 & E2). destruct m2 as [|[k2 v] m2]; [discriminate E2|]. cbn in E2. injection E2 as -> E2.
    subst ks1. exists d, (nth r (dicts s') []), m1, k, v, m2. split; [eapply mcontents_is; eauto|]. split; [unfold mcontents; rewrite O1, E; apply nth_error_nth'; lia|].
    assert (Em2 : nth q (dicts s) [] = m1 ++ (k, v) :: m2) by exact Es.
    split; [constructor; rewrite <- Es; eapply mcontents_is; eauto|]. rewrite Es in Nm. split.
    + apply R. rewrite update_from_other with (2 := H); auto.
      * rewrite Em2. apply get_in; auto. apply in_app_iff. right. now left.
      * rewrite map_app in Nm. cbn in Nm. apply NoDup_remove_2 in Nm. intros Z. apply Nm. apply in_app_iff. auto.
    + intros j w. rewrite update_from_first with (5 := H) (3 := Em2); auto; [now rewrite En|now rewrite En].
Qed.
End Proofs.
