(** Proofs about signatures and calls. *)
From Coq Require Import String List NArith Bool Arith Lia.
Import ListNotations.
From Verif Require Import Prelude SigModel SigSpec.
Local Open Scope list_scope.

Lemma must_required s l : wf_sig s -> (must s l <-> l = required s).
Proof.
  intros [_ h]. unfold must, required. fold (positional s). split.
  - intros (o & e & n). rewrite e, app_length, <- n. replace (length l + length o - length o) with (length l + 0) by lia.
    rewrite firstn_app_2. simpl. now rewrite app_nil_r.
  - intros ->. exists (skipn (length (positional s) - s_defaults s) (positional s)).
    split; [now rewrite firstn_skipn|]. rewrite skipn_length. lia.
Qed.
Lemma required_length s : length (required s) = length (positional s) - s_defaults s.
Proof. unfold required. rewrite firstn_length. lia. Qed.

Lemma nodup_app_l {X} (a b : list X) : NoDup (a ++ b) -> NoDup a.
Proof.
  induction a as [|x a IH]; simpl; intros h; [constructor|]. inversion h as [|? ? h1 h2]; subst.
  constructor; auto. intros i. apply h1, in_or_app. auto.
Qed.

Section Vals.
Context {V : Type}.
Implicit Types (pos : list V) (e : list (str * V)).

Lemma take_pos_fst : forall ps pos, fst (take_pos ps pos) = combine ps pos.
Proof.
  induction ps as [|p ps IH]; intros [|v pos]; simpl; auto.
  specialize (IH pos). destruct (take_pos ps pos). simpl in *. congruence.
Qed.
Lemma take_pos_snd : forall ps pos, snd (take_pos ps pos) = skipn (length ps) pos.
Proof.
  induction ps as [|p ps IH]; intros [|v pos]; simpl; auto.
  specialize (IH pos). destruct (take_pos ps pos). simpl in *. congruence.
Qed.
Lemma bound_to_in n e : bound_to n e = true <-> In n (map fst e).
Proof.
  unfold bound_to. rewrite existsb_exists, in_map_iff. split.
  - intros ([m v] & i & h). apply str_eqb_eq in h. simpl in h. exists (m, v). auto.
  - intros ([m v] & h & i). exists (m, v). split; auto. simpl in *. now apply str_eqb_eq.
Qed.
Lemma known_in n l : known n l = true <-> In n l.
Proof.
  unfold known. rewrite existsb_exists. split.
  - intros (m & i & h). apply str_eqb_eq in h. now subst.
  - intros i. exists n. split; auto. apply str_eqb_refl.
Qed.
Lemma combine_fst : forall (ps : list str) pos, map fst (combine ps pos) = firstn (length pos) ps.
Proof. induction ps as [|p ps IH]; intros [|v pos]; simpl; auto. now rewrite IH. Qed.

Lemma required_bound s e : forallb (fun p => bound_to p e) (required s) = true <-> incl (required s) (map fst e).
Proof.
  rewrite forallb_forall. unfold incl. split; intros h p i; [now apply bound_to_in, h|now apply bound_to_in, h].
Qed.

Lemma firstn_incl (l : list str) a b : NoDup l -> b <= length l -> incl (firstn b l) (firstn a l) -> b <= a.
Proof.
  intros nd hb h. destruct (le_lt_dec b a); auto.
  assert (ia : NoDup (firstn b l)) by (rewrite <- (firstn_skipn b l) in nd; now apply nodup_app_l in nd).
  apply NoDup_incl_length in h; auto. rewrite !firstn_length in h. lia.
Qed.
Lemma firstn_mono {X} (l : list X) a b : b <= a -> incl (firstn b l) (firstn a l).
Proof.
  intros h x i. replace b with (Nat.min b a) in i by lia. rewrite <- firstn_firstn in i.
  rewrite <- (firstn_skipn b (firstn a l)). apply in_or_app. auto.
Qed.

Definition binding_of (s : sig) pos : binding V :=
  Binding (combine (positional s) pos) (skipn (length (positional s)) pos) [].

(** a call with positional arguments only *)
Lemma bind_pos s pos : wf_sig s ->
  (accepts s (length pos) -> bind_args s pos [] = Some (binding_of s pos)) /\
  (bind_args s pos [] <> None -> accepts s (length pos)).
Proof.
  intros wf. pose proof wf as [nd hd]. apply nodup_app_l in nd.
  unfold bind_args. destruct (take_pos (positional s) pos) as [e rest] eqn:et.
  assert (ee : e = combine (positional s) pos) by (now rewrite <- take_pos_fst, et).
  assert (er : rest = skipn (length (positional s)) pos) by (now rewrite <- take_pos_snd, et).
  cbn [take_kw].
  assert (hr : forallb (fun p => bound_to p e) (required s) = true <-> length (required s) <= length pos).
  { rewrite required_bound, ee, combine_fst. rewrite required_length. unfold required. split.
    - intros h. apply (firstn_incl (positional s)); auto. lia.
    - intros h. now apply firstn_mono. }
  assert (hk : no_keyword_needed s -> forallb (fun p => snd p || bound_to (fst p) e) (s_kwonly s) = true).
  { intros h. apply forallb_forall. intros [n d] i. rewrite (h _ _ i). auto. }
  assert (hk' : forallb (fun p => snd p || bound_to (fst p) e) (s_kwonly s) = true -> no_keyword_needed s).
  { rewrite forallb_forall. intros h n d i. specialize (h _ i). simpl in h. destruct d; auto. simpl in h. exfalso.
    apply bound_to_in in h. rewrite ee, combine_fst in h.
    assert (j : In n (positional s)).
    { rewrite <- (firstn_skipn (length pos) (positional s)). apply in_or_app; auto. }
    destruct wf as [nd' _]. apply in_split in j as (l1 & l2 & ej). rewrite ej in nd'.
    rewrite <- app_assoc in nd'. simpl in nd'. apply NoDup_remove_2 in nd'. apply nd'.
    apply in_or_app. right. apply in_or_app. right. apply in_map_iff. exists (n, false). auto. }
  assert (hm : (forall l, must s l -> length l <= length pos) <-> length (required s) <= length pos).
  { split; [intros h; apply h, must_required; auto|]. intros h l m. apply must_required in m; auto. now subst. }
  assert (hp : length (positional s) = length (s_posonly s) + length (s_args s)) by (unfold positional; now rewrite app_length).
  split.
  - intros (a1 & a2 & a3). apply hm, hr in a1. rewrite a1, (hk a3). unfold binding_of. rewrite <- er, <- ee.
    destruct rest as [|r rest]; auto. destruct (s_varargs s) eqn:ev; auto. exfalso.
    destruct a2 as [a2|]; [|congruence]. assert (l : length (skipn (length (positional s)) pos) <> 0) by (rewrite <- er; simpl; lia).
    rewrite skipn_length in l. lia.
  - intros h. assert (hroom : room s (length pos)).
    { unfold room. destruct (s_varargs s); auto. left. destruct rest; [|congruence].
      assert (l : length (skipn (length (positional s)) pos) = 0) by (rewrite <- er; auto). rewrite skipn_length in l. lia. }
    assert (h2 : forallb (fun p => bound_to p e) (required s) && forallb (fun p => snd p || bound_to (fst p) e) (s_kwonly s) = true).
    { destruct rest, (s_varargs s), (forallb _ (required s) && _); auto; congruence. }
    apply andb_true_iff in h2 as [h2 h3]. split; [apply hm, hr; auto|]. split; auto.
Qed.

Lemma accepts_iff s n : wf_sig s -> (accepts s n <-> length (positional s) - s_defaults s <= n /\ room s n /\ no_keyword_needed s).
Proof.
  intros wf. unfold accepts. rewrite <- required_length. split; intros (a & b & c); split; auto.
  - apply a. now apply must_required.
  - intros l m. apply must_required in m; auto. now subst.
Qed.
Lemma room_mono s n m : room s m -> n <= m -> room s n.
Proof. intros [h|h] l; [left; lia|right; auto]. Qed.

(** func_info *)
Lemma func_info_spec s : wf_sig s ->
  let n := length (positional s) - s_defaults s in
  (exists a l, positional s = a :: l /\ n >= 1 /\ a = self_s /\ func_info s = (true, n - 1)) \/
  ((n = 0 \/ exists a l, positional s = a :: l /\ a <> self_s) /\ func_info s = (false, n)).
Proof.
  intros wf n. unfold func_info. destruct (positional s) as [|a l] eqn:ep; [right; split; auto|].
  cbv zeta. subst n. destruct (length (a :: l) - s_defaults s) as [|m] eqn:en; [right; split; auto|].
  destruct (str_eqb a self_s) eqn:es.
  - left. exists a, l. apply str_eqb_eq in es. repeat split; auto; try lia. do 2 f_equal. lia.
  - right. split; auto. right. exists a, l. split; auto. now apply str_eqb_neq.
Qed.
End Vals.
