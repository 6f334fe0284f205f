(** Reading back the source of a selector. *)
From Coq Require Import String List NArith ZArith Arith Bool Lia Permutation.
From Verif Require Import Prelude SelPathModel FSModel MFSModel MFSProofs MFSProps ReprModel ReprSpec ReprText ReprParse
  SelReprModel.
Import ListNotations.
Local Open Scope list_scope.

(** ** Which of the given paths are iterated *)
Section Iter.
Variable ord : list arg -> list arg.
Hypothesis Ho : set_order ord.

Lemma build_iter : forall n args m, Forall good_arg args -> build ord n args = Ok m ->
  forall p, In p (iter m) <-> In p (paths args) /\ (forall p', In p' (paths args) -> prefix p' p -> p' = p).
Proof.
  induction n as [|n IH]; intros args m Hg H p; [discriminate|].
  rewrite build_S in H. destruct (mapM _ _) as [hs|e] eqn:E; cbn [bind] in H; [|discriminate].
  destruct (bad_level (map fst hs)) eqn:Eb; [discriminate|]. inversion H; subst m. clear H.
  pose proof (level_keys ord _ _ _ E) as Hk. cbn [iter]. rewrite in_flat_map. split.
  - intros [[h o] [Hin Hp]]. cbn [fst snd] in Hp. destruct (level_in ord _ _ _ _ _ E Hin) as [_ Hx].
    destruct o as [m'|].
    + destruct Hx as [Ha Hb]. apply in_map_iff in Hp as [t [<- Ht]].
      apply (IH _ _ (sub_args_good ord Ho args h Hg) Hb) in Ht as [H1 H2].
      apply (sub_args_paths ord Ho args h t Hg Ha) in H1. split; [exact H1|].
      intros p' Hp' [u Hu]. pose proof (paths_nonempty _ _ Hp') as Hne. destruct p' as [|x p']; [congruence|].
      cbn in Hu. injection Hu as <- Hu. f_equal. apply H2; [|exists u; exact Hu].
      apply (sub_args_paths ord Ho args h p' Hg Ha). exact Hp'.
    + destruct Hp as [<-|[]]. apply (is_all_paths args h Hg) in Hx. split; [exact Hx|].
      intros p' Hp' [u Hu]. pose proof (paths_nonempty _ _ Hp') as Hne. destruct p' as [|x p']; [congruence|].
      cbn in Hu. injection Hu as <- Hu. destruct p'; [reflexivity|discriminate].
  - intros [H1 H2]. pose proof (paths_nonempty _ _ H1) as Hne. destruct p as [|h t]; [congruence|].
    assert (Hin : In h (map fst hs)) by (rewrite Hk; apply key_paths; eauto).
    apply in_map_iff in Hin as [[h' o] [Eh Hin]]. cbn in Eh. subst h'. exists (h, o). split; [exact Hin|].
    cbn [fst snd]. destruct (level_in ord _ _ _ _ _ E Hin) as [_ Hx]. destruct o as [m'|].
    + destruct Hx as [Ha Hb]. apply in_map. apply (IH _ _ (sub_args_good ord Ho args h Hg) Hb).
      split; [apply (sub_args_paths ord Ho args h t Hg Ha); exact H1|].
      intros p' Hp' [u Hu]. apply (sub_args_paths ord Ho args h p' Hg Ha) in Hp'.
      assert (Q : h :: p' = h :: t) by (apply H2; [exact Hp'|exists u; cbn; congruence]). congruence.
    + apply (is_all_paths args h Hg) in Hx. left.
      apply H2; [exact Hx|]. exists t. reflexivity.
Qed.

Lemma rebuild_iter m : constructible m ->
  exists m', make ord (map AFS (iter m)) = Ok m' /\ constructible m'
    /\ (forall q, contains m' q = contains m q) /\ forall p, In p (iter m') <-> In p (iter m).
Proof.
  intros Hc. destruct (C08_rebuild ord m Ho Hc) as [(m' & E & Q) _]. exists m'. split; [exact E|].
  assert (Ha : args_ok (map AFS (iter m))).
  { intros x Hx. apply in_map_iff in Hx as [p [Ep _]]. discriminate. }
  split; [exact (constructed ord _ m' Ho Ha E)|]. split; [exact Q|].
  intros p. rewrite (build_iter _ _ _ (args_ok_good _ Ha) E p). rewrite paths_iter by exact Hc.
  split; [intros [H _]; exact H|]. intros H. split; [exact H|]. intros p' Hp' Hpre.
  assert (D : p' = p \/ (~ prefix p' p /\ ~ prefix p p')).
  { pose proof (iter_antichain m (constructible_wf m Hc)) as A. clear -A H Hp'.
    induction A as [|a l Ha A IH]; [destruct H|]. rewrite Forall_forall in Ha.
    destruct H as [<-|H], Hp' as [<-|Hp'].
    - left. reflexivity.
    - right. apply and_comm. apply Ha. exact Hp'.
    - right. apply Ha. exact H.
    - apply IH; assumption. }
  destruct D as [D|[D _]]; [exact D|contradiction].
Qed.
End Iter.

(** ** Text *)
Lemma alpha_letter c : is_alpha c = true -> letter c.
Proof.
  unfold is_alpha, letter. rewrite !orb_true_iff, !andb_true_iff, !N.leb_le, N.eqb_eq. tauto.
Qed.
Lemma identifier_check n : match n with [] => False | c :: r => is_alpha c = true /\ forallb is_alnum r = true end ->
  identifier n.
Proof.
  destruct n as [|c r]; [intros []|]. intros [H1 H2]. split; [apply alpha_letter; exact H1|].
  apply Forall_forall. intros x Hx. rewrite forallb_forall in H2. apply H2 in Hx. unfold is_alnum in Hx.
  apply orb_true_iff in Hx as [Hx|Hx]; [left; apply alpha_letter; exact Hx|right; apply dig_cases; exact Hx].
Qed.

Section Read.
Variable printable : N -> bool.
Variable num_value : str -> option nat.
Notation reads := (reads num_value).

Definition elem_ast (e : elem) : ast :=
  match e with EStr s => AStr s | EInt i => AInt i | ENone => ANone end.
Definition readable (e : elem) : Prop := match e with EStr s => unicode s | _ => True end.

Lemma int_text i : exists c t, fmt_int i = c :: t /\ (is_dig c = true \/ c = 45%N) /\ forallb is_numch (fmt_int i) = true.
Proof.
  destruct (fmt_int_shape i) as (ds & D & Hne & Hz).
  pose proof (forallb_impl is_dig is_numch ds dig_num D) as Q.
  destruct Hz as [[-> _]|[-> _]].
  - destruct ds as [|c t]; [congruence|]. cbn [forallb] in D. apply andb_true_iff in D as [D _]. exists c, t. auto.
  - exists 45%N, ds. repeat split; auto.
Qed.

Lemma elem_reads e : readable e -> reads (elem_repr printable e) (elem_ast e).
Proof.
  destruct e as [s|i|]; cbn [readable elem_repr elem_ast]; intros H.
  - intros n r Hn Hr. apply str_read; [exact H|lia].
  - intros n r Hn Hr. destruct (int_text i) as (c & t & Et & Hc & Q).
    apply numeral_read; [lia|apply fmt_int_numeral|exact Q|exists c, t; auto|exact Hr].
  - apply word_reads; [reflexivity|]. apply identifier_check. split; reflexivity.
Qed.
Lemma elem_starts e : starts (elem_repr printable e).
Proof.
  destruct e as [s|i|]; cbn [elem_repr].
  - destruct (str_repr_head printable s) as (c & t & -> & [-> | ->]); cbn; intuition discriminate.
  - destruct (int_text i) as (c & t & -> & [Hc| ->] & _); cbn; [|intuition discriminate].
    apply dig_cases in Hc. intros [E|[E|[E|[E|[]]]]]; lia.
  - cbn. intuition discriminate.
Qed.

Lemma elems_text l : elems_repr printable l = 91%N :: join (map (elem_repr printable) l) ++ [93%N].
Proof. reflexivity. Qed.
Lemma elems_reads l : Forall readable l -> reads (elems_repr printable l) (AList (map elem_ast l)).
Proof.
  intros H. rewrite elems_text. apply list_reads.
  - induction H as [|e l He H IH]; cbn [map]; constructor; auto. apply elem_reads. exact He.
  - apply Forall_forall. intros t Ht. apply in_map_iff in Ht as (e & <- & _). apply elem_starts.
Qed.

(** Several positional arguments, with or without a comma at the end. *)
Lemma pos_read ts es : Forall2 reads ts es ->
  Forall (fun t => exists t', t = 91%N :: t') ts ->
  forall sp n r, blank sp -> (2 * (length (join ts) + length sp + 1) <= n)%nat ->
  args num_value n (sp ++ join ts ++ 41%N :: r) = Some (es, [], r).
Proof.
  intros H. induction H as [|t e ts es Ht H IH]; intros Hs sp n r Hsp Hn.
  - cbn [join app length] in *. destruct n as [|n]; [lia|]. rewrite args_S.
    destruct Hsp as [-> | ->]; reflexivity.
  - inversion Hs as [|? ? [t' Et] Hs']; subst.
    destruct n as [|n]; [lia|].
    assert (St : starts (91%N :: t')) by (cbn; intuition discriminate).
    destruct ts as [|t2 ts].
    + inversion H; subst es. cbn [join] in *.
      pose proof (arg_step num_value None (91%N :: t') e (41%N :: r) sp n Hsp Ht St) as E. cbv zeta in E.
      rewrite E; [reflexivity|cbn; auto|lia|].
      exists 91%N, t'. split; reflexivity.
    + rewrite join_cons2 in *. rewrite <- app_assoc. cbn [app].
      rewrite app_length in Hn. cbn [length] in Hn.
      pose proof (arg_step num_value None (91%N :: t') e (44%N :: 32%N :: join (t2 :: ts) ++ 41%N :: r) sp n Hsp Ht St) as E.
      cbv zeta in E. cbn [app] in E. rewrite E; [|cbn; auto|cbn [length]; lia|exists 91%N, t'; split; reflexivity].
      cbn [N.eqb Pos.eqb].
      pose proof (IH Hs' [32%N] n r) as K. cbn [app length] in K. rewrite K; [reflexivity|right; reflexivity|lia].
Qed.
Lemma pos_read1 t e n r : reads (91%N :: t) e -> (2 * (length (91%N :: t) + 2) <= n)%nat ->
  args num_value n ((91%N :: t) ++ 44%N :: 41%N :: r) = Some ([e], [], r).
Proof.
  intros Ht Hn. destruct n as [|n]; [lia|].
  assert (St : starts (91%N :: t)) by (cbn; intuition discriminate).
  pose proof (arg_step num_value None (91%N :: t) e (44%N :: 41%N :: r) [] n (or_introl eq_refl) Ht St) as E.
  cbv zeta in E. cbn [app] in E. cbn [app].
  rewrite E; [|cbn; auto|lia|exists 91%N, t; split; reflexivity].
  cbn [N.eqb Pos.eqb]. cbn [length] in Hn. destruct n as [|n]; [lia|]. rewrite args_S. reflexivity.
Qed.

Lemma parse_reads t e : reads t e -> parse_source num_value t = Some e.
Proof.
  intros R. unfold parse_source.
  pose proof (R (2 * length t + 2)%nat [] ltac:(lia) I) as P. rewrite app_nil_r in P. rewrite P. reflexivity.
Qed.

Lemma fs_reads cls l : identifier cls -> Forall readable l ->
  parse_source num_value (fs_repr printable cls l) = Some (ACall cls [AList (map elem_ast l)] []).
Proof.
  intros Hc Hl. apply parse_reads. unfold fs_repr. change (s2l "(") with [40%N]. change (s2l ")") with [41%N].
  cbn [app]. apply call_reads; [exact Hc|]. intros n r Hn.
  pose proof (pos_read [elems_repr printable l] [AList (map elem_ast l)]) as P. cbn [join] in P.
  apply (P ltac:(constructor; [apply elems_reads; exact Hl|constructor])
           ltac:(constructor; [rewrite elems_text; eauto|constructor]) [] n r (or_introl eq_refl)).
  cbn [length]. lia.
Qed.

Lemma mfs_reads m : (forall p, In p (iter m) -> Forall readable p) ->
  parse_source num_value (mfs_repr printable m)
  = Some (ACall (s2l "MultiFieldSelector") (map (fun p => AList (map elem_ast p)) (iter m)) []).
Proof.
  intros H. apply parse_reads. unfold mfs_repr.
  assert (Hc : identifier (s2l "MultiFieldSelector")) by (apply identifier_check; split; reflexivity).
  remember (s2l "MultiFieldSelector") as cls. clear Heqcls.
  assert (R : Forall2 reads (map (elems_repr printable) (iter m)) (map (fun p => AList (map elem_ast p)) (iter m))).
  { induction (iter m) as [|p l IH]; cbn [map]; constructor; [apply elems_reads, H; left; reflexivity|].
    apply IH. intros q Hq. apply H. right. exact Hq. }
  assert (S : Forall (fun t => exists t', t = 91%N :: t') (map (elems_repr printable) (iter m))).
  { apply Forall_forall. intros t Ht. apply in_map_iff in Ht as (p & <- & _). rewrite elems_text. eauto. }
  revert R S. generalize (map (elems_repr printable) (iter m)) (map (fun p => AList (map elem_ast p)) (iter m)).
  intros ts es R S. unfold tuple_text.
  assert (Gen : reads (cls ++ 40%N :: join ts ++ [41%N]) (ACall cls es [])).
  { apply call_reads; [exact Hc|]. intros n r Hn.
    pose proof (pos_read ts es R S [] n r (or_introl eq_refl)) as P. cbn [app length] in P. apply P. lia. }
  destruct ts as [|t [|t2 ts]]; [exact Gen| |exact Gen].
  inversion R as [|? e ? es' Ht R']; subst. inversion R'; subst. inversion S as [|? ? [t' Et] _]; subst.
  change (s2l "(" ++ (91%N :: t') ++ s2l ",)") with (40%N :: (91%N :: t') ++ [44%N] ++ [41%N]).
  rewrite (app_assoc (91%N :: t')). apply call_reads; [exact Hc|]. intros n r Hn.
  rewrite <- app_assoc. cbn [app]. apply (pos_read1 t' e n r Ht).
  rewrite app_length in Hn. cbn [length] in *. lia.
Qed.

(** *** Evaluation *)
Lemma raws_elems l : raws_of (map elem_ast l) = Some (map Good l).
Proof.
  induction l as [|e l IH]; [reflexivity|]. cbn [map raws_of]. rewrite IH. destruct e; reflexivity.
Qed.
Lemma init_elems l : fs_init (map Good l) = Ok (map Good l).
Proof.
  unfold fs_init. replace (existsb raw_bad_true (map Good l)) with false; [reflexivity|].
  induction l; cbn; auto.
Qed.
Lemma goods_elems l : goods (map Good l) = Some l.
Proof. induction l as [|e l IH]; [reflexivity|]. cbn [map goods]. rewrite IH. reflexivity. Qed.
Lemma call_elems l : fs_call (AList (map elem_ast l)) = Some (Ok (map Good l)).
Proof. cbn [fs_call]. rewrite raws_elems. cbn [option_map]. rewrite init_elems. reflexivity. Qed.
Lemma args_elems ps : mfs_args (map (fun p => AList (map elem_ast p)) ps) = Some (Ok (map AFS ps)).
Proof.
  induction ps as [|p ps IH]; [reflexivity|]. cbn [map mfs_args]. rewrite call_elems, goods_elems, IH. reflexivity.
Qed.
End Read.
