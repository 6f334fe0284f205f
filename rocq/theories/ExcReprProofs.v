From Coq Require Import String List NArith ZArith Arith Bool Lia.
From Verif Require Import Prelude SelPathModel GenModel PickleModel AutoModel JsonModel JsonSpec JsonProofs ReprModel ReprSpec ReprText ReprParse ReprProofs ExcReprModel ExcReprSpec.
Import ListNotations.
Local Open Scope list_scope.

Lemma alpha_letter c : is_alpha c = true -> letter c.
Proof.
  unfold is_alpha, letter. intros H. repeat (apply orb_true_iff in H; destruct H as [H|H]); try (apply andb_true_iff in H as [H1 H2]);
  repeat match goal with K : N.leb _ _ = true |- _ => apply N.leb_le in K | K : N.eqb _ _ = true |- _ => apply N.eqb_eq in K end; lia.
Qed.

Section Parse.
Local Open Scope N_scope.
Variable num_value : str -> option nat.
Notation expr := (expr num_value).
Notation items := (items num_value).
Notation pairs := (pairs num_value).
Notation args := (args num_value).
Notation reads := (reads num_value).

(** What begins like a name and is an expression is not the name of an argument. *)
Lemma not_key t e R c t' : reads t e -> ends R -> t = c :: t' -> is_alpha c = true ->
  match snd (span is_alnum (t ++ R)) with d :: _ => (d =? 61) = false | [] => True end.
Proof.
  intros Ht HR Et Hc. pose proof (Ht (2 * length t + 1)%nat R ltac:(lia) HR) as E. subst t.
  replace (2 * length (c :: t') + 1)%nat with (S (2 * length (c :: t')))%nat in E by lia. cbn [app] in *. rewrite expr_S in E.
  assert (L : letter c) by (now apply alpha_letter).
  rewrite (letter_eqb c 91 L eq_refl), (letter_eqb c 40 L eq_refl), (letter_eqb c 123 L eq_refl), (letter_eqb c 39 L eq_refl), (letter_eqb c 34 L eq_refl), (letter_eqb c 45 L eq_refl),
     (letter_dig c L), (letter_alpha c L) in E. cbn [orb] in E.
  destruct (span is_alnum (c :: t' ++ R)) as [w r']. cbn [snd]. destruct r' as [|d r']; auto.
  destruct (d =? 40) eqn:D; [apply N.eqb_eq in D; subst; reflexivity|].
  destruct (word w); [|discriminate E]. injection E as _ <-. cbn in HR. destruct HR as [<-|[<-|[<-|[<-|[]]]]]; reflexivity.
Qed.
Lemma pos_step t e R sp n : blank sp -> reads t e -> starts t -> ends R -> (2 * length t + 1 <= n)%nat ->
  args (S n) (sp ++ t ++ R)
  = match (match R with
           | c1 :: r1 => if c1 =? 44 then args n r1 else if c1 =? 41 then Some ([], [], r1) else None
           | [] => None
           end) with
    | None => None
    | Some (pos, kw, r2) => Some (e :: pos, kw, r2)
    end.
Proof.
  intros Hsp Ht Hst HR Hn. destruct t as [|c t'] eqn:Et; [destruct Hst|]. rewrite <- Et in *. destruct (is_alpha c) eqn:Hc.
  - pose proof (not_key t e R c t' Ht HR Et Hc) as K. rewrite args_S.
    assert (E : skip (sp ++ t ++ R) = t ++ R) by (apply skip_blank; auto).
    rewrite E. rewrite Et at 1. cbn [app].
    assert (E41 : (c =? 41) = false).
    { rewrite Et in Hst. cbn in Hst. apply N.eqb_neq. intros ->. apply Hst. cbn. auto. }
    rewrite E41. change (c :: t' ++ R) with ((c :: t') ++ R). rewrite <- Et.
    destruct (span is_alnum (t ++ R)) as [w r']. cbn [snd] in K.
    assert (K' : (match r' with d :: r'' => if (d =? 61) && is_alpha c then Some r'' else None | [] => None end) = None).
    { destruct r'; auto. now rewrite K. }
    rewrite K'. rewrite Ht by auto. rewrite skip_ends by auto. reflexivity.
  - apply (arg_step num_value None t e R sp n); auto. eauto.
Qed.
Lemma allargs_read ps pes kts kes : Forall2 reads ps pes -> Forall starts ps ->
  Forall2 (fun kt ke => fst kt = fst ke /\ reads (snd kt) (snd ke)) kts kes ->
  Forall (fun kt => identifier (fst kt) /\ starts (snd kt)) kts ->
  forall sp n r, blank sp -> (2 * (length (join (ps ++ map kw_text kts)) + length sp + 1) <= n)%nat ->
  args n (sp ++ join (ps ++ map kw_text kts) ++ 41 :: r) = Some (pes, kes, r).
Proof.
  intros H Hs Hk Hks. induction H as [|p e ps es Hp H IH]; intros sp n r Hsp Hn.
  - cbn [app] in *. now apply kwargs_read.
  - apply Forall_cons_iff in Hs as [Hst Hs]. specialize (IH Hs). destruct n as [|n]; [lia|]. cbn [app] in *.
    destruct (ps ++ map kw_text kts) as [|q qs] eqn:Eq.
    + cbn [join] in *. rewrite (pos_step p e (41 :: r) sp n) by (cbn [ends In]; auto; lia). cbn [N.eqb Pos.eqb].
      apply app_eq_nil in Eq as [-> Ek]. apply map_eq_nil in Ek. subst kts. inversion H; subst. inversion Hk; subst. reflexivity.
    + rewrite join_cons2 in *. rewrite <- app_assoc. cbn [app]. rewrite app_length in Hn. cbn [length] in Hn.
      rewrite (pos_step p e _ sp n) by (cbn [ends In]; auto; lia). cbn [N.eqb Pos.eqb].
      change (32 :: join (q :: qs) ++ 41 :: r) with ([32] ++ join (q :: qs) ++ 41 :: r).
      rewrite IH; auto; [right; reflexivity|cbn [length]; lia].
Qed.
End Parse.

Lemma strip_some p s r : strip p s = Some r -> s = p ++ r.
Proof.
  revert s. induction p as [|c p IH]; intros [|d s] H; cbn in *; try discriminate; try (now injection H as <-).
  destruct (N.eqb c d) eqn:E; [|discriminate]. apply N.eqb_eq in E. subst. f_equal. auto.
Qed.
Lemma strip_app p r : strip p (p ++ r) = Some r.
Proof. induction p as [|c p IH]; cbn; [now destruct r|]. now rewrite N.eqb_refl. Qed.
Lemma strip_name n r : identifier n -> strip (s2l "exc.") (n ++ 40%N :: r) = None.
Proof.
  intros H. destruct (strip (s2l "exc.") (n ++ 40%N :: r)) as [u|] eqn:E; auto. exfalso. apply strip_some in E.
  change (s2l "exc.") with [101; 120; 99; 46]%N in E.
  destruct n as [|a [|b [|c [|d n]]]]; cbn in E; try discriminate E. destruct H as [_ H]. injection E as _ _ _ -> _.
  do 2 (apply Forall_cons_iff in H as [_ H]). apply Forall_cons_iff in H as [H _]. unfold letter in H. lia.
Qed.

Section Main.
Variable W : world.
Variable printable : N -> bool.
Variable cname : nat -> str.
Variable num_text opaque_text : nat -> str.
Variable num_value : str -> option nat.
Variable parse : str -> res pyv.
Variable by_key : list (str * pyv) -> list (str * pyv).
Variable fuel : nat.
Variable scope : str -> option nat.
Variable finite : nat -> Prop.
Hypothesis floats : forall n, finite n -> num_value (num_text n) = Some n /\ float_text (num_text n).
Notation repr := (repr W printable cname num_text opaque_text).
Notation txt := (txt W printable cname num_text opaque_text).
Notation tx := (tx W printable cname num_text opaque_text).
Notation ast_of := (ast_of W cname).
Notation ax := (ax W cname).
Notation good := (good W printable cname num_text opaque_text num_value parse by_key fuel scope).
Notation exc_repr := (exc_repr W printable cname num_text opaque_text).

Lemma percent_r_other x : ~ tuple x -> percent_r W printable cname num_text opaque_text x = repr x.
Proof. destruct x; intros H; try reflexivity. exfalso. apply H. eexists. reflexivity. Qed.
Lemma told e : tellable W cname scope finite e -> exists s, exc_repr e = Ok s /\ read_exc W num_value parse by_key fuel scope s = Val e.
Proof.
  intros (Hn & Ha & Hk & Nd). destruct e as [m n ps ks]. cbn [e_name e_args e_kwargs] in *.
  assert (Gp : forall x, In x ps -> good x) by (intros x I; eapply rebuildable_good; eauto; apply Ha; auto).
  assert (Gk : forall k x, In (k, x) ks -> good x) by (intros k x I; eapply rebuildable_good; eauto; eapply Hk; eauto).
  destruct (good_lists _ _ _ _ _ _ _ _ _ _ ps Gp) as (_ & Fp & Sp & Ep).
  destruct (good_pairs _ _ _ _ _ _ _ _ _ _ ks Gk) as [Fk Ek].
  assert (Sk : Forall (fun kt => identifier (fst kt) /\ starts (snd kt)) (map tx ks)).
  { apply Forall_forall. intros t I. apply in_map_iff in I as ([k x] & <- & I). cbn. split; [eapply Hk; eauto|]. destruct (Gk k x I) as (_ & _ & S & _). exact S. }
  set (call := n ++ 40%N :: join (map txt ps ++ map kw_text (map tx ks)) ++ [41%N]).
  exists ((if m then s2l "exc." else []) ++ call). split.
  - unfold ExcReprModel.exc_repr. cbn [e_exc e_name e_args e_kwargs].
    rewrite (mapm_ok _ txt).
    2:{ intros x I. rewrite percent_r_other by (apply Ha; auto). apply (Gp x I). }
    cbn [bind]. rewrite (mapm_ok _ (fun kv => kw_text (tx kv))).
    2:{ intros [k x] I. cbn [fst snd]. destruct (Gk k x I) as [-> _]. reflexivity. }
    cbn [bind]. unfold call. rewrite (map_map tx kw_text). reflexivity.
  - assert (R : reads num_value call (ACall n (map ast_of ps) (map ax ks))).
    { apply call_reads; auto. intros k r L. pose proof (allargs_read num_value _ _ _ _ Fp Sp Fk Sk [] k r) as Q. cbn [app length] in Q. apply Q; [left; auto|lia]. }
    assert (P : parse_source num_value call = Some (ACall n (map ast_of ps) (map ax ks))).
    { unfold parse_source. pose proof (R (2 * length call + 2)%nat [] ltac:(lia) I) as Z. rewrite app_nil_r in Z. now rewrite Z. }
    assert (St : (match strip (s2l "exc.") ((if m then s2l "exc." else []) ++ call) with Some r => (true, r) | None => (false, (if m then s2l "exc." else []) ++ call) end) = (m, call)).
    { destruct m; [now rewrite strip_app|]. cbn [app]. unfold call. now rewrite strip_name. }
    unfold read_exc. rewrite St, P, Ep. cbn [obind]. rewrite Ek. cbn [obind].
    assert (MF : map fst (map ax ks) = map fst ks) by (rewrite map_map; apply map_ext; reflexivity).
    rewrite MF, no_repeats by auto. reflexivity.
Qed.
Lemma mapm_fails {A B} (f : A -> res B) l x : In x l -> (forall y, f x <> Ok y) -> forall m, mapm f l <> Ok m.
Proof.
  induction l as [|a l IH]; intros I F m H; [destruct I|]. cbn in H. destruct (f a) as [b|] eqn:E; cbn in H; [|discriminate H].
  destruct (mapm f l) as [m'|] eqn:E2; cbn in H; [|discriminate H]. destruct I as [->|I]; [eapply F; eauto|eapply IH; eauto].
Qed.
End Main.
