From Coq Require Import List Arith NArith ZArith Bool Lia Permutation.
From Verif Require Import Prelude Regex SelPathModel SelPathProofs FSModel FSProofs MFSModel MFSProofs.
Import ListNotations.
Local Open Scope N_scope.

Section Text.
  Variable uword : char -> bool.
  Variable udigit : char -> option N.
  Notation tok := (mfs_tok uword udigit).
  Notation okE := (ok_elem uword).
  Notation fol := (follows uword).

  Lemma lex_elem e v : okE e -> fol v ->
    exists c, finditer tok (fmt_elem uword e ++ v) = c :: finditer tok v /\
              tok_elem udigit c = [e] /\ group g_branch c = None.
  Proof.
    intros He Hv. destruct (tok_fmt uword udigit e v He Hv) as [c [H1 [H2 [H3 H4]]]].
    exists c. repeat split; auto. apply finditer_hit; auto.
    unfold re_match, mfs_tok in *. unfold path_tok in H1.
    change (run (RAlt ?a (RAlt ?b ?d)) [] ?s) with (run a [] s ++ run b [] s ++ run d [] s).
    rewrite app_assoc, hd_error_app.
    change (run (RAlt (attr_re uword) (bracket_re udigit)) [] (fmt_elem uword e ++ v))
      with (run (attr_re uword) [] (fmt_elem uword e ++ v) ++ run (bracket_re udigit) [] (fmt_elem uword e ++ v)) in H1.
    now rewrite H1.
  Qed.

  Lemma lex_branch b v : is_branch b = true ->
    finditer tok (b :: v) = [(g_branch, [b])] :: finditer tok v.
  Proof.
    intros Hb. apply finditer_hit; [|cbn [length]; lia].
    assert (Hb' : b <> 46 /\ b <> 91).
    { unfold is_branch in Hb. rewrite !orb_true_iff, !N.eqb_eq in Hb. lia. }
    unfold re_match, mfs_tok. rewrite run_alt_r by (apply run_attr_no; tauto).
    rewrite run_alt_r by (unfold bracket_re; apply run_lit_seq_no; intuition congruence).
    cbn [run]. rewrite Hb. cbn [map hd_error fst snd length].
    replace (S (length v) - length v)%nat with 1%nat by lia. reflexivity.
  Qed.

  Definition pending (st : pstate) : list (list elem) :=
    if p_popping st then p_mfs st else p_mfs st ++ [p_fs st].

  (** [eats s out]: reading the text [s] in any state adds the selectors [out] below the
      current cursor, and leaves the stack alone. *)
  Definition eats (s : str) (out : list (list elem)) : Prop :=
    forall v st, fol v -> exists st',
      pfold udigit st (finditer tok (s ++ v)) = pfold udigit st' (finditer tok v) /\
      pending st' = p_mfs st ++ map (app (p_fs st)) out /\
      p_stack st' = p_stack st /\ (p_popping st' = false -> p_fs st' <> []).

  Lemma step_elem st c e : tok_elem udigit c = [e] -> group g_branch c = None ->
    pstep udigit st c = Ok (mkP (p_mfs st) (p_fs st ++ [e]) (p_stack st) false).
  Proof. intros H1 H2. unfold pstep. rewrite H2. cbn. now rewrite H1. Qed.

  Lemma step_open st : pstep udigit st [(g_branch, [40])] =
    Ok (mkP (p_mfs st) (p_fs st) (p_fs st :: p_stack st) (p_popping st)).
  Proof. unfold pstep. cbn. now rewrite app_nil_r. Qed.

  Lemma step_alt st top rest : p_stack st = top :: rest ->
    pstep udigit st [(g_branch, [124])] = Ok (mkP (pending st) top (top :: rest) (p_popping st)).
  Proof. intros H. unfold pstep, pending. cbn. rewrite H. cbn. now rewrite app_nil_r. Qed.

  Lemma step_close st top rest : p_stack st = top :: rest ->
    pstep udigit st [(g_branch, [41])] = Ok (mkP (pending st) top rest true).
  Proof. intros H. unfold pstep, pending. cbn. rewrite H. cbn. now rewrite app_nil_r. Qed.

  Definition part (ht : elem * option mfs) : str :=
    fmt_elem uword (fst ht) ++ match snd ht with Some m' => mfs_path uword m' | None => [] end.
  Definition part_iter (ht : elem * option mfs) : list (list elem) :=
    match snd ht with None => [[fst ht]] | Some m' => map (cons (fst ht)) (iter m') end.

  Lemma fol_char x v : SelPathModel.is_word uword x = false -> fol (x :: v).
  Proof. intros H. exact H. Qed.

  Lemma fol_elem e v : fol (fmt_elem uword e ++ v).
  Proof.
    destruct (fmt_elem_head uword e) as [x [t [-> [->| ->]]]]; reflexivity.
  Qed.

  Lemma fol_mfs m v : heads m <> [] -> fol (mfs_path uword m ++ v).
  Proof.
    destruct m as [hs]. cbn [heads mfs_path]. intros Hn.
    destruct hs as [|[h o] [|y t]]; [congruence| |]; cbn [map].
    - rewrite <- app_assoc. apply fol_elem.
    - reflexivity.
  Qed.

  Lemma part_eats ht :
    okE (fst ht) ->
    (forall m', snd ht = Some m' -> heads m' <> [] /\ eats (mfs_path uword m') (iter m')) ->
    eats (part ht) (part_iter ht).
  Proof.
    destruct ht as [h o]. cbn [fst snd]. intros Hok Hs v st Hv. unfold part, part_iter. cbn [fst snd].
    rewrite <- app_assoc. destruct o as [m'|].
    - destruct (Hs m' eq_refl) as [Hn He].
      destruct (lex_elem h (mfs_path uword m' ++ v) Hok (fol_mfs m' v Hn)) as [c [L [T B]]].
      rewrite L. cbn [pfold]. rewrite (step_elem st c h T B). cbn [bind].
      destruct (He v (mkP (p_mfs st) (p_fs st ++ [h]) (p_stack st) false) Hv) as [st' [E1 [E2 [E3 E4]]]].
      exists st'. repeat split; auto. rewrite E2. cbn [p_mfs p_fs]. f_equal.
      rewrite map_map. apply map_ext. intros a. now rewrite <- app_assoc.
    - cbn [app]. destruct (lex_elem h v Hok Hv) as [c [L [T B]]].
      rewrite L. cbn [pfold]. rewrite (step_elem st c h T B). cbn [bind].
      eexists. split; [reflexivity|]. cbn. repeat split; auto.
      intros _. destruct (p_fs st); discriminate.
  Qed.

  (** alternatives inside parentheses; the resume point is the cursor *)
  Lemma join_eats hs : hs <> [] -> (forall ht, In ht hs -> eats (part ht) (part_iter ht)) ->
    forall v st f rest, fol v -> p_fs st = f -> p_stack st = f :: rest ->
    exists st',
      pfold udigit st (finditer tok (join [124] (map part hs) ++ v)) = pfold udigit st' (finditer tok v) /\
      pending st' = p_mfs st ++ map (app f) (flat_map part_iter hs) /\
      p_stack st' = f :: rest.
  Proof.
    induction hs as [|ht hs IH]; intros Hne Hall v st f rest Hv Hf Hst; [congruence|].
    destruct hs as [|ht2 hs].
    - cbn [map join]. destruct (Hall ht (or_introl eq_refl) v st Hv) as [st' [E1 [E2 [E3 _]]]].
      exists st'. split; auto. cbn [flat_map]. rewrite app_nil_r. rewrite E2, Hf. split; auto. congruence.
    - change (join [124] (map part (ht :: ht2 :: hs))) with
        (part ht ++ [124] ++ join [124] (map part (ht2 :: hs))).
      rewrite <- !app_assoc. cbn [app].
      destruct (Hall ht (or_introl eq_refl) (124 :: join [124] (map part (ht2 :: hs)) ++ v) st)
        as [st1 [E1 [E2 [E3 _]]]]; [reflexivity|].
      rewrite E1. rewrite lex_branch by reflexivity. cbn [pfold].
      rewrite (step_alt st1 f rest) by congruence. cbn [bind].
      destruct (IH ltac:(discriminate) (fun x Hx => Hall x (or_intror Hx)) v
                   (mkP (pending st1) f (f :: rest) (p_popping st1)) f rest Hv eq_refl eq_refl)
        as [st2 [F1 [F2 F3]]].
      exists st2. split; [exact F1|]. split; [|exact F3].
      rewrite F2. cbn [p_mfs]. rewrite E2, Hf.
      change (flat_map part_iter (ht :: ht2 :: hs)) with (part_iter ht ++ flat_map part_iter (ht2 :: hs)).
      rewrite map_app, app_assoc. reflexivity.
  Qed.

  Lemma mfs_path_node hs : (length hs <> 1)%nat ->
    mfs_path uword (Node hs) = 40 :: join [124] (map part hs) ++ [41].
  Proof.
    intros H. cbn [mfs_path].
    change (fun ht : elem * option mfs => fmt_elem uword (fst ht) ++
              match snd ht with Some m' => mfs_path uword m' | None => [] end) with part.
    destruct hs as [|a [|b t]]; [reflexivity| cbn in H; lia | reflexivity].
  Qed.

  Lemma mfs_eats m : wf m -> heads m <> [] ->
    (forall p e, In p (iter m) -> In e p -> okE e) ->
    eats (mfs_path uword m) (iter m).
  Proof.
    induction m as [hs IH] using mfs_ind'. intros Hwf Hn Hok. cbn [heads] in Hn.
    apply wf_node in Hwf as [_ [_ Hsub]].
    assert (Hpart : forall ht, In ht hs -> eats (part ht) (part_iter ht)).
    { intros [h o] Hin. apply part_eats; cbn [fst snd].
      - destruct o as [m'|].
        + destruct (Hsub h m' Hin) as [Hn' Hw'].
          assert (exists p, In p (iter m')) as [p Hp].
          { destruct (wf_inhabited m' Hw' Hn') as [q Hq]. apply iter_contains in Hq as [p [Hp _]]; eauto. }
          apply (Hok (h :: p)); [|left; auto]. cbn [iter]. apply in_flat_map. exists (h, Some m').
          split; auto. cbn. now apply in_map.
        + apply (Hok [h]); [|left; auto]. cbn [iter]. apply in_flat_map. exists (h, None).
          split; auto. cbn. auto.
      - intros m' ->. destruct (Hsub h m' Hin) as [Hn' Hw']. split; auto.
        apply (IH h m' Hin Hw' Hn'). intros p e Hp He. apply (Hok (h :: p)); [|right; auto].
        cbn [iter]. apply in_flat_map. exists (h, Some m'). split; auto. cbn. now apply in_map. }
    destruct hs as [|ht [|ht2 t]]; [congruence| |].
    - specialize (Hpart ht (or_introl eq_refl)). cbn [mfs_path map iter flat_map]. rewrite app_nil_r.
      exact Hpart.
    - rewrite mfs_path_node by (cbn; lia). intros v st Hv. cbn [app].
      rewrite lex_branch by reflexivity. cbn [pfold]. rewrite step_open. cbn [bind].
      rewrite <- app_assoc. cbn [app].
      destruct (join_eats (ht :: ht2 :: t) ltac:(discriminate) Hpart (41 :: v)
                  (mkP (p_mfs st) (p_fs st) (p_fs st :: p_stack st) (p_popping st))
                  (p_fs st) (p_stack st) eq_refl eq_refl eq_refl) as [st' [E1 [E2 E3]]].
      rewrite E1. rewrite lex_branch by reflexivity. cbn [pfold].
      rewrite (step_close st' _ _ E3). cbn [bind].
      eexists. split; [reflexivity|]. cbn [pending p_popping p_mfs p_stack p_fs].
      repeat split; auto. discriminate.
  Qed.

  Lemma scan_mfs_path m : wf m -> heads m <> [] ->
    (forall p e, In p (iter m) -> In e p -> okE e) ->
    scan_mfs uword udigit (mfs_path uword m) = Ok (iter m).
  Proof.
    intros Hw Hn Hok. unfold scan_mfs.
    destruct (mfs_eats m Hw Hn Hok [] (mkP [] [] [] false) I) as [st' [E1 [E2 [E3 E4]]]].
    rewrite app_nil_r in E1. rewrite E1. cbn [finditer scan_all scan flat_map pfold bind].
    change (flat_map (fun p : piece => match p with Skip _ => [] | Hit c => [c] end) (scan 1 tok [])) with (@nil caps).
    cbn [pfold bind]. f_equal. cbn [p_mfs p_fs app] in E2. rewrite map_id in E2.
    unfold pending in E2. destruct (p_popping st'); cbn [negb andb]; [exact E2|].
    specialize (E4 eq_refl). destruct (p_fs st'); [congruence|exact E2].
  Qed.
End Text.
