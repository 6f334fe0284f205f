(** C26: text compared with whitespace (and case) ignored. *)
From Coq Require Import String List NArith Bool Lia.
From Verif Require Import Prelude Regex SelPathModel SelPathProofs TextModel.
Import ListNotations.

Section Spec.
Variable ws : char -> bool.

(** The words of a text: its maximal runs of characters that are not blank. *)
Inductive reads : str -> list str -> Prop :=
| reads_nil : reads [] []
| reads_blank x t W : ws x = true -> reads t W -> reads (x :: t) W
| reads_word w t W : w <> [] -> Forall (fun x => ws x = false) w ->
    (forall x u, t = x :: u -> ws x = true) -> reads t W -> reads (w ++ t) (w :: W).

End Spec.

Section Proofs.
Variable ws : char -> bool.
Variable upper : str -> str.
Variable nfc : str -> str.
Hypothesis space_ws : ws 32%N = true.

Notation reads := (reads ws).
Notation nw := (normalize_whitespace ws).

Lemma ws_match x t : re_match (ws_re ws) (x :: t) = if ws x then Some ([], drop_while ws t) else None.
Proof.
  unfold re_match, ws_re. rewrite run_plus_set, hd_error_map. cbn [spans1].
  destruct (ws x); [|reflexivity]. now rewrite hd_spans.
Qed.

Lemma drop_while_len t : length (drop_while ws t) <= length t.
Proof. induction t as [|x u IH]; cbn [drop_while length]; auto. destruct (ws x); cbn [length]; lia. Qed.

Lemma scan_ws x t : scan_all (ws_re ws) (x :: t) =
  if ws x then Hit [] :: scan_all (ws_re ws) (drop_while ws t) else Skip x :: scan_all (ws_re ws) t.
Proof.
  destruct (ws x) eqn:E.
  - apply scan_hit; [|cbn [length]; pose proof (drop_while_len t); lia]. rewrite ws_match, E. reflexivity.
  - apply scan_skip. rewrite ws_match, E. reflexivity.
Qed.

Definition kept (l : list str) := filter (fun x => negb (Nat.eqb (length x) 0)) l.

Lemma kept_cons x l : kept (x :: l) = match x with [] => kept l | _ => x :: kept l end.
Proof. destruct x; reflexivity. Qed.

Lemma reads_drop t W : reads t W -> reads (drop_while ws t) W.
Proof.
  intros H. induction H as [|x t W Hx H IH|w t W Hw Fw Ht H IH]; cbn [drop_while].
  - constructor.
  - now rewrite Hx.
  - destruct w as [|y w]; [congruence|]. inversion Fw; subst. cbn [app drop_while]. rewrite H2.
    change (y :: w ++ t) with ((y :: w) ++ t). apply reads_word; auto.
Qed.

Lemma split_word w : forall t cur, Forall (fun x => ws x = false) w ->
  split_pieces (scan_all (ws_re ws) (w ++ t)) cur = split_pieces (scan_all (ws_re ws) t) (rev w ++ cur).
Proof.
  induction w as [|x w IH]; intros t cur H; auto. inversion H; subst.
  cbn [app]. rewrite scan_ws, H2. cbn [split_pieces]. rewrite IH by auto.
  cbn [rev]. now rewrite <- app_assoc.
Qed.

Lemma split_reads n : forall t W, length t <= n -> reads t W -> kept (re_split (ws_re ws) t) = W.
Proof.
  unfold re_split. induction n as [|n IH]; intros t W Hn H.
  - destruct t; [|cbn [length] in Hn; lia]. inversion H; subst; [reflexivity|].
    destruct w; [congruence|discriminate].
  - inversion H as [|x u V Hx H1|w u V Hw Fw Hu H1]; subst; [reflexivity| |].
    + rewrite scan_ws, Hx. cbn [split_pieces]. rewrite kept_cons. cbn [rev].
      apply IH; [cbn [length] in Hn; pose proof (drop_while_len u); lia|]. now apply reads_drop.
    + rewrite split_word by auto. rewrite app_nil_r. destruct u as [|x u].
      * inversion H1; subst; [|destruct w0; [congruence|discriminate]].
        change (scan_all (ws_re ws) []) with (@nil piece). cbn [split_pieces]. rewrite rev_involutive, kept_cons. destruct w; [congruence|reflexivity].
      * rewrite scan_ws, (Hu x u eq_refl). cbn [split_pieces]. rewrite rev_involutive, kept_cons.
        assert (L : length (drop_while ws u) <= n).
        { rewrite app_length in Hn. cbn [length] in Hn. destruct w; [congruence|]. cbn [length] in Hn.
          pose proof (drop_while_len u). lia. }
        assert (R : reads (drop_while ws u) V).
        { apply reads_drop in H1. cbn [drop_while] in H1. now rewrite (Hu x u eq_refl) in H1. }
        rewrite (IH _ _ L R). destruct w; [congruence|reflexivity].
Qed.

Lemma reads_total t : exists W, reads t W.
Proof.
  assert (G : forall n t, length t <= n -> exists W, reads t W).
  { induction n as [|n IH]; intros u Hu.
    - destruct u; [exists []; constructor|cbn [length] in Hu; lia].
    - destruct u as [|x u]; [exists []; constructor|]. cbn [length] in Hu.
      destruct (ws x) eqn:E.
      + destruct (IH u ltac:(lia)) as [W HW]. exists W. now constructor.
      + assert (S : exists w v, u = w ++ v /\ Forall (fun x => ws x = false) w /\ forall y z, v = y :: z -> ws y = true).
        { clear. induction u as [|y u IHu]; [exists [], []; repeat split; auto; discriminate|].
          destruct IHu as (w&v&->&Fw&Hv).
          destruct (ws y) eqn:Ey.
          - exists [], (y :: w ++ v). repeat split; auto. intros a b Hab. now inversion Hab; subst.
          - exists (y :: w), v. repeat split; auto. }
        destruct S as (w&v&->&Fw&Hv). rewrite app_length in Hu.
        destruct (IH v ltac:(lia)) as [W HW]. exists ((x :: w) :: W).
        change (x :: w ++ v) with ((x :: w) ++ v). apply reads_word; auto; discriminate. }
  eapply G; eauto.
Qed.

Lemma reads_words t W : reads t W -> Forall (fun w => w <> [] /\ Forall (fun x => ws x = false) w) W.
Proof. induction 1; auto. Qed.

Lemma reads_join W : Forall (fun w => w <> [] /\ Forall (fun x => ws x = false) w) W -> reads (str_join [32%N] W) W.
Proof.
  induction W as [|w W IH]; intros H; [constructor|]. inversion H as [|? ? [Hw Fw] H2]; subst.
  destruct W as [|v W].
  - cbn [str_join]. rewrite <- (app_nil_r w) at 1. apply reads_word; auto; try discriminate; constructor.
  - cbn [str_join app]. apply reads_word; auto.
    + intros x u E. inversion E; subst. auto.
    + constructor; auto.
Qed.

Lemma middle_cases {X} (w : list X) z J a x b : w ++ z :: J = a ++ x :: b ->
  (exists c, w = a ++ x :: c /\ b = c ++ z :: J) \/ (w = a /\ z = x /\ J = b) \/
  exists a', a = w ++ z :: a' /\ J = a' ++ x :: b.
Proof.
  revert a. induction w as [|y w IHw]; intros a H.
  - destruct a as [|z' a]; cbn [app] in H; inversion H; subst; auto.
    right. right. exists a. auto.
  - destruct a as [|z' a]; cbn [app] in H; inversion H; subst.
    + left. exists w. auto.
    + destruct (IHw a H2) as [(c&->&->)|[(->&->&->)|(a'&->&->)]].
      * left. exists c. auto.
      * right. left. auto.
      * right. right. exists a'. auto.
Qed.

(** ** C26 *)

(** Every text has exactly one sequence of words ... *)
Theorem C26_words_unique : forall t, exists! W, reads t W.
Proof.
  intros t. destruct (reads_total t) as [W HW]. exists W. split; auto. intros V HV.
  rewrite <- (split_reads (length t) t W), <- (split_reads (length t) t V); auto.
Qed.

(** ... and is normalised to these words with single blanks between them. *)
Theorem C26_normal_form : forall t W, reads t W -> nw t = str_join [32%N] W.
Proof. intros t W H. unfold normalize_whitespace. fold (kept (re_split (ws_re ws) t)). erewrite split_reads; eauto. Qed.

Theorem C26_normalised_reads_same : forall t W, reads t W -> reads (nw t) W.
Proof. intros t W H. rewrite (C26_normal_form t W H). apply reads_join. eapply reads_words; eauto. Qed.

(** Two texts are alike iff they have the same words. *)
Theorem C26_alike_iff_same_words : forall t u, nw t = nw u <-> exists W, reads t W /\ reads u W.
Proof.
  intros t u. split.
  - intros H. destruct (reads_total t) as [W HW], (reads_total u) as [V HV]. exists W. split; auto.
    pose proof (C26_normalised_reads_same t W HW) as A. pose proof (C26_normalised_reads_same u V HV) as B.
    rewrite H in A. destruct (C26_words_unique (nw u)) as [X [_ UX]].
    rewrite <- (UX W A), (UX V B). auto.
  - intros (W&A&B). now rewrite (C26_normal_form t W A), (C26_normal_form u W B).
Qed.

Theorem C26_idempotent : forall t, nw (nw t) = nw t.
Proof.
  intros t. destruct (reads_total t) as [W HW]. apply C26_alike_iff_same_words. exists W. split; auto.
  now apply C26_normalised_reads_same.
Qed.

(** No blank at the beginning, at the end, or next to another one; the only blank is the
    space. *)
Theorem C26_no_stray_blanks : forall t a x b, nw t = a ++ x :: b -> ws x = true ->
  x = 32%N /\ (exists y c, a = c ++ [y] /\ ws y = false) /\ (exists y c, b = y :: c /\ ws y = false).
Proof.
  intros t a x b H Hx. destruct (reads_total t) as [W HW]. rewrite (C26_normal_form t W HW) in H.
  apply reads_words in HW. clear t. revert a H. induction HW as [|w W [Hw Fw] FW IH]; intros a H.
  - destruct a; discriminate.
  - assert (Out : forall c d, w = c ++ x :: d -> False).
    { intros c d ->. apply Forall_app in Fw as [_ Fw]. inversion Fw; subst. congruence. }
    destruct W as [|v W].
    + cbn [str_join] in H. exfalso. eauto.
    + change (w ++ 32%N :: str_join [32%N] (v :: W) = a ++ x :: b) in H.
      apply middle_cases in H as [(c&->&_)|[(<-&<-&<-)|(a'&->&E)]].
      * exfalso. eapply Out; eauto.
      * split; auto. split.
        -- destruct (exists_last Hw) as (c&y&->). exists y, c. split; auto.
           apply Forall_app in Fw as [_ Fw]. now inversion Fw.
        -- inversion FW as [|? ? [Hv Fv] _]; subst. destruct v as [|y v]; [congruence|]. inversion Fv; subst.
           exists y. destruct W; cbn [str_join app]; eauto.
      * destruct (IH a' E) as (->&(y&c&->&Hy)&B). split; auto. split; auto.
        exists y, (w ++ 32%N :: c). split; auto. now rewrite <- app_assoc.
Qed.

(** *** Case ignored as well *)

(** [str.upper] works character by character, leaves blanks alone and makes of any other
    character one or more that are not blank. *)
Definition upper_ok : Prop :=
  (forall t, upper t = flat_map (fun x => upper [x]) t) /\
  (forall x, ws x = true -> upper [x] = [x]) /\
  (forall x, ws x = false -> upper [x] <> [] /\ Forall (fun y => ws y = false) (upper [x])).

Lemma upper_word w : upper_ok -> w <> [] -> Forall (fun x => ws x = false) w ->
  upper w <> [] /\ Forall (fun x => ws x = false) (upper w).
Proof.
  intros (U1&U2&U3) Hw Fw. rewrite U1. destruct w as [|x w]; [congruence|]. cbn [flat_map].
  inversion Fw; subst. destruct (U3 x H1) as [A B]. split.
  - destruct (upper [x]); [congruence|discriminate].
  - apply Forall_app. split; auto. clear - H2 U3. induction H2; cbn [flat_map]; auto.
    apply Forall_app. split; auto. now apply U3.
Qed.

Lemma upper_join W : upper_ok -> upper (str_join [32%N] W) = str_join [32%N] (map upper W).
Proof.
  intros (U1&U2&U3). induction W as [|w W IH]; [now rewrite U1|].
  destruct W as [|v W]; [reflexivity|]. 
  change (upper (w ++ 32%N :: str_join [32%N] (v :: W)) = upper w ++ 32%N :: str_join [32%N] (map upper (v :: W))).
  rewrite <- IH, U1, flat_map_app, <- U1. cbn [flat_map]. rewrite <- U1, (U2 32%N) by auto. reflexivity.
Qed.

Definition opts b c := {| ignore_ws := true; ignore_case := b; unicode_normal := c |}.

Theorem C26_case_ignored : forall t u W V, upper_ok -> reads t W -> reads u V ->
  (normalize_text ws upper nfc (opts true false) t = normalize_text ws upper nfc (opts true false) u <->
   map upper W = map upper V).
Proof.
  intros t u W V U A B. unfold normalize_text, opts. cbn [ignore_ws ignore_case unicode_normal].
  rewrite (C26_normal_form t W A), (C26_normal_form u V B), !upper_join by auto. split.
  - intros H.
    assert (G : forall t W, reads t W -> reads (str_join [32%N] (map upper W)) (map upper W)).
    { intros s X HX. apply reads_join. apply reads_words in HX. clear - HX U.
      induction HX as [|w X [Hw Fw] HX IH]; cbn [map]; constructor; auto. now apply upper_word. }
    pose proof (G _ _ A) as A'. pose proof (G _ _ B) as B'. rewrite H in A'.
    destruct (C26_words_unique (str_join [32%N] (map upper V))) as [X [_ UX]].
    now rewrite <- (UX _ A'), <- (UX _ B').
  - now intros ->.
Qed.

(** Case is kept when it is not to be ignored, and blanks when they are not to be ignored. *)
Theorem C26_case_kept : forall t u W V, reads t W -> reads u V ->
  (normalize_text ws upper nfc (opts false false) t = normalize_text ws upper nfc (opts false false) u <->
   W = V).
Proof.
  intros t u W V A B. unfold normalize_text, opts. cbn [ignore_ws ignore_case unicode_normal].
  rewrite C26_alike_iff_same_words. split.
  - intros (X&C&D). destruct (C26_words_unique t) as [Y [_ UY]], (C26_words_unique u) as [Z [_ UZ]].
    now rewrite <- (UY _ A), <- (UZ _ B), (UY _ C), (UZ _ D).
  - intros ->. eauto.
Qed.

Theorem C26_nothing_ignored : forall t,
  normalize_text ws upper nfc {| ignore_ws := false; ignore_case := false; unicode_normal := false |} t = t.
Proof. reflexivity. Qed.

(** Whatever the options: the same words, the same result. *)
Theorem C26_same_words_alike : forall o t u W, ignore_ws o = true -> reads t W -> reads u W ->
  normalize_text ws upper nfc o t = normalize_text ws upper nfc o u.
Proof.
  intros o t u W E A B. unfold normalize_text. rewrite E.
  now rewrite (C26_normal_form t W A), (C26_normal_form u W B).
Qed.

End Proofs.

Section Cases.
Notation t := s2l.
Definition e_ws (x : char) : bool := N.eqb x 32 || N.eqb x 10 || N.eqb x 9.
Definition e_up (s : str) : str :=
  flat_map (fun x => if (97 <=? x)%N && (x <=? 122)%N then [(x - 32)%N]
                     else if N.eqb x 223 then [83%N; 83%N] else [x]) s.

Example C26_case : reads e_ws (t "  a  big
dog ") [t "a"; t "big"; t "dog"] /\ e_ws 32 = true /\
  normalize_whitespace e_ws (t "  a  big
dog ") = t "a big dog" /\
  normalize_whitespace e_ws (t "ab c") <> normalize_whitespace e_ws (t "a bc").
Proof.
  split; [|split; [reflexivity|split; [reflexivity|discriminate]]].
  do 2 (apply reads_blank; [reflexivity|]).
  apply (reads_word e_ws (t "a")); [discriminate|repeat constructor| |].
  { intros x u E. inversion E. reflexivity. }
  do 2 (apply reads_blank; [reflexivity|]).
  apply (reads_word e_ws (t "big")); [discriminate|repeat constructor| |].
  { intros x u E. inversion E. reflexivity. }
  apply reads_blank; [reflexivity|].
  apply (reads_word e_ws (t "dog")); [discriminate|repeat constructor| |].
  { intros x u E. inversion E. reflexivity. }
  apply reads_blank; [reflexivity|]. constructor.
Qed.

Example C26_upper_case : upper_ok e_ws e_up /\
  normalize_text e_ws e_up (fun x => x) (opts true false) (t " Dog" ++ [223%N]) = t "DOGSS".
Proof.
  split; [|reflexivity]. split; [|split].
  - intros s. unfold e_up. induction s as [|x s IH]; auto. cbn [flat_map]. rewrite app_nil_r. f_equal. exact IH.
  - intros x H. unfold e_up. cbn [flat_map]. rewrite app_nil_r. unfold e_ws in H.
    apply orb_true_iff in H as [H|H]; [apply orb_true_iff in H as [H|H]|]; apply N.eqb_eq in H; subst; reflexivity.
  - intros x H. unfold e_up. cbn [flat_map]. rewrite app_nil_r.
    destruct ((97 <=? x)%N && (x <=? 122)%N) eqn:E1; [|destruct (N.eqb x 223) eqn:E2].
    + split; [discriminate|]. constructor; auto. apply andb_true_iff in E1 as [A B].
      apply N.leb_le in A, B. unfold e_ws. rewrite !orb_false_iff, !N.eqb_neq. lia.
    + split; [discriminate|]. repeat constructor.
    + split; [discriminate|]. repeat constructor; auto.
Qed.
Example C26_case_kept_case :
  normalize_text e_ws e_up (fun x => x) (opts false false) (t " Big  dog") = t "Big dog" /\
  normalize_text e_ws e_up (fun x => x) (opts false false) (t "big dog") = t "big dog".
Proof. split; reflexivity. Qed.
End Cases.

Print Assumptions C26_words_unique.
Print Assumptions C26_normal_form.
Print Assumptions C26_normalised_reads_same.
Print Assumptions C26_alike_iff_same_words.
Print Assumptions C26_idempotent.
Print Assumptions C26_no_stray_blanks.
Print Assumptions C26_case_ignored.
Print Assumptions C26_case_kept.
Print Assumptions C26_nothing_ignored.
Print Assumptions C26_same_words_alike.
