From Coq Require Import List Arith NArith ZArith Bool Lia.
From Verif Require Import Prelude Regex SelPathModel.
Import ListNotations.
Local Open Scope N_scope.

(** * The key pattern behaves as a deterministic scanner *)

(** Does the text start with ['']]? *)
Definition closes (s : str) : bool :=
  match s with
  | x :: y :: _ => (x =? 39) && (y =? 93)
  | _ => false
  end.

(** Where the quoted key ends: at the first quote which is followed by a bracket, provided
    that all quotes before it are preceded by a backslash. *)
Fixpoint key_end (prevbs : bool) (s : str) : option str :=
  match s with
  | [] => None
  | x :: t =>
      if x =? 39 then
        if closes s then Some s
        else if prevbs then key_end false t else None
      else key_end (x =? 92) t
  end.

Definition first_close (l : list str) : option str :=
  firstm (fun s => if closes s then Some s else None) l.

Definition body_re : re := RAlt (plus (RSet notq)) (RSeq (lit 92) (lit 39)).

Definition body_rests (s : str) : list str :=
  spans1 notq s ++
  match s with
  | x :: y :: t => if (92 =? x) && (39 =? y) then [t] else []
  | _ => []
  end.

Lemma run_body c s : run body_re c s = map (pair c) (body_rests s).
Proof.
  unfold body_re. cbn [run]. fold (run (plus (RSet notq)) c s).
  change (run (RSet notq)) with (run (RSet notq)).
  assert (H : flat_map (fun x => star (run (RSet notq)) (length (snd x)) (fst x) (snd x))
     match s with [] => [] | x :: t => if notq x then [(c, t)] else [] end
     = map (pair c) (spans1 notq s)).
  { rewrite <- run_plus_set. reflexivity. }
  etransitivity; [ | symmetry; unfold body_rests; apply map_app].
  f_equal.
  - exact H.
  - unfold lit. cbn [run]. destruct s as [|x t]; [reflexivity|].
    destruct (92 =? x) eqn:E; cbn [flat_map app fst snd].
    + destruct t as [|y t]; [reflexivity|].
      rewrite andb_true_l. destruct (39 =? y); reflexivity.
    + destruct t; reflexivity.
Qed.

(** The suffixes reachable by the starred key body, in order. *)
Fixpoint key_rests (fuel : nat) (s : str) : list str :=
  match fuel with
  | O => [s]
  | S n => flat_map (fun s' => if Nat.ltb (length s') (length s) then key_rests n s' else [])
             (body_rests s) ++ [s]
  end.

Lemma flat_map_map {A B C} (f : B -> list C) (g : A -> B) l :
  flat_map f (map g l) = flat_map (fun x => f (g x)) l.
Proof. induction l; simpl; congruence. Qed.

Lemma map_flat_map {A B C} (f : B -> C) (g : A -> list B) l :
  map f (flat_map g l) = flat_map (fun x => map f (g x)) l.
Proof. induction l; simpl; auto. rewrite map_app. congruence. Qed.

Lemma flat_map_ext' {A B} (f g : A -> list B) l :
  (forall x, f x = g x) -> flat_map f l = flat_map g l.
Proof. intros H. induction l; simpl; auto. rewrite H. congruence. Qed.

Lemma star_body : forall n c s,
  star (run body_re) n c s = map (pair c) (key_rests n s).
Proof.
  induction n as [|n IH]; intros c s; [reflexivity|].
  cbn [star key_rests]. rewrite run_body, flat_map_map, map_app, map_flat_map.
  f_equal. apply flat_map_ext'. intros s'. cbn [fst snd].
  destruct (Nat.ltb (length s') (length s)); auto.
Qed.

Lemma run_key c s : run key_re c s = map (pair c) (key_rests (length s) s).
Proof. unfold key_re. cbn [run]. apply star_body. Qed.

Lemma key_end_prev x t b : (x =? 39) = false -> key_end b (x :: t) = key_end false (x :: t).
Proof. intros H. cbn [key_end]. rewrite H. reflexivity. Qed.

Lemma spans_suffix p s : forall w, In w (spans p s) -> exists u, s = u ++ w /\ forallb p u = true.
Proof.
  induction s as [|x t IH]; simpl; intros w Hw.
  - destruct Hw as [<-|[]]. exists []; auto.
  - destruct (p x) eqn:Hp.
    + apply in_app_or in Hw. destruct Hw as [Hw|[<-|[]]].
      * destruct (IH _ Hw) as [u [-> Hu]]. exists (x :: u). simpl. rewrite Hp. auto.
      * exists []; auto.
    + destruct Hw as [<-|[]]. exists []; auto.
Qed.

Lemma key_end_q v : closes (39 :: v) = false -> key_end false (39 :: v) = None.
Proof. intros H. cbn [key_end]. cbn [N.eqb Pos.eqb]. rewrite H. reflexivity. Qed.

Lemma key_end_q' v : closes (39 :: v) = false -> key_end true (39 :: v) = key_end false v.
Proof. intros H. cbn [key_end]. cbn [N.eqb Pos.eqb]. rewrite H. reflexivity. Qed.

Lemma key_end_nq x t b : (x =? 39) = false -> key_end b (x :: t) = key_end (x =? 92) t.
Proof. intros H. cbn [key_end]. rewrite H. reflexivity. Qed.

Lemma spans_q v : spans notq (39 :: v) = [39 :: v].
Proof. reflexivity. Qed.

(** Key lemma: the greedy, backtracking search finds exactly [key_end]. *)
Lemma first_close_key_rests : forall n s, (length s <= n)%nat ->
  first_close (key_rests n s) = key_end false s.
Proof.
  induction n as [|n IH]; intros s Hl.
  - destruct s; simpl in *; [reflexivity|lia].
  - cbn [key_rests]. unfold first_close. rewrite firstm_app.
    set (F := fun s0 : str => if closes s0 then Some s0 else None).
    assert (Hfm : forall l, (forall w, In w l -> (length w < length s)%nat) ->
      firstm F (flat_map (fun s' => if Nat.ltb (length s') (length s) then key_rests n s' else []) l)
      = firstm (key_end false) l).
    { induction l as [|w l IHl]; intros Hw; [reflexivity|].
      cbn [flat_map firstm]. rewrite firstm_app.
      rewrite IHl by (intros; apply Hw; simpl; auto).
      assert (Hlt : (length w < length s)%nat) by (apply Hw; simpl; auto).
      replace (Nat.ltb (length w) (length s)) with true by (symmetry; apply Nat.ltb_lt; auto).
      change (firstm F (key_rests n w)) with (first_close (key_rests n w)).
      rewrite IH by lia. reflexivity. }
    destruct s as [|x t].
    + reflexivity.
    + rewrite Hfm.
      2:{ intros w Hw. unfold body_rests in Hw. apply in_app_or in Hw.
          destruct Hw as [Hw|Hw].
          - cbn [spans1] in Hw. destruct (notq x); [|destruct Hw].
            apply spans_suffix in Hw. destruct Hw as [u [-> _]].
            cbn [length]. rewrite app_length. lia.
          - destruct t as [|y t]; [destruct Hw|].
            destruct ((92 =? x) && (39 =? y)); [|destruct Hw].
            destruct Hw as [<-|[]]. simpl. lia. }
      unfold body_rests. rewrite firstm_app.
      destruct (x =? 39) eqn:Hx.
      * (* a quote: the body cannot match *)
        cbn [spans1]. unfold notq at 1. rewrite Hx. cbn [negb firstm].
        apply N.eqb_eq in Hx. subst x.
        replace (firstm (key_end false) match t with [] => [] | y :: t0 =>
                 if (92 =? 39) && (39 =? y) then [t0] else [] end) with (@None str)
          by (destruct t; reflexivity).
        cbn [firstm]. unfold F. cbn [key_end]. rewrite N.eqb_refl.
        destruct (closes (39 :: t)); reflexivity.
      * cbn [spans1]. unfold notq at 1. rewrite Hx. cbn [negb].
        (* all longer suffixes inside the run agree with key_end of the whole *)
        assert (Hrun : forall b u, (* u nonempty run then t *)
          firstm (key_end false) (spans notq u) =
          match key_end b u with
          | Some r => Some r
          | None => None
          end \/
          (exists v, u = 39 :: v /\ closes u = false)).
        { intros b u. revert b. induction u as [|y u IHu]; intros b; [left; reflexivity|].
          destruct (y =? 39) eqn:Hy.
          - pose proof (proj1 (N.eqb_eq _ _) Hy); subst y.
            destruct (closes (39 :: u)) eqn:Hc.
            + left. cbn [spans]. unfold notq. cbn [N.eqb Pos.eqb negb firstm].
              cbn [key_end]. cbn [N.eqb Pos.eqb]. rewrite Hc. reflexivity.
            + right. exists u. auto.
          - left. rewrite firstm_spans_cons by (unfold notq; now rewrite Hy).
            rewrite (key_end_prev y u b Hy).
            destruct (IHu (y =? 92)) as [IH'|[v [-> Hc]]].
            + rewrite IH'. cbn [key_end]. rewrite Hy.
              destruct (key_end (y =? 92) u); reflexivity.
            + rewrite spans_q. cbn [firstm]. rewrite (key_end_q v Hc).
              destruct (key_end false (y :: 39 :: v)); reflexivity. }
        assert (HFx : F (x :: t) = None).
        { unfold F, closes. destruct t; [reflexivity|]. rewrite Hx. reflexivity. }
        cbn [firstm]. rewrite HFx.
        destruct (Hrun (x =? 92) t) as [H1|[v [-> Hc]]].
        -- rewrite H1. cbn [key_end]. rewrite Hx.
           destruct (key_end (x =? 92) t) eqn:Hk; [reflexivity|].
           destruct t as [|y t]; [reflexivity|].
           destruct ((92 =? x) && (39 =? y)) eqn:Hb; [|reflexivity].
           apply andb_true_iff in Hb as [Hb1 Hb2].
           apply N.eqb_eq in Hb1, Hb2. subst x y.
           cbn [key_end] in Hk. cbn [N.eqb Pos.eqb] in Hk.
           destruct (closes (39 :: t)); [discriminate|].
           cbn [firstm]. rewrite Hk. reflexivity.
        -- rewrite spans_q. cbn [firstm]. rewrite (key_end_q v Hc).
           rewrite (key_end_nq x _ _ Hx).
           destruct (x =? 92) eqn:Hb.
           ++ apply N.eqb_eq in Hb. subst x. rewrite (key_end_q' v Hc).
              cbn [N.eqb Pos.eqb andb firstm].
              destruct (key_end false v); reflexivity.
           ++ rewrite (key_end_q v Hc). replace (92 =? x) with false by (rewrite N.eqb_sym; auto). reflexivity.
Qed.

(** * One token *)

Lemma firstm_hd {A B} (f : A -> option B) l x y :
  hd_error l = Some x -> f x = Some y -> firstm f l = Some y.
Proof. destruct l; simpl; intros H H'; inversion H; subst. now rewrite H'. Qed.

Lemma firstn_prefix {A} (u v : list A) :
  firstn (length (u ++ v) - length v) (u ++ v) = u.
Proof.
  rewrite app_length. replace (length u + length v - length v)%nat with (length u) by lia.
  rewrite firstn_app, Nat.sub_diag, firstn_all. cbn. apply app_nil_r.
Qed.

Definition starts_ok (p : char -> bool) (v : str) : Prop :=
  match v with [] => True | x :: _ => p x = false end.

Lemma hd_spans1 p u v :
  u <> [] -> forallb p u = true -> starts_ok p v -> hd_error (spans1 p (u ++ v)) = Some v.
Proof.
  intros Hne Hu Hv. destruct u as [|x t]; [congruence|].
  simpl in Hu. apply andb_true_iff in Hu as [Hx Ht].
  simpl. rewrite Hx, hd_spans. f_equal.
  rewrite drop_while_app by auto. now apply drop_while_stop.
Qed.

Lemma hd_run_grp g r c s c' s' :
  hd_error (run r c s) = Some (c', s') ->
  hd_error (run (RGrp g r) c s) = Some ((g, firstn (length s - length s') s) :: c', s').
Proof.
  intros H. cbn [run]. destruct (run r c s) as [|y l]; inversion H; subst. reflexivity.
Qed.

Lemma hd_run_plus p c u v :
  u <> [] -> forallb p u = true -> starts_ok p v ->
  hd_error (run (plus (RSet p)) c (u ++ v)) = Some (c, v).
Proof.
  intros. rewrite run_plus_set, hd_error_map, (hd_spans1 p u v) by auto. reflexivity.
Qed.

Lemma hd_run_grp_plus g p c u v :
  u <> [] -> forallb p u = true -> starts_ok p v ->
  hd_error (run (RGrp g (plus (RSet p))) c (u ++ v)) = Some ((g, u) :: c, v).
Proof.
  intros. rewrite (hd_run_grp g _ c (u ++ v) c v) by (now apply hd_run_plus).
  now rewrite firstn_prefix.
Qed.

Lemma run_lit_seq x r c t : run (RSeq (lit x) r) c (x :: t) = run r c t.
Proof. unfold lit. cbn [run]. rewrite N.eqb_refl. cbn. apply app_nil_r. Qed.

Lemma run_lit_seq_no x y r c t : x <> y -> run (RSeq (lit x) r) c (y :: t) = [].
Proof.
  intros H. unfold lit. cbn [run]. replace (x =? y) with false; [reflexivity|].
  symmetry. now apply N.eqb_neq.
Qed.

Section Unicode.
  Variable uword : char -> bool.
  Variable udigit : char -> option N.
  Notation is_word := (is_word uword).
  Notation is_digit := (is_digit udigit).
  Notation attr_re := (attr_re uword).
  Notation bracket_re := (bracket_re udigit).
  Notation path_tok := (path_tok uword udigit).

  Lemma run_attr u v :
    u <> [] -> forallb is_word u = true -> starts_ok is_word v ->
    hd_error (run attr_re [] (46 :: u ++ v)) = Some ([(g_attr, u)], v).
  Proof.
    intros. unfold SelPathModel.attr_re. rewrite run_lit_seq.
    now apply hd_run_grp_plus.
  Qed.

  Lemma run_attr_no y t : y <> 46 -> run attr_re [] (y :: t) = [].
  Proof. intros. unfold SelPathModel.attr_re. apply run_lit_seq_no. congruence. Qed.

  Lemma seq_lit_hd r x c s c' t :
    hd_error (run r c s) = Some (c', x :: t) ->
    hd_error (run (RSeq r (lit x)) c s) = Some (c', t).
  Proof.
    intros H. cbn [run]. rewrite hd_error_flat_map.
    apply (firstm_hd _ _ (c', x :: t)); auto. cbn. now rewrite N.eqb_refl.
  Qed.

  Lemma run_alt_l a b c s y :
    hd_error (run a c s) = Some y -> hd_error (run (RAlt a b) c s) = Some y.
  Proof. intros H. cbn [run]. rewrite hd_error_app, H. reflexivity. Qed.

  Lemma run_alt_r a b c s : run a c s = [] -> run (RAlt a b) c s = run b c s.
  Proof. intros H. cbn [run]. rewrite H. reflexivity. Qed.

  Lemma run_idx ds v :
    ds <> [] -> forallb is_digit ds = true ->
    hd_error (run bracket_re [] (91 :: ds ++ 93 :: v)) = Some ([(g_idx, ds)], v).
  Proof.
    intros Hne Hd. unfold SelPathModel.bracket_re. rewrite run_lit_seq.
    apply seq_lit_hd. apply run_alt_l. apply hd_run_grp_plus; auto.
    reflexivity.
  Qed.

  Lemma run_grp_nil g r c s : run r c s = [] -> run (RGrp g r) c s = [].
  Proof. intros H. cbn [run]. rewrite H. reflexivity. Qed.

  Lemma run_plus_nil p c x t : p x = false -> run (plus (RSet p)) c (x :: t) = [].
  Proof. intros H. rewrite run_plus_set. cbn [spans1]. rewrite H. reflexivity. Qed.

  Lemma run_wild v :
    hd_error (run bracket_re [] (91 :: 42 :: 93 :: v)) = Some ([(g_wild, [42])], v).
  Proof.
    unfold SelPathModel.bracket_re. rewrite run_lit_seq.
    apply seq_lit_hd. rewrite run_alt_r.
    2:{ apply run_grp_nil, run_plus_nil. reflexivity. }
    apply run_alt_l. cbn [run lit map hd_error]. cbn [N.eqb Pos.eqb map hd_error fst snd].
    f_equal. f_equal. cbn [length]. 
    replace (S (S (length v)) - S (length v))%nat with 1%nat by lia. reflexivity.
  Qed.

  Lemma flat_map_ext_in' {A B} (f g : A -> list B) l :
    (forall x, In x l -> f x = g x) -> flat_map f l = flat_map g l.
  Proof.
    induction l; simpl; intros H; auto. rewrite H by auto. rewrite IHl; auto.
  Qed.

  (** What the bracket pattern does on a quoted key, in general. *)
  Lemma run_key_bracket s :
    hd_error (run bracket_re [] (91 :: 39 :: s)) =
    match key_end false s with
    | Some r => Some ([(g_key, firstn (length s - length r) s)], skipn 2 r)
    | None => None
    end.
  Proof.
    unfold SelPathModel.bracket_re. rewrite run_lit_seq.
    change (run (RSeq ?a (lit 93)) [] ?s) with
      (flat_map (fun x => run (lit 93) (fst x) (snd x)) (run a [] s)).
    rewrite run_alt_r.
    2:{ apply run_grp_nil, run_plus_nil. reflexivity. }
    rewrite run_alt_r by reflexivity.
    rewrite run_lit_seq.
    change (run (RSeq ?a (lit 39)) [] ?s) with
      (flat_map (fun x => run (lit 39) (fst x) (snd x)) (run a [] s)).
    change (run (RGrp g_key key_re) [] s) with
      (map (fun x : caps * str => ((g_key, firstn (length s - length (snd x)) s) :: fst x, snd x))
           (run key_re [] s)).
    rewrite run_key, map_map. cbn [fst snd].
    rewrite flat_map_map.
    rewrite <- (first_close_key_rests (length s) s) by lia.
    unfold first_close. generalize (key_rests (length s) s). intros l.
    induction l as [|w l IHl]; [reflexivity|].
    cbn [flat_map firstm]. rewrite flat_map_app, hd_error_app, IHl.
    cbn [fst snd]. unfold lit. cbn [run].
    destruct w as [|x w]; [reflexivity|].
    destruct (39 =? x) eqn:Hx.
    - cbn [flat_map app fst snd]. apply N.eqb_eq in Hx. subst x.
      destruct w as [|y w]; [reflexivity|].
      unfold closes. change (39 =? 39) with true. cbn [andb run flat_map app fst snd].
      rewrite (N.eqb_sym y 93). destruct (93 =? y) eqn:Hy; reflexivity.
    - cbn [flat_map hd_error]. unfold closes.
      rewrite (N.eqb_sym x 39), Hx. destruct w; reflexivity.
  Qed.

  Lemma fuel_scan r : forall n m s, (length s < n)%nat -> (length s < m)%nat ->
    scan n r s = scan m r s.
  Proof.
    induction n as [|n IH]; intros m s Hn Hm; [lia|].
    destruct m as [|m]; [lia|]. cbn [scan].
    destruct s as [|x t]; [reflexivity|]. cbn [length] in *.
    destruct (re_match r (x :: t)) as [[c s']|].
    - destruct (Nat.ltb (length s') (S (length t))) eqn:E; f_equal.
      + apply Nat.ltb_lt in E. apply IH; lia.
      + apply IH; lia.
    - f_equal. apply IH; lia.
  Qed.

  Lemma scan_hit r s c s' :
    re_match r s = Some (c, s') -> (length s' < length s)%nat ->
    scan_all r s = Hit c :: scan_all r s'.
  Proof.
    intros H Hl. unfold scan_all. cbn [scan]. destruct s as [|x t]; [simpl in Hl; lia|].
    rewrite H. replace (Nat.ltb (length s') (length (x :: t))) with true
      by (symmetry; now apply Nat.ltb_lt).
    f_equal. change (scan (length (x :: t)) r s' = scan (S (length s')) r s').
    apply fuel_scan; lia.
  Qed.

  Lemma scan_skip r x t : re_match r (x :: t) = None -> scan_all r (x :: t) = Skip x :: scan_all r t.
  Proof.
    intros H. unfold scan_all. cbn [length]. cbn [scan]. rewrite H. reflexivity.
  Qed.

  Lemma finditer_hit r s c s' :
    re_match r s = Some (c, s') -> (length s' < length s)%nat ->
    finditer r s = c :: finditer r s'.
  Proof. intros H Hl. unfold finditer. rewrite (scan_hit r s c s') by auto. reflexivity. Qed.

  (** * Escaping and unescaping *)

  Lemma esc_cons x s :
    esc (x :: s) = (if x =? 39 then [92; 39] else if x =? 92 then [92; 92] else [x]) ++ esc s.
  Proof.
    unfold esc, replace1. cbn [flat_map]. rewrite flat_map_app. f_equal.
    destruct (x =? 92) eqn:E.
    - apply N.eqb_eq in E. subst x. reflexivity.
    - cbn [flat_map]. rewrite app_nil_r. reflexivity.
  Qed.

  Fixpoint no_closeb (s : str) : bool :=
    match s with
    | [] => true
    | x :: t => negb (closes s) && no_closeb t
    end.

  Lemma key_end_esc : forall s v b, no_closeb s = true ->
    key_end b (esc s ++ 39 :: 93 :: v) = Some (39 :: 93 :: v).
  Proof.
    induction s as [|x s IH]; intros v b H.
    - reflexivity.
    - cbn [no_closeb] in H. apply andb_true_iff in H as [Hc Hs].
      rewrite esc_cons, <- app_assoc. destruct (x =? 39) eqn:Hq.
      + apply N.eqb_eq in Hq. subst x. cbn [app].
        rewrite key_end_nq by reflexivity. cbn [N.eqb Pos.eqb].
        rewrite key_end_q'; [now apply IH|].
        destruct s as [|y s]; [reflexivity|].
        rewrite esc_cons. unfold closes in *.
        cbn [N.eqb Pos.eqb andb] in *.
        destruct (y =? 39); [reflexivity|]. destruct (y =? 92); [reflexivity|].
        cbn [app]. now destruct (y =? 93).
      + destruct (x =? 92) eqn:Hb.
        * apply N.eqb_eq in Hb. subst x. cbn [app].
          do 2 rewrite key_end_nq by reflexivity. cbn [N.eqb Pos.eqb]. now apply IH.
        * cbn [app]. rewrite key_end_nq by auto. rewrite Hb. now apply IH.
  Qed.

  Lemma unesc_re_bs y t : (y =? 10) = false ->
    re_match unesc_re (92 :: y :: t) = Some ([(g_one, [y])], t).
  Proof.
    intros H. unfold re_match, unesc_re. rewrite run_lit_seq. cbn [run].
    rewrite H. cbn [negb map hd_error fst snd]. cbn [length].
    replace (S (length t) - length t)%nat with 1%nat by lia. reflexivity.
  Qed.

  Lemma unesc_re_no y t : (y =? 92) = false -> re_match unesc_re (y :: t) = None.
  Proof.
    intros H. unfold re_match, unesc_re. rewrite run_lit_seq_no; [reflexivity|].
    apply N.eqb_neq in H. congruence.
  Qed.

  Lemma unesc_esc s : unesc (esc s) = s.
  Proof.
    unfold unesc, re_sub. induction s as [|x s IH]; [reflexivity|].
    rewrite esc_cons. destruct (x =? 39) eqn:Hq; [|destruct (x =? 92) eqn:Hb].
    - apply N.eqb_eq in Hq. subst x. cbn [app].
      rewrite (scan_hit _ _ _ _ (unesc_re_bs 39 _ eq_refl)) by (cbn [length]; lia).
      cbn [flat_map group app]. cbn. f_equal. exact IH.
    - apply N.eqb_eq in Hb. subst x. cbn [app].
      rewrite (scan_hit _ _ _ _ (unesc_re_bs 92 _ eq_refl)) by (cbn [length]; lia).
      cbn [flat_map group app]. cbn. f_equal. exact IH.
    - cbn [app]. rewrite scan_skip by (now apply unesc_re_no).
      cbn [flat_map app]. f_equal. exact IH.
  Qed.

  (** * Numbers *)

  Lemma digits_ok : forall fuel n, n < 2 ^ N.of_nat fuel -> (0 < fuel)%nat ->
    forallb is_digit (digits fuel n) = true /\ digits fuel n <> [] /\
    forall acc, int_of udigit (digits fuel n) acc = acc * 10 ^ N.of_nat (length (digits fuel n)) + n.
  Proof.
    assert (Hdig : forall d, d < 10 -> digit_val udigit (48 + d) = Some d).
    { intros d Hd. unfold digit_val.
      replace (48 + d <? 128) with true by (symmetry; apply N.ltb_lt; lia).
      replace (48 <=? 48 + d) with true by (symmetry; apply N.leb_le; lia).
      replace (48 + d <=? 57) with true by (symmetry; apply N.leb_le; lia).
      cbn [andb]. f_equal. lia. }
    assert (Hsnoc : forall s c acc, int_of udigit (s ++ [c]) acc =
              10 * int_of udigit s acc + match digit_val udigit c with Some d => d | None => 0 end).
    { induction s as [|x s IHs]; intros c acc; cbn [app int_of]; auto. }
    induction fuel as [|k IH]; intros n Hn Hf; [lia|].
    cbn [digits]. destruct (n <? 10) eqn:E.
    - apply N.ltb_lt in E. cbn [forallb]. unfold SelPathModel.is_digit. rewrite (Hdig n E).
      repeat split; try discriminate. intros acc. cbn [int_of length].
      rewrite (Hdig n E). lia.
    - apply N.ltb_ge in E.
      assert (Hk : (0 < k)%nat).
      { destruct k; [|lia]. cbn in Hn. lia. }
      assert (Hdiv : n / 10 < 2 ^ N.of_nat k).
      { apply N.div_lt_upper_bound; [lia|].
        rewrite Nat2N.inj_succ, N.pow_succ_r' in Hn. nia. }
      destruct (IH _ Hdiv Hk) as [IH1 [IH2 IH3]].
      assert (Hm : n mod 10 < 10) by (apply N.mod_lt; lia).
      repeat split.
      + rewrite forallb_app, IH1. cbn [forallb]. unfold SelPathModel.is_digit.
        now rewrite (Hdig _ Hm).
      + destruct (digits k (n / 10)); discriminate.
      + intros acc. rewrite Hsnoc, IH3, (Hdig _ Hm), app_length. cbn [length].
        rewrite Nat2N.inj_add. cbn [N.of_nat Pos.of_succ_nat]. rewrite N.pow_add_r.
        change (10 ^ 1) with 10. pose proof (N.div_mod n 10). lia.
  Qed.

  Lemma size_nat_bound n : n < 2 ^ N.of_nat (S (N.size_nat n)).
  Proof.
    rewrite Nat2N.inj_succ, N.pow_succ_r'.
    assert (n < 2 ^ N.of_nat (N.size_nat n)) as H.
    { destruct n as [|p]; [reflexivity|]. cbn [N.size_nat].
      induction p as [p IHp|p IHp|]; cbn [Pos.size_nat];
        try rewrite Nat2N.inj_succ, N.pow_succ_r'; lia. }
    lia.
  Qed.

  Lemma fmt_N_ok n :
    forallb is_digit (fmt_N n) = true /\ fmt_N n <> [] /\ int_of udigit (fmt_N n) 0 = n.
  Proof.
    unfold fmt_N.
    destruct (digits_ok (S (N.size_nat n)) n (size_nat_bound n)) as [H1 [H2 H3]]; [lia|].
    repeat split; auto. rewrite H3. lia.
  Qed.

  (** * Plain identifiers *)

  Definition identb (s : str) : bool :=
    match s with x :: t => is_ident_start x && forallb is_word t | [] => false end.

  Lemma firstm_dollar_spans : forall t c,
    (forallb is_word t = true \/ exists i, t = i ++ [10] /\ forallb is_word i = true) <->
    firstm (fun s => hd_error (run RDollar c s)) (spans is_word t) <> None.
  Proof.
    induction t as [|x t IH]; intros c.
    - split; [intros _; discriminate | left; reflexivity].
    - cbn [spans forallb]. destruct (is_word x) eqn:Hx.
      + rewrite firstm_app. cbn [firstm].
        destruct (firstm (fun s => hd_error (run RDollar c s)) (spans is_word t)) eqn:E.
        * split; [discriminate|]. intros _.
          assert (H : firstm (fun s => hd_error (run RDollar c s)) (spans is_word t) <> None)
            by (rewrite E; discriminate).
          apply IH in H. destruct H as [H|[i [-> Hi]]]; [left; auto|].
          right. exists (x :: i). cbn [app forallb]. now rewrite Hx.
        * split.
          -- intros H.
             assert (H' : forallb is_word t = true \/ exists i, t = i ++ [10] /\ forallb is_word i = true).
             { destruct H as [H|[i [Hi1 Hi2]]]; [left; auto|].
               destruct i as [|y i].
               - cbn [app] in Hi1. inversion Hi1; subst. discriminate Hx.
               - right. inversion Hi1; subst. exists i. split; auto.
                 cbn [forallb] in Hi2. now rewrite Hx in Hi2. }
             apply (IH c) in H'. congruence.
          -- destruct t; [|now cbn [run hd_error]].
             cbn [run]. destruct (x =? 10) eqn:E10; [|now cbn].
             apply N.eqb_eq in E10. subst x. discriminate Hx.
      + cbn [firstm]. split.
        * intros [H|[i [Hi1 Hi2]]]; [discriminate|].
          destruct i as [|y i].
          -- cbn [app] in Hi1. inversion Hi1; subst. cbn. discriminate.
          -- inversion Hi1; subst. cbn [forallb] in Hi2. rewrite Hx in Hi2. discriminate.
        * intros H. right. exists []. cbn [app forallb]. split; auto.
          destruct t; cbn [run hd_error] in H; [|congruence].
          destruct (x =? 10) eqn:E10; [|now cbn in H].
          apply N.eqb_eq in E10. congruence.
  Qed.

  Lemma is_plain_spec s :
    is_plain uword s = true <-> identb s = true \/ exists i, s = i ++ [10] /\ identb i = true.
  Proof.
    unfold is_plain, re_match, ident_re. destruct s as [|x t].
    - cbn. split; [discriminate|]. intros [H|[i [H1 H2]]]; [discriminate|].
      destruct i; discriminate.
    - cbn [identb].
      change (run (RSeq (RSet is_ident_start) (RSeq (RStar (RSet is_word)) RDollar)) [] (x :: t))
        with (flat_map (fun y : caps * str => run (RSeq (RStar (RSet is_word)) RDollar) (fst y) (snd y))
                (if is_ident_start x then [(@nil (nat * str), t)] else [])).
      destruct (is_ident_start x) eqn:Hx; cbn [flat_map fst snd andb].
      + rewrite app_nil_r.
        change (run (RSeq (RStar (RSet is_word)) RDollar) [] t) with
          (flat_map (fun y : caps * str => run RDollar (fst y) (snd y)) (run (RStar (RSet is_word)) [] t)).
        rewrite run_star_set, flat_map_map, hd_error_flat_map. cbn [fst snd].
        pose proof (firstm_dollar_spans t []) as HD.
        destruct (firstm (fun s => hd_error (run RDollar [] s)) (spans is_word t)) eqn:E.
        * split; auto. intros _.
          assert (H : Some p <> None) by discriminate.
          apply HD in H. destruct H as [H|[i [-> Hi]]]; [left; auto|].
          right. exists (x :: i). cbn [identb app]. rewrite Hx. auto.
        * split; [discriminate|]. intros H. exfalso. apply HD; auto.
          destruct H as [H|[i [Hi1 Hi2]]]; [left; auto|].
          right. destruct i as [|y i].
          -- discriminate.
          -- inversion Hi1; subst. exists i. split; auto.
             cbn [identb] in Hi2. now rewrite Hx in Hi2.
      + split; [discriminate|]. intros [H|[i [Hi1 Hi2]]]; [discriminate|].
        destruct i as [|y i]; [discriminate|]. inversion Hi1; subst.
        cbn [identb] in Hi2. now rewrite Hx in Hi2.
  Qed.

  Lemma ident_start_word x : is_ident_start x = true -> is_word x = true.
  Proof.
    intros H. unfold SelPathModel.is_word.
    assert (x <? 128 = true) as ->.
    { apply N.ltb_lt. unfold is_ident_start in H.
      repeat rewrite orb_true_iff in H. repeat rewrite andb_true_iff in H.
      rewrite !N.leb_le, N.eqb_eq in H. lia. }
    now rewrite H.
  Qed.

  (** * The round trip *)

  (** Elements for which the text form is faithful. *)
  Definition ok_elem (e : elem) : Prop :=
    match e with
    | EInt z => (0 <= z)%Z
    | ENone => True
    | EStr s =>
        s <> [] /\
        (forall u v, s <> u ++ [39; 93] ++ v) /\
        (forall i, s = i ++ [10] -> identb i = false)
    end.

  Lemma no_closeb_spec s : (forall u v, s <> u ++ [39; 93] ++ v) -> no_closeb s = true.
  Proof.
    induction s as [|x s IH]; intros H; [reflexivity|]. cbn [no_closeb].
    apply andb_true_iff. split.
    - unfold closes. destruct s as [|y s]; [reflexivity|].
      destruct (x =? 39) eqn:Ex; [|reflexivity]. destruct (y =? 93) eqn:Ey; [|reflexivity].
      apply N.eqb_eq in Ex, Ey. subst. exfalso. apply (H [] s). reflexivity.
    - apply IH. intros u v E. apply (H (x :: u) v). now rewrite E.
  Qed.

  (** What may follow an element in a path. *)
  Definition follows (v : str) : Prop := starts_ok is_word v.

  Lemma tok_fmt e v : ok_elem e -> follows v ->
    exists c, re_match path_tok (fmt_elem uword e ++ v) = Some (c, v) /\
              tok_elem udigit c = [e] /\ group g_branch c = None /\ (length v < length (fmt_elem uword e ++ v))%nat.
  Proof.
    intros He Hv. destruct e as [s|z|]; cbn [fmt_elem].
    - destruct He as [Hne [Hcl Hnl]].
      destruct (is_plain uword s) eqn:Hp; cbn [negb].
      + apply is_plain_spec in Hp. destruct Hp as [Hp|[i [Hi1 Hi2]]].
        2:{ rewrite (Hnl i Hi1) in Hi2. discriminate. }
        exists [(g_attr, s)]. split; [|split; [|split; [reflexivity|]]].
        * unfold re_match, SelPathModel.path_tok. apply run_alt_l. cbn [app].
          apply run_attr; auto.
          destruct s as [|x t]; [congruence|]. cbn [identb] in Hp.
          apply andb_true_iff in Hp as [Hp1 Hp2]. cbn [forallb].
          now rewrite (ident_start_word x Hp1).
        * unfold tok_elem. cbn [group g_key g_attr Nat.eqb].
          destruct s; [congruence|reflexivity].
        * cbn [app length]. rewrite app_length. lia.
      + exists [(g_key, esc s)]. split; [|split; [|split; [reflexivity|]]].
        * unfold re_match, SelPathModel.path_tok. rewrite run_alt_r by (apply run_attr_no; discriminate).
          cbn [app]. rewrite <- app_assoc. cbn [app]. rewrite run_key_bracket.
          rewrite key_end_esc by (now apply no_closeb_spec).
          cbn [skipn]. rewrite (firstn_prefix (esc s) (39 :: 93 :: v)). reflexivity.
        * unfold tok_elem. cbn [group g_key g_attr Nat.eqb]. rewrite unesc_esc.
          destruct s; [congruence|reflexivity].
        * cbn [app length]. rewrite !app_length. cbn [length]. lia.
    - destruct z as [|p|p]; [| |exfalso; cbn in He; lia].
      + destruct (fmt_N_ok 0) as [H1 [H2 H3]].
        exists [(g_idx, fmt_N 0)]. split; [|split; [|split; [reflexivity|]]]; cbn [fmt_int].
        * unfold re_match, SelPathModel.path_tok. cbn [app].
          rewrite run_alt_r by (apply run_attr_no; discriminate).
          rewrite <- app_assoc. cbn [app]. now apply run_idx.
        * reflexivity.
        * cbn [app length]. rewrite !app_length. cbn [length]. lia.
      + destruct (fmt_N_ok (Npos p)) as [H1 [H2 H3]].
        exists [(g_idx, fmt_N (Npos p))]. split; [|split; [|split; [reflexivity|]]]; cbn [fmt_int].
        * unfold re_match, SelPathModel.path_tok. cbn [app].
          rewrite run_alt_r by (apply run_attr_no; discriminate).
          rewrite <- app_assoc. cbn [app]. now apply run_idx.
        * unfold tok_elem. cbn [group g_key g_attr g_idx Nat.eqb].
          destruct (fmt_N (N.pos p)) eqn:E; [congruence|]. now rewrite H3.
        * cbn [app length]. rewrite !app_length. cbn [length]. lia.
    - exists [(g_wild, [42])]. split; [|split; [|split; [reflexivity|]]].
      + unfold re_match, SelPathModel.path_tok. cbn [app].
        rewrite run_alt_r by (apply run_attr_no; discriminate). apply run_wild.
      + reflexivity.
      + cbn [app length]. lia.
  Qed.

  Lemma fmt_elem_head e : exists x t, fmt_elem uword e = x :: t /\ (x = 46 \/ x = 91).
  Proof.
    destruct e as [s|z|]; cbn [fmt_elem].
    - destruct (negb (is_plain uword s)); cbn [app]; eauto.
    - cbn [app]; eauto.
    - eauto.
  Qed.

  Lemma follows_path sels : follows (fs_path uword sels).
  Proof.
    destruct sels as [|e t]; [exact I|]. unfold fs_path. cbn [flat_map].
    destruct (fmt_elem_head e) as [x [u [-> [->| ->]]]]; reflexivity.
  Qed.

  Lemma scan_path_fmt sels : Forall ok_elem sels ->
    scan_path uword udigit (fs_path uword sels) = sels.
  Proof.
    unfold scan_path. induction sels as [|e t IH]; intros H; [reflexivity|].
    inversion H; subst. unfold fs_path. cbn [flat_map].
    destruct (tok_fmt e (fs_path uword t)) as [c [Hc [He [_ Hl]]]]; auto using follows_path.
    change (flat_map (fmt_elem uword) t) with (fs_path uword t).
    rewrite (finditer_hit _ _ _ _ Hc Hl). cbn [flat_map]. rewrite He, IH by auto.
    reflexivity.
  Qed.
End Unicode.
