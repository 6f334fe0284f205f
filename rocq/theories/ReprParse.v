(** C50, syntax: lists, tuples, dicts and calls are read back. *)
From Coq Require Import String List NArith ZArith Arith Bool Lia.
From Verif Require Import Prelude SelPathModel GenModel AutoModel JsonModel JsonSpec
  ReprModel ReprSpec ReprText.
Import ListNotations.
Local Open Scope list_scope.
Local Open Scope N_scope.

Section Parse.
Variable num_value : str -> option nat.
Notation expr := (expr num_value).
Notation items := (items num_value).
Notation pairs := (pairs num_value).
Notation args := (args num_value).

Lemma expr_S n s : expr (S n) s =
      match s with
      | [] => None
      | c :: r =>
          if c =? 91 then
            match items n 93 r with Some (l, _, r') => Some (AList l, r') | None => None end
          else if c =? 40 then
            match items n 41 r with
            | Some ([e], false, r') => Some (e, r')
            | Some (l, _, r') => Some (ATuple l, r')
            | None => None
            end
          else if c =? 123 then
            match pairs n r with Some (l, r') => Some (ADict l, r') | None => None end
          else if (c =? 39) || (c =? 34) then
            match read_lit (S (List.length r)) c r with Some (t, r') => Some (AStr t, r') | None => None end
          else if is_dig c || (c =? 45) then
            let (t, r') := span is_numch s in
            match numeral num_value t with Some e => Some (e, r') | None => None end
          else if is_alpha c then
            let (w, r') := span is_alnum s in
            match r' with
            | d :: r'' =>
                if d =? 40 then
                  match args n r'' with
                  | Some (pos, kw, r3) => Some (ACall w pos kw, r3)
                  | None => None
                  end
                else match word w with Some e => Some (e, r') | None => None end
            | [] => match word w with Some e => Some (e, r') | None => None end
            end
          else None
      end.
Proof. reflexivity. Qed.
Lemma items_S n close s : items (S n) close s =
      match skip s with
      | [] => None
      | c :: r =>
          if c =? close then Some ([], false, r)
          else match expr n (c :: r) with
               | None => None
               | Some (e, s1) =>
                   match skip s1 with
                   | [] => None
                   | c1 :: r1 =>
                       if c1 =? 44 then
                         match items n close r1 with
                         | Some (l, _, r2) => Some (e :: l, true, r2)
                         | None => None
                         end
                       else if c1 =? close then Some ([e], false, r1)
                       else None
                   end
               end
      end.
Proof. reflexivity. Qed.
Lemma pairs_S n s : pairs (S n) s =
      match skip s with
      | [] => None
      | c :: r =>
          if c =? 125 then Some ([], r)
          else match expr n (c :: r) with
               | Some (AStr k, s1) =>
                   match skip s1 with
                   | d :: s2 =>
                       if d =? 58 then
                         match expr n (skip s2) with
                         | None => None
                         | Some (e, s3) =>
                             match skip s3 with
                             | [] => None
                             | c1 :: r1 =>
                                 if c1 =? 44 then
                                   match pairs n r1 with
                                   | Some (l, r2) => Some ((k, e) :: l, r2)
                                   | None => None
                                   end
                                 else if c1 =? 125 then Some ([(k, e)], r1)
                                 else None
                             end
                         end
                       else None
                   | [] => None
                   end
               | _ => None
               end
      end.
Proof. reflexivity. Qed.
Lemma args_S n s : args (S n) s =
      match skip s with
      | [] => None
      | c :: r =>
          if c =? 41 then Some ([], [], r)
          else
            let (w, r') := span is_alnum (c :: r) in
            let key := match r' with
                       | d :: r'' => if (d =? 61) && is_alpha c then Some r'' else None
                       | [] => None
                       end in
            match expr n (match key with Some r'' => r'' | None => c :: r end) with
            | None => None
            | Some (e, s1) =>
                match (match skip s1 with
                       | c1 :: r1 => if c1 =? 44 then args n r1
                                     else if c1 =? 41 then Some ([], [], r1) else None
                       | [] => None
                       end) with
                | None => None
                | Some (pos, kw, r2) =>
                    match key, pos with
                    | Some _, [] => Some ([], (w, e) :: kw, r2)
                    | Some _, _ => None            (* positional argument follows keyword argument *)
                    | None, _ => Some (e :: pos, kw, r2)
                    end
                end
            end
      end.
Proof. reflexivity. Qed.

(** [t] is read as [e], whatever follows that ends an expression. *)
Definition reads (t : str) (e : ast) : Prop :=
  forall n r, (2 * length t + 1 <= n)%nat -> ends r -> expr n (t ++ r) = Some (e, r).
(** It begins like an expression. *)
Definition starts (t : str) : Prop :=
  match t with [] => False | c :: _ => ~ In c [32; 41; 93; 125] end.

Lemma skip_starts t r : starts t -> skip (t ++ r) = t ++ r /\ skip (32 :: t ++ r) = t ++ r.
Proof.
  destruct t as [|c t]; [intros []|]. cbn [starts app]. intros H.
  assert (E : (c =? 32) = false) by (apply N.eqb_neq; intros ->; apply H; cbn; auto).
  cbn [skip]. rewrite E. auto.
Qed.
Lemma skip_ends r : ends r -> skip r = r.
Proof.
  destruct r as [|c r]; auto. cbn [ends In]. intros [<-|[<-|[<-|[<-|[]]]]]; reflexivity.
Qed.

Definition blank (sp : str) : Prop := sp = [] \/ sp = [32].
Lemma skip_blank sp t r : blank sp -> starts t -> skip (sp ++ t ++ r) = t ++ r.
Proof. intros [-> | ->] H; cbn [app]; apply skip_starts; auto. Qed.

Lemma join_cons2 x y l : join (x :: y :: l) = x ++ 44 :: 32 :: join (y :: l).
Proof. reflexivity. Qed.

Definition closer (c : N) : Prop := c = 41 \/ c = 93 \/ c = 125.
Lemma closer_ends c r : closer c -> ends (c :: r).
Proof. intros [->|[->| ->]]; cbn; auto. Qed.

Lemma items_read close ts es : closer close -> Forall2 reads ts es -> Forall starts ts ->
  forall sp n r, blank sp -> (2 * (length (join ts) + length sp + 1) <= n)%nat ->
  items n close (sp ++ join ts ++ close :: r) = Some (es, Nat.leb 2 (length es), r).
Proof.
  intros Hc H. induction H as [|t e ts es Ht H IH]; intros Hs sp n r Hsp Hn.
  - cbn [join app length] in *. destruct n as [|n]; [lia|]. rewrite items_S.
    assert (E : skip (sp ++ close :: r) = close :: r).
    { destruct Hsp as [-> | ->]; cbn [app]; [|change (skip (32 :: close :: r)) with (skip (close :: r))]; apply skip_ends, closer_ends; auto. }
    rewrite E, N.eqb_refl. reflexivity.
  - inversion Hs as [|? ? Hst Hs']; subst. destruct n as [|n]; [lia|]. rewrite items_S.
    assert (Hne : exists c t', t = c :: t' /\ (c =? close) = false).
    { destruct t as [|c t']; [destruct Hst|]. exists c, t'. split; auto. cbn in Hst.
      apply N.eqb_neq. intros ->. apply Hst. destruct Hc as [->|[->| ->]]; cbn; auto. }
    destruct Hne as (c & t' & Et & Ec).
    destruct ts as [|t2 ts].
    + inversion H; subst es. cbn [join length] in *.
      rewrite skip_blank by auto. rewrite Et. cbn [app]. rewrite Ec.
      change (c :: t' ++ close :: r) with ((c :: t') ++ close :: r). rewrite <- Et.
      rewrite Ht by (try (apply closer_ends; auto); lia).
      rewrite skip_ends by (apply closer_ends; auto).
      assert (E44 : (close =? 44) = false) by (destruct Hc as [->|[->| ->]]; reflexivity).
      rewrite E44, N.eqb_refl. reflexivity.
    + rewrite join_cons2 in *. rewrite <- app_assoc.
      rewrite skip_blank by auto. rewrite Et. cbn [app]. rewrite Ec.
      change (c :: t' ++ 44 :: 32 :: join (t2 :: ts) ++ close :: r)
        with ((c :: t') ++ 44 :: 32 :: join (t2 :: ts) ++ close :: r). rewrite <- Et.
      rewrite app_length in Hn. cbn [length] in Hn.
      rewrite Ht by (cbn; auto; lia). rewrite skip_ends by (cbn; auto).
      cbn [N.eqb Pos.eqb].
      change (32 :: join (t2 :: ts) ++ close :: r) with ([32] ++ join (t2 :: ts) ++ close :: r).
      rewrite IH; auto; [|right; reflexivity|cbn [length] in *; lia].
      inversion H; subst. reflexivity.
Qed.

Lemma list_reads ts es : Forall2 reads ts es -> Forall starts ts ->
  reads (91 :: join ts ++ [93]) (AList es).
Proof.
  intros H Hs n r Hn Hr. cbn [length] in Hn. rewrite app_length in Hn. cbn [length] in Hn.
  destruct n as [|n]; [lia|]. cbn [app]. rewrite expr_S. cbn [N.eqb Pos.eqb].
  rewrite <- app_assoc. cbn [app].
  pose proof (items_read 93 ts es (or_intror (or_introl eq_refl)) H Hs [] n r) as E.
  cbn [app length] in E. rewrite E; [reflexivity|left; reflexivity|lia].
Qed.

Lemma tuple_reads ts es : Forall2 reads ts es -> Forall starts ts ->
  reads (tuple_text ts) (ATuple es).
Proof.
  intros H Hs n r Hn Hr. unfold tuple_text in *.
  assert (Main : forall (ts' : list str), ts = ts' -> length ts <> 1%nat ->
     (2 * length (s2l "(" ++ join ts ++ s2l ")") + 1 <= n)%nat ->
     expr n ((s2l "(" ++ join ts ++ s2l ")") ++ r) = Some (ATuple es, r)).
  { intros _ _ Hl Hn'. change (s2l "(") with [40] in *. change (s2l ")") with [41] in *.
    cbn [app length] in Hn'. rewrite app_length in Hn'. cbn [length] in Hn'.
    destruct n as [|n]; [lia|]. cbn [app]. rewrite expr_S. cbn [N.eqb Pos.eqb].
    rewrite <- app_assoc. cbn [app].
    pose proof (items_read 41 ts es (or_introl eq_refl) H Hs [] n r) as E. cbn [app length] in E.
    rewrite E; [|left; reflexivity|lia].
    destruct H as [|t e ts es Ht H]; [reflexivity|]. destruct H; [cbn in Hl; lia|reflexivity]. }
  destruct ts as [|t [|t2 ts]]; try (apply (Main _ eq_refl); [cbn; lia|exact Hn]).
  (* one element *)
  inversion H as [|? e ? ? Ht H']; subst. inversion H'; subst. inversion Hs as [|? ? Hst _]; subst.
  change (s2l "(") with [40] in *. change (s2l ",)") with [44; 41] in *.
  cbn [app length] in Hn. rewrite app_length in Hn. cbn [length] in Hn.
  destruct n as [|n]; [lia|]. cbn [app]. rewrite expr_S. cbn [N.eqb Pos.eqb].
  rewrite <- app_assoc. cbn [app].
  destruct n as [|n]; [lia|]. rewrite items_S.
  pose proof (skip_blank [] t (44 :: 41 :: r) (or_introl eq_refl) Hst) as K. cbn [app] in K. rewrite K.
  destruct t as [|c t']; [destruct Hst|]. cbn [app].
  assert (Ec : (c =? 41) = false) by (cbn in Hst; apply N.eqb_neq; intros ->; apply Hst; cbn; auto).
  rewrite Ec. change (c :: t' ++ 44 :: 41 :: r) with ((c :: t') ++ 44 :: 41 :: r).
  rewrite Ht by (cbn [ends In]; auto; lia). cbn [skip N.eqb Pos.eqb].
  destruct n as [|n]; [lia|]. rewrite items_S. cbn [skip N.eqb Pos.eqb]. reflexivity.
Qed.

(** *** Dicts *)
Section Dict.
Variable printable : N -> bool.
Definition pair_text (kt : str * str) : str := str_repr printable (fst kt) ++ s2l ": " ++ snd kt.

Lemma str_repr_head s : exists c t, str_repr printable s = c :: t /\ (c = 39 \/ c = 34).
Proof. unfold str_repr. eexists _, _. split; [reflexivity|]. apply quote_cases. Qed.
Lemma str_repr_length s : (2 <= length (str_repr printable s))%nat.
Proof. unfold str_repr. cbn [length]. rewrite app_length. cbn. lia. Qed.

Lemma pairs_read kts kes : Forall2 (fun kt ke => fst kt = fst ke /\ reads (snd kt) (snd ke)) kts kes ->
  Forall (fun kt => unicode (fst kt) /\ starts (snd kt)) kts ->
  forall sp n r, blank sp -> (2 * (length (join (map pair_text kts)) + length sp + 1) <= n)%nat ->
  pairs n (sp ++ join (map pair_text kts) ++ 125 :: r) = Some (kes, r).
Proof.
  intros H. induction H as [|[k t] [k' e] kts kes [Ek Ht] H IH]; intros Hs sp n r Hsp Hn.
  - cbn [map join app length] in *. destruct n as [|n]; [lia|]. rewrite pairs_S.
    destruct Hsp as [-> | ->]; reflexivity.
  - inversion Hs as [|? ? [Hu Hst] Hs']; subst. cbn [fst snd] in *. subst k'.
    destruct n as [|n]; [lia|]. rewrite pairs_S.
    assert (Head : forall rest, starts (str_repr printable k ++ rest)).
    { intros rest. destruct (str_repr_head k) as (c & u & -> & [-> | ->]); cbn; intuition discriminate. }
    assert (Body : forall R, ends R -> (2 * length t + 1 <= n)%nat ->
       match (skip (sp ++ str_repr printable k ++ s2l ": " ++ t ++ R)) with
       | [] => None
       | c :: r0 =>
          if c =? 125 then Some ([], r0)
          else match expr n (c :: r0) with
               | Some (AStr k, s1) =>
                   match skip s1 with
                   | d :: s2 =>
                       if d =? 58 then
                         match expr n (skip s2) with
                         | None => None
                         | Some (e, s3) =>
                             match skip s3 with
                             | [] => None
                             | c1 :: r1 =>
                                 if c1 =? 44 then
                                   match pairs n r1 with
                                   | Some (l, r2) => Some ((k, e) :: l, r2)
                                   | None => None
                                   end
                                 else if c1 =? 125 then Some ([(k, e)], r1)
                                 else None
                             end
                         end
                       else None
                   | [] => None
                   end
               | _ => None
               end
       end = match R with
             | [] => None
             | c1 :: r1 =>
                 if c1 =? 44 then
                   match pairs n r1 with
                   | Some (l, r2) => Some ((k, e) :: l, r2)
                   | None => None
                   end
                 else if c1 =? 125 then Some ([(k, e)], r1)
                 else None
             end).
    { intros R HR Hl.
      assert (E : skip (sp ++ str_repr printable k ++ s2l ": " ++ t ++ R) = str_repr printable k ++ s2l ": " ++ t ++ R).
      { pose proof (skip_blank sp (str_repr printable k ++ s2l ": " ++ t ++ R) [] Hsp (Head _)) as E.
        rewrite app_nil_r in E. exact E. }
      rewrite E. pose proof (str_read printable num_value k (s2l ": " ++ t ++ R) n Hu ltac:(lia)) as RD.
      destruct (str_repr_head k) as (c & u & Eu & Hc). rewrite Eu in *. cbn [app] in *.
      assert (E125 : (c =? 125) = false) by (destruct Hc as [-> | ->]; reflexivity).
      rewrite E125, RD.
      change (s2l ": ") with [58; 32]. cbn [app].
      change (skip (58 :: 32 :: t ++ R)) with (58 :: 32 :: t ++ R).
      cbn [N.eqb Pos.eqb].
      destruct (skip_starts t R Hst) as [_ ->]. rewrite Ht by auto. rewrite skip_ends by auto. reflexivity. }
    destruct kts as [|kt2 kts].
    + inversion H; subst kes. cbn [map join] in *. unfold pair_text in *. cbn [fst snd] in *.
      rewrite !app_length in Hn. rewrite <- !app_assoc. rewrite Body; [reflexivity|cbn; auto|].
      change (length (s2l ": ")) with 2%nat in Hn. lia.
    + cbn [map] in *. rewrite join_cons2 in *. unfold pair_text at 1 in Hn. unfold pair_text at 1.
      cbn [fst snd] in *. rewrite !app_length in Hn. rewrite <- !app_assoc.
      change (length (s2l ": ")) with 2%nat in Hn. cbn [length] in Hn.
      rewrite Body; [|cbn; auto|lia].
      cbn [app N.eqb Pos.eqb].
      change (32 :: join (pair_text kt2 :: map pair_text kts) ++ 125 :: r)
        with ([32] ++ join (pair_text kt2 :: map pair_text kts) ++ 125 :: r).
      rewrite IH; auto; [right; reflexivity|cbn [length]; lia].
Qed.

Lemma dict_reads kts kes : Forall2 (fun kt ke => fst kt = fst ke /\ reads (snd kt) (snd ke)) kts kes ->
  Forall (fun kt => unicode (fst kt) /\ starts (snd kt)) kts ->
  reads (123 :: join (map pair_text kts) ++ [125]) (ADict kes).
Proof.
  intros H Hs n r Hn Hr. cbn [length] in Hn. rewrite app_length in Hn. cbn [length] in Hn.
  destruct n as [|n]; [lia|]. cbn [app]. rewrite expr_S. cbn [N.eqb Pos.eqb].
  rewrite <- app_assoc. cbn [app].
  pose proof (pairs_read kts kes H Hs [] n r) as E.
  cbn [app length] in E. rewrite E; [reflexivity|left; reflexivity|lia].
Qed.
End Dict.

(** *** Calls *)
Definition kw_text (kt : str * str) : str := fst kt ++ s2l "=" ++ snd kt.

Lemma identifier_head n : identifier n -> exists c t, n = c :: t /\ letter c.
Proof. destruct n as [|c t]; [intros []|]. intros [H _]. eauto. Qed.
Lemma letter_starts c t : letter c -> starts (c :: t).
Proof.
  intros H. cbn. intros [E|[E|[E|[E|[]]]]]; apply (letter_not c _ H) in E || idtac; subst; auto;
    apply letter_alpha in H; discriminate.
Qed.

(** One argument: [key] if it has a name. *)
Lemma arg_step key t e R sp n :
  blank sp -> reads t e -> starts t -> ends R -> (2 * length t + 1 <= n)%nat ->
  match key with Some k => identifier k | None => exists c t', t = c :: t' /\ is_alpha c = false end ->
  let text := match key with Some k => kw_text (k, t) | None => t end in
  args (S n) (sp ++ text ++ R)
  = match (match R with
           | c1 :: r1 => if c1 =? 44 then args n r1 else if c1 =? 41 then Some ([], [], r1) else None
           | [] => None
           end) with
    | None => None
    | Some (pos, kw, r2) =>
        match key, pos with
        | Some k, [] => Some ([], (k, e) :: kw, r2)
        | Some _, _ => None
        | None, _ => Some (e :: pos, kw, r2)
        end
    end.
Proof.
  intros Hsp Ht Hst HR Hn Hk. cbv zeta. rewrite args_S.
  destruct key as [k|].
  - unfold kw_text. cbn [fst snd]. rewrite <- !app_assoc. change (s2l "=") with [61]. cbn [app].
    destruct (identifier_head k Hk) as (c & u & Ek & Hc).
    assert (E : skip (sp ++ k ++ 61 :: t ++ R) = k ++ 61 :: t ++ R).
    { apply skip_blank; auto. rewrite Ek. apply letter_starts; auto. }
    rewrite E. rewrite Ek at 1. cbn [app].
    rewrite (letter_eqb c 41 Hc eq_refl).
    change (c :: u ++ 61 :: t ++ R) with ((c :: u) ++ 61 :: t ++ R). rewrite <- Ek.
    rewrite (span_all is_alnum k (61 :: t ++ R)) by (first [apply identifier_alnum; auto | reflexivity]).
    rewrite (letter_alpha c Hc). cbn [N.eqb Pos.eqb andb].
    rewrite Ht by auto. rewrite skip_ends by auto. reflexivity.
  - destruct Hk as (c & t' & Et & Ha).
    assert (E : skip (sp ++ t ++ R) = t ++ R) by (apply skip_blank; auto).
    rewrite E. rewrite Et at 1. cbn [app].
    assert (E41 : (c =? 41) = false).
    { rewrite Et in Hst. cbn in Hst. apply N.eqb_neq. intros ->. apply Hst. cbn. auto. }
    rewrite E41, Ha.
    destruct (span is_alnum (c :: t' ++ R)) as [w r'].
    assert (K : (match r' with d :: r'' => if (d =? 61) && false then Some r'' else None | [] => None end) = None).
    { destruct r'; auto. now rewrite andb_false_r. }
    rewrite K. change (c :: t' ++ R) with ((c :: t') ++ R). rewrite <- Et.
    rewrite Ht by auto. rewrite skip_ends by auto. reflexivity.
Qed.

Lemma kwargs_read kts kes : Forall2 (fun kt ke => fst kt = fst ke /\ reads (snd kt) (snd ke)) kts kes ->
  Forall (fun kt => identifier (fst kt) /\ starts (snd kt)) kts ->
  forall sp n r, blank sp -> (2 * (length (join (map kw_text kts)) + length sp + 1) <= n)%nat ->
  args n (sp ++ join (map kw_text kts) ++ 41 :: r) = Some ([], kes, r).
Proof.
  intros H. induction H as [|[k t] [k' e] kts kes [Ek Ht] H IH]; intros Hs sp n r Hsp Hn.
  - cbn [map join app length] in *. destruct n as [|n]; [lia|]. rewrite args_S.
    destruct Hsp as [-> | ->]; reflexivity.
  - inversion Hs as [|? ? [Hu Hst] Hs']; subst. cbn [fst snd] in *. subst k'.
    destruct n as [|n]; [lia|].
    destruct kts as [|kt2 kts].
    + inversion H; subst kes. cbn [map join] in *.
      unfold kw_text in Hn. cbn [fst snd] in Hn. rewrite !app_length in Hn.
      rewrite (arg_step (Some k) t e (41 :: r) sp n) by (cbn [ends In]; auto; lia). reflexivity.
    + cbn [map] in *. rewrite join_cons2 in *. rewrite <- app_assoc. cbn [app].
      rewrite app_length in Hn. cbn [length] in Hn. unfold kw_text at 1 in Hn. cbn [fst snd] in Hn.
      rewrite !app_length in Hn.
      rewrite (arg_step (Some k) t e _ sp n) by (cbn [ends In]; auto; lia).
      cbn [N.eqb Pos.eqb].
      change (32 :: join (kw_text kt2 :: map kw_text kts) ++ 41 :: r)
        with ([32] ++ join (kw_text kt2 :: map kw_text kts) ++ 41 :: r).
      rewrite IH; auto; [right; reflexivity|cbn [length]; lia].
Qed.

(** One positional argument before them. *)
Lemma posargs_read p pe kts kes : reads p pe -> starts p ->
  (exists c t', p = c :: t' /\ is_alpha c = false) ->
  Forall2 (fun kt ke => fst kt = fst ke /\ reads (snd kt) (snd ke)) kts kes ->
  Forall (fun kt => identifier (fst kt) /\ starts (snd kt)) kts ->
  forall n r, (2 * (length (join (p :: map kw_text kts)) + 1) <= n)%nat ->
  args n (join (p :: map kw_text kts) ++ 41 :: r) = Some ([pe], kes, r).
Proof.
  intros Hp Hs Ha H Hk n r Hn. destruct n as [|n]; [lia|].
  destruct kts as [|kt2 kts].
  - inversion H; subst kes. cbn [map join] in *.
    pose proof (arg_step None p pe (41 :: r) [] n) as E. cbn [app] in E.
    rewrite E; auto; [left; reflexivity|cbn; auto|lia].
  - cbn [map] in *. rewrite join_cons2 in *. rewrite <- app_assoc. cbn [app].
    rewrite app_length in Hn. cbn [length] in Hn.
    pose proof (arg_step None p pe (44 :: 32 :: join (kw_text kt2 :: map kw_text kts) ++ 41 :: r) [] n) as E.
    cbn [app] in E. rewrite E; auto; [|left; reflexivity|cbn; auto|lia].
    cbn [N.eqb Pos.eqb].
    pose proof (kwargs_read _ _ H Hk [32] n r) as K. cbn [app map] in K.
    rewrite K; [reflexivity|right; reflexivity|cbn [length]; lia].
Qed.

Lemma call_reads f inner pos kw : identifier f ->
  (forall n r, (2 * (length inner + 1) <= n)%nat -> args n (inner ++ 41 :: r) = Some (pos, kw, r)) ->
  reads (f ++ 40 :: inner ++ [41]) (ACall f pos kw).
Proof.
  intros Hf H n r Hn Hr. rewrite app_length in Hn. cbn [length] in Hn. rewrite app_length in Hn.
  cbn [length] in Hn. destruct n as [|n]; [lia|].
  rewrite <- app_assoc. cbn [app]. rewrite <- app_assoc. cbn [app].
  destruct (identifier_head f Hf) as (c & u & Ef & Hc).
  assert (S : span is_alnum (f ++ 40 :: inner ++ 41 :: r) = (f, 40 :: inner ++ 41 :: r)).
  { apply span_all; [apply identifier_alnum; auto|reflexivity]. }
  rewrite Ef at 1. cbn [app]. rewrite expr_S.
  rewrite (letter_eqb c 91 Hc eq_refl), (letter_eqb c 40 Hc eq_refl), (letter_eqb c 123 Hc eq_refl), (letter_eqb c 39 Hc eq_refl), (letter_eqb c 34 Hc eq_refl), (letter_eqb c 45 Hc eq_refl),
     (letter_dig c Hc), (letter_alpha c Hc). cbn [orb].
  change (c :: u ++ 40 :: inner ++ 41 :: r) with ((c :: u) ++ 40 :: inner ++ 41 :: r). rewrite <- Ef, S.
  cbn [N.eqb Pos.eqb]. rewrite H by lia. reflexivity.
Qed.

Lemma word_reads w e : word w = Some e -> identifier w -> reads w e.
Proof.
  intros Hw Hf n r Hn Hr. destruct n as [|n]; [lia|].
  destruct (identifier_head w Hf) as (c & u & Ef & Hc).
  assert (S : span is_alnum (w ++ r) = (w, r)).
  { apply span_all; [apply identifier_alnum; auto|apply ends_alnum; auto]. }
  rewrite Ef at 1. cbn [app]. rewrite expr_S.
  rewrite (letter_eqb c 91 Hc eq_refl), (letter_eqb c 40 Hc eq_refl), (letter_eqb c 123 Hc eq_refl), (letter_eqb c 39 Hc eq_refl), (letter_eqb c 34 Hc eq_refl), (letter_eqb c 45 Hc eq_refl),
     (letter_dig c Hc), (letter_alpha c Hc). cbn [orb].
  change (c :: u ++ r) with ((c :: u) ++ r). rewrite <- Ef, S, Hw.
  destruct r as [|d r]; auto.
  assert (E : (d =? 40) = false) by (cbn in Hr; destruct Hr as [<-|[<-|[<-|[<-|[]]]]]; reflexivity).
  rewrite E. reflexivity.
Qed.
End Parse.
