From Coq Require Import String List NArith Arith Bool Lia.
From Verif Require Import Prelude ExcModel ExcSpec.
Import ListNotations.
Local Open Scope string_scope.
Local Open Scope list_scope.

Section Exc.
Context {val : Type}.
Variable fmt rep str_ : val -> str + ferr val.
Variable attr : val -> str -> val + ferr val.
Variable of_str : str -> val.
Variable repr_args : list val -> str.
Variable repr_names : list str -> str.
Hypothesis fmt_str : forall s, fmt (of_str s) = inl s.

Notation format := (format val fmt rep str_ attr of_str).
Notation field := (field val fmt rep str_ attr of_str).
Notation make := (make val fmt rep str_ attr of_str repr_args repr_names).
Notation becomes := (becomes fmt rep attr).
Notation Renders := (Renders fmt rep attr).
Notation reaches := (reaches attr).

Lemma kget_in n (kw : list (str * val)) v : kget val n kw = Some v -> In (n, v) kw.
Proof.
  induction kw as [|[k x] t IH]; simpl; [discriminate|].
  destruct (str_eqb n k) eqn:E; intros H.
  - injection H as <-. apply str_eqb_eq in E; subst. auto.
  - auto.
Qed.

Lemma in_kget n (kw : list (str * val)) v :
  NoDup (map fst kw) -> In (n, v) kw -> kget val n kw = Some v.
Proof.
  induction kw as [|[k x] t IH]; simpl; [tauto|]. intros D [H|H].
  - injection H as <- <-. rewrite str_eqb_refl. auto.
  - inversion D as [|? ? Nk D']; subst. destruct (str_eqb n k) eqn:E.
    + apply str_eqb_eq in E; subst. exfalso. apply Nk. apply in_map_iff. exists (k, v); auto.
    + auto.
Qed.

Lemma kget_none n (kw : list (str * val)) : ~ In n (map fst kw) -> kget val n kw = None.
Proof.
  induction kw as [|[k x] t IH]; simpl; auto. intros H.
  destruct (str_eqb n k) eqn:E; [apply str_eqb_eq in E; subst; tauto|]. apply IH; tauto.
Qed.

(** *** What a field does *)

(** The text between the braces. *)
Definition body (n : str) (path : list str) (q : bool) : str :=
  n ++ flat_map (fun a => s2l "." ++ a) path ++ (if q then s2l "!r" else []).

(** The first part of the name, then the attributes, then the conversion. *)
Definition run_slot (kw : list (str * val)) (n : str) (path : list str) (q : bool) : str + ferr val :=
  match kget val n kw with
  | None => inr (FKey (of_str n))
  | Some v => fbind val (walk val attr v path) (fun w => if q then rep w else fmt w)
  end.

Lemma cut_word c a s : ~ In c a -> cut c (a ++ s) = (a ++ fst (cut c s), snd (cut c s)).
Proof.
  induction a as [|x t IH]; simpl; intros H; [destruct (cut c s); auto|].
  destruct (N.eqb x c) eqn:E; [apply N.eqb_eq in E; subst; tauto|].
  rewrite IH by tauto. auto.
Qed.

Lemma split_word c a : ~ In c a -> split_on c a = [a].
Proof.
  induction a as [|x t IH]; simpl; intros H; auto.
  destruct (N.eqb x c) eqn:E; [apply N.eqb_eq in E; subst; tauto|].
  rewrite IH by tauto. auto.
Qed.
Lemma split_word_app c a s : ~ In c a ->
  split_on c (a ++ c :: s) = a :: split_on c s.
Proof.
  induction a as [|x t IH]; simpl; intros H; [rewrite N.eqb_refl; auto|].
  destruct (N.eqb x c) eqn:E; [apply N.eqb_eq in E; subst; tauto|].
  rewrite IH by tauto. auto.
Qed.
Lemma split_path n path : ~ In c_dot n -> Forall (fun a => ~ In c_dot a) path ->
  split_on c_dot (n ++ flat_map (fun a => s2l "." ++ a) path) = n :: path.
Proof.
  revert n; induction path as [|a t IH]; simpl; intros n Hn Ht.
  - rewrite app_nil_r. apply split_word; auto.
  - inversion Ht; subst. change 46%N with c_dot.
    rewrite split_word_app by auto. rewrite IH by auto. auto.
Qed.

Lemma wordly_not s c : wordly s -> In c (s2l "{}!.:[") -> ~ In c s.
Proof. intros H Hc Hi. unfold wordly in H. rewrite Forall_forall in H. exact (H c Hi Hc). Qed.

Lemma not_digits n : (exists c, In c n /\ ~ (48 <= c <= 57)%N) -> forallb is_digit n = false.
Proof.
  intros (c & Hi & Hc). apply not_true_is_false. intros H. rewrite forallb_forall in H.
  specialize (H c Hi). unfold is_digit in H. apply andb_true_iff in H as [H1 H2].
  apply N.leb_le in H1, H2. lia.
Qed.

Lemma in_path c path : In c (flat_map (fun a => s2l "." ++ a) path) ->
  c = c_dot \/ exists a, In a path /\ In c a.
Proof.
  intros H. apply in_flat_map in H as (a & Ha & H). simpl in H. destruct H as [H|H].
  - left. now rewrite <- H.
  - right. eauto.
Qed.

Lemma body_chars n path q c : simple (Slot n path q) ->
  In c (body n path q) -> c = 123%N \/ c = 125%N \/ c = 58%N \/ c = 91%N -> False.
Proof.
  intros (_ & Hn & Hp) H Hc. unfold body in H. apply in_app_or in H as [H|H].
  - revert H. apply wordly_not; auto. simpl. intuition subst; auto.
  - apply in_app_or in H as [H|H].
    + apply in_path in H as [->|(a & Ha & H)].
      * unfold c_dot in Hc. destruct Hc as [Hc|[Hc|[Hc|Hc]]]; discriminate.
      * rewrite Forall_forall in Hp. revert H. apply wordly_not; auto. simpl. intuition subst; auto.
    + destruct q; [|destruct H]. simpl in H.
      destruct H as [H|[H|[]]]; subst c; destruct Hc as [Hc|[Hc|[Hc|Hc]]]; discriminate.
Qed.

Lemma field_slot args kw auto n path q : simple (Slot n path q) ->
  field args kw auto (body n path q) = run_slot kw n path q.
Proof.
  intros Hs. pose proof Hs as (Hd & Hn & Hp). unfold ExcModel.field.
  assert (Hbang : ~ In c_bang (n ++ flat_map (fun a => s2l "." ++ a) path)).
  { intros H. apply in_app_or in H as [H|H].
    - revert H. apply wordly_not; auto. simpl. tauto.
    - apply in_path in H as [H|(a & Ha & H)]; [discriminate|].
      rewrite Forall_forall in Hp. revert H. apply wordly_not; auto. simpl. tauto. }
  assert (Hsub : existsb (fun c => N.eqb c c_colon || N.eqb c c_sub) (body n path q) = false).
  { apply not_true_is_false. intros H. apply existsb_exists in H as (c & Hc & H).
    apply (body_chars n path q c Hs Hc). apply orb_true_iff in H as [H|H]; apply N.eqb_eq in H; auto. }
  rewrite Hsub. unfold body. rewrite app_assoc, cut_word by auto.
  assert (Hcut : cut c_bang (if q then s2l "!r" else []) = ([], if q then Some (s2l "r") else None)).
  { destruct q; reflexivity. }
  rewrite Hcut. cbn [fst snd]. rewrite app_nil_r, split_path.
  - unfold lookup. destruct n as [|c n']; [destruct Hd as (? & [] & _)|].
    rewrite (not_digits _ Hd). unfold run_slot.
    destruct (kget val (c :: n') kw) as [v|]; [|reflexivity]. cbn [fbind].
    destruct (walk val attr v path) as [w|]; [|reflexivity]. cbn [fbind].
    destruct q; reflexivity.
  - apply wordly_not; auto. simpl. tauto.
  - rewrite Forall_forall in *. intros a Ha. apply wordly_not; auto. simpl. tauto.
Qed.

(** *** The scan *)
Lemma format_text args kw auto s m : Forall (fun c => ~ In c (s2l "{}")) s ->
  format args kw auto None (s ++ m)
  = match format args kw auto None m with inl t => inl (s ++ t) | inr e => inr e end.
Proof.
  induction s as [|c t IH]; intros H.
  - simpl app. destruct (format args kw auto None m); auto.
  - inversion H as [|? ? Hc Ht]; subst. simpl.
    assert (H1 : N.eqb c c_open = false).
    { apply N.eqb_neq. intros ->. apply Hc. left. reflexivity. }
    assert (H2 : N.eqb c c_close = false).
    { apply N.eqb_neq. intros ->. apply Hc. right. left. reflexivity. }
    rewrite H1, H2, IH by auto. destruct (format args kw auto None m); auto.
Qed.

Lemma format_body args kw auto b acc m : Forall (fun c => c <> c_open /\ c <> c_close) b ->
  format args kw auto (Some acc) (b ++ c_close :: m)
  = fbind val (field args kw auto (rev acc ++ b)) (fun s =>
    fbind val (format args kw (match rev acc ++ b with
                               | [] => S auto
                               | c :: _ => if N.eqb c c_dot || N.eqb c c_bang then S auto else auto
                               end) None m) (fun r => inl (s ++ r))).
Proof.
  revert acc; induction b as [|c t IH]; intros acc H.
  - simpl app. rewrite app_nil_r. reflexivity.
  - inversion H as [|? ? [H1 H2] Ht]; subst. cbn [app ExcModel.format].
    apply N.eqb_neq in H1, H2. rewrite H1, H2, IH by auto.
    cbn [rev]. rewrite <- app_assoc. reflexivity.
Qed.

Lemma format_slot args kw auto n path q m : simple (Slot n path q) ->
  format args kw auto None (written (Slot n path q) ++ m)
  = fbind val (run_slot kw n path q) (fun s =>
    fbind val (format args kw auto None m) (fun r => inl (s ++ r))).
Proof.
  intros Hs. rewrite <- (field_slot args kw auto _ _ _ Hs).
  assert (Hw : written (Slot n path q) ++ m = c_open :: body n path q ++ c_close :: m).
  { unfold written, body. simpl (s2l "{"). simpl (s2l "}").
    cbn [app]. rewrite <- !app_assoc. reflexivity. }
  rewrite Hw.
  pose proof Hs as ((c0 & Hc0 & _) & Hn & Hp).
  assert (Hb : Forall (fun c => c <> c_open /\ c <> c_close) (body n path q)).
  { apply Forall_forall. intros c Hc. split; intros ->; apply (body_chars n path q _ Hs Hc); auto. }
  destruct n as [|c n']; [destruct Hc0|].
  assert (Hc : c <> c_open /\ c <> c_dot /\ c <> c_bang).
  { unfold wordly in Hn. inversion Hn as [|? ? Hc _]; subst.
    repeat split; intros ->; apply Hc; simpl; tauto. }
  destruct Hc as (H1 & H2 & H3). apply N.eqb_neq in H1, H2, H3.
  assert (Hopen : format args kw auto None (c_open :: body (c :: n') path q ++ c_close :: m)
                  = format args kw auto (Some []) (body (c :: n') path q ++ c_close :: m)).
  { cbn [ExcModel.format]. rewrite N.eqb_refl. unfold body at 1.
    cbn [app]. rewrite H1. reflexivity. }
  rewrite Hopen, format_body by auto. simpl rev. simpl app.
  unfold body at 2. cbn [app]. rewrite H2, H3. reflexivity.
Qed.

(** A message of pieces, piece by piece. *)
Fixpoint run (kw : list (str * val)) (ps : list piece) : str + ferr val :=
  match ps with
  | [] => inl []
  | Text s :: t => fbind val (run kw t) (fun r => inl (s ++ r))
  | Slot n path q :: t =>
      fbind val (run_slot kw n path q) (fun s => fbind val (run kw t) (fun r => inl (s ++ r)))
  end.

Lemma format_run args kw auto ps : Forall simple ps ->
  format args kw auto None (flat_map written ps) = run kw ps.
Proof.
  induction ps as [|[s|n path q] t IH]; intros H; [reflexivity| |]; inversion H; subst; cbn [flat_map run].
  - rewrite format_text by auto. rewrite IH by auto. destruct (run kw t); auto.
  - rewrite format_slot by auto. rewrite IH by auto. auto.
Qed.

Lemma walk_reaches v path w : walk val attr v path = inl w <-> reaches v path w.
Proof.
  revert v; induction path as [|a t IH]; simpl; intros v.
  - split; [intros H; injection H as <-; constructor|inversion 1; auto].
  - split.
    + destruct (attr v a) as [x|] eqn:E; [|discriminate]. cbn [fbind]. intros H.
      apply R_attr with x; auto. apply IH; auto.
    + intros H. inversion H as [|? ? x ? ? E Hr]; subst. rewrite E. cbn [fbind]. apply IH; auto.
Qed.

Lemma run_slot_becomes kw n path q t : NoDup (map fst kw) ->
  (run_slot kw n path q = inl t <-> becomes kw (Slot n path q) t).
Proof.
  intros D. unfold run_slot, ExcSpec.becomes. split.
  - destruct (kget val n kw) as [v|] eqn:E; [|discriminate]. apply kget_in in E.
    destruct (walk val attr v path) as [w|] eqn:W; [|discriminate]. cbn [fbind]. intros H.
    exists v, w. repeat split; auto. apply walk_reaches; auto.
  - intros (v & w & Hi & Hr & H). rewrite (in_kget _ _ _ D Hi).
    apply walk_reaches in Hr. rewrite Hr. exact H.
Qed.

Lemma run_becomes kw ps t : NoDup (map fst kw) ->
  (run kw ps = inl t <-> exists ts, Forall2 (becomes kw) ps ts /\ t = concat ts).
Proof.
  intros D. revert t; induction ps as [|p r IH]; intros t.
  - simpl. split.
    + intros H; injection H as <-. exists []; auto.
    + intros (ts & H & ->). inversion H; auto.
  - assert (Hstep : run kw (p :: r) = inl t
             <-> exists a b, becomes kw p a /\ run kw r = inl b /\ t = a ++ b).
    { destruct p as [s|n path q]; cbn [run].
      - destruct (run kw r) as [b|]; cbn [fbind]; split.
        + intros H; injection H as <-. exists s, b. repeat split; auto.
        + intros (a & b' & Ha & Hb & ->). injection Hb as <-. cbn in Ha. now subst.
        + discriminate.
        + intros (a & b' & Ha & Hb & ->). discriminate.
      - split.
        + destruct (run_slot kw n path q) as [a|] eqn:E; [|discriminate]. cbn [fbind].
          destruct (run kw r) as [b|]; [|discriminate]. cbn [fbind].
          intros H; injection H as <-. exists a, b. repeat split; auto. apply run_slot_becomes; auto.
        + intros (a & b & Ha & Hb & ->). apply run_slot_becomes in Ha; auto.
          rewrite Ha. cbn [fbind]. rewrite Hb. reflexivity. }
    rewrite Hstep. split.
    + intros (a & b & Ha & Hb & ->). apply IH in Hb as (ts & Ht & ->). exists (a :: ts). split; auto.
    + intros (ts & Ht & ->). inversion Ht as [|? a ? ts' Ha Hr]; subst.
      exists a, (concat ts'). repeat split; auto. apply IH. eauto.
Qed.

(** *** The messages of the module *)
Definition wordlyb (s : str) : bool :=
  forallb (fun c => negb (existsb (N.eqb c) (s2l "{}!.:["))) s.
Definition simpleb (p : piece) : bool :=
  match p with
  | Text s => forallb (fun c => negb (existsb (N.eqb c) (s2l "{}"))) s
  | Slot n path _ => existsb (fun c => negb (is_digit c)) n && wordlyb n && forallb wordlyb path
  end.
Lemma charsb l (s : str) :
  forallb (fun c => negb (existsb (N.eqb c) l)) s = true -> Forall (fun c => ~ In c l) s.
Proof.
  intros H. apply Forall_forall. intros c Hc Hi. rewrite forallb_forall in H. specialize (H c Hc).
  apply negb_true_iff in H. assert (existsb (N.eqb c) l = true); [|congruence].
  apply existsb_exists. exists c. split; auto. apply N.eqb_refl.
Qed.
Lemma simpleb_ok p : simpleb p = true -> simple p.
Proof.
  destruct p as [s|n path q]; unfold simpleb; intros H.
  - apply charsb; auto.
  - apply andb_true_iff in H as [H Hp]. apply andb_true_iff in H as [Hd Hn].
    split; [|split].
    + apply existsb_exists in Hd as (c & Hc & H). exists c. split; auto.
      unfold is_digit in H. apply negb_true_iff, andb_false_iff in H.
      destruct H as [H|H]; apply N.leb_gt in H; lia.
    + apply charsb; auto.
    + apply Forall_forall. intros a Ha. rewrite forallb_forall in Hp. apply charsb, Hp; auto.
Qed.

(** A reading of messages as pieces, only used to find them. *)
Fixpoint pieces (fuel : nat) (m : str) : list piece :=
  match fuel with
  | 0 => []
  | S f =>
      let (lit, rest) := cut c_open m in
      Text lit ::
      match rest with
      | None => []
      | Some r =>
          let (b, r') := cut c_close r in
          let (name, conv) := cut c_bang b in
          match split_on c_dot name with
          | n :: path => [Slot n path (match conv with Some _ => true | None => false end)]
          | [] => []
          end ++ match r' with Some m' => pieces f m' | None => [] end
      end
  end.
Definition pieces_of (n : string) : list piece :=
  match message n with Some m => pieces 20 (s2l m) | None => [] end.

Definition class_ok (c : cls) : bool :=
  match message (c_name c) with
  | Some m => str_eqb (flat_map written (pieces_of (c_name c))) (s2l m)
              && forallb simpleb (pieces_of (c_name c))
  | None => String.eqb (c_name c) "NormalizeError"
  end.
Lemma classes_ok : forallb class_ok classes = true.
Proof. vm_compute. reflexivity. Qed.

Lemma message_find n m : message n = Some m -> exists c, In c classes /\ c_name c = n.
Proof.
  unfold message. cbn [message_of]. destruct (find_cls n) as [c|] eqn:E; [|discriminate]. intros _.
  unfold find_cls in E. apply find_some in E. destruct E as [Hi E]. apply String.eqb_eq in E.
  exists c. split; assumption.
Qed.

Lemma message_pieces n m : message n = Some m ->
  s2l m = flat_map written (pieces_of n) /\ Forall simple (pieces_of n).
Proof.
  intros H. destruct (message_find _ _ H) as (c & Hc & <-).
  pose proof classes_ok as O. rewrite forallb_forall in O. specialize (O c Hc).
  unfold class_ok in O. rewrite H in O. apply andb_true_iff in O as [O1 O2].
  apply str_eqb_eq in O1. split; auto.
  apply Forall_forall. intros p Hp. rewrite forallb_forall in O2. apply simpleb_ok; auto.
Qed.

Lemma make_renders n args kw m t : NoDup (map fst kw) -> message n = Some m ->
  (make n args kw = Made val {| x_class := n; x_args := args; x_kw := kw; x_text := t |}
   <-> run kw (pieces_of n) = inl t).
Proof.
  intros D H. destruct (message_pieces _ _ H) as [E S].
  unfold ExcModel.make. cbn [init]. rewrite H, E, format_run by auto.
  destruct (run kw (pieces_of n)) as [t'|[v| |e]].
  - split; intros X; [injection X as <-; auto|injection X as <-; auto].
  - split; [|discriminate]. destruct (message "KeywordExceptionFormatError"); [|discriminate].
    destruct (ExcModel.format _ _ _ _ _ _ _ _ _ _ _) as [?|[| |]]; discriminate.
  - split; [|discriminate]. destruct (message "PositionalExceptionFormatError"); [|discriminate].
    destruct (ExcModel.format _ _ _ _ _ _ _ _ _ _ _) as [?|[| |]]; discriminate.
  - split; discriminate.
Qed.

Lemma renders_run kw m t : NoDup (map fst kw) -> Renders kw m t ->
  forall args auto, format args kw auto None m = inl t.
Proof.
  intros D (ps & ts & -> & S & F & ->) args auto. rewrite format_run by auto.
  apply run_becomes; eauto.
Qed.

Lemma text_iff n m args kw t : NoDup (map fst kw) -> message n = Some m ->
  (make n args kw = Made val {| x_class := n; x_args := args; x_kw := kw; x_text := t |}
   <-> Renders kw (s2l m) t).
Proof.
  intros D H. rewrite (make_renders _ _ _ _ _ D H). destruct (message_pieces _ _ H) as [E S]. split.
  - intros R. apply run_becomes in R as (ts & F & ->); auto. exists (pieces_of n), ts. auto.
  - intros R. rewrite <- (format_run [] kw 0) by auto. rewrite <- E. apply renders_run; auto.
Qed.

(** *** A missing keyword *)
Lemma run_missing kw pre n path q post ts : NoDup (map fst kw) ->
  Forall2 (becomes kw) pre ts -> ~ In n (map fst kw) ->
  run kw (pre ++ Slot n path q :: post) = inr (FKey (of_str n)).
Proof.
  intros D F Hn. revert ts F. induction pre as [|p r IH]; intros ts F.
  - simpl. unfold run_slot. rewrite kget_none by auto. reflexivity.
  - inversion F as [|? a ? ts' Ha Hr]; subst. specialize (IH _ Hr).
    destruct p as [s|n' path' q']; cbn [app run].
    + rewrite IH. reflexivity.
    + apply run_slot_becomes in Ha; auto. rewrite Ha. cbn [fbind]. rewrite IH. reflexivity.
Qed.

(** The exception about a missing keyword. *)
Definition complaint (n : string) (missing : str) (names : list str) : eobj val :=
  {| x_class := "KeywordExceptionFormatError"; x_args := [];
     x_kw := [(s2l "typename", of_str (s2l n)); (s2l "missing", of_str missing);
              (s2l "passed", of_str (repr_names names))];
     x_text := s2l n ++ s2l " raised without passing " ++ missing
               ++ s2l "; saw only: " ++ repr_names names |}.

Lemma make_missing n m args kw missing : message n = Some m ->
  run kw (pieces_of n) = inr (FKey (of_str missing)) ->
  make n args kw = Threw val (complaint n missing (map fst kw)).
Proof.
  intros H R. destruct (message_pieces _ _ H) as [E S].
  unfold ExcModel.make. cbn [init]. rewrite H, E, format_run by auto. rewrite R.
  set (kw' := [(s2l "typename", of_str (s2l n)); (s2l "missing", of_str missing);
               (s2l "passed", of_str (repr_names (map fst kw)))]).
  destruct (message "KeywordExceptionFormatError") as [m'|] eqn:M; [|discriminate].
  destruct (message_pieces _ _ M) as [E' S'].
  rewrite E', format_run by auto.
  assert (D : NoDup (map fst kw')).
  { unfold kw'. cbn [map fst]. repeat (apply NoDup_cons; [simpl; intuition discriminate|]).
    apply NoDup_nil. }
  assert (R' : run kw' (pieces_of "KeywordExceptionFormatError")
               = inl (x_text val (complaint n missing (map fst kw)))).
  { apply run_becomes; auto.
    exists [ []; s2l n; s2l " raised without passing "; missing; s2l "; saw only: ";
             repr_names (map fst kw); [] ].
    split.
    - assert (P : pieces_of "KeywordExceptionFormatError"
                  = [Text []; Slot (s2l "typename") [] false; Text (s2l " raised without passing ");
                     Slot (s2l "missing") [] false; Text (s2l "; saw only: ");
                     Slot (s2l "passed") [] false; Text []]) by (vm_compute; reflexivity).
      rewrite P.
      assert (Sl : forall k s, In (k, of_str s) kw' -> becomes kw' (Slot k [] false) s).
      { intros k s Hi. exists (of_str s), (of_str s). split; auto. split; [constructor|]. apply fmt_str. }
      repeat (apply Forall2_cons; [first [reflexivity | apply Sl; unfold kw'; simpl; tauto] |]).
      apply Forall2_nil.
    - cbn [complaint x_text concat app]. rewrite !app_nil_r. reflexivity. }
  rewrite R'. reflexivity.
Qed.

(** *** The places which raise *)
Definition odd_line (s : site) : bool :=
  match s_kw s with
  | _ => (String.eqb (s_class s) "NoneMutable") || (String.eqb (s_class s) "AmbiguousPropertyTraitArg")
         || (String.eqb (s_class s) "VisitorUnpackError")
  end.

Definition slot_ok (s : site) (p : piece) : bool :=
  match p with
  | Text _ => true
  | Slot n path q =>
      existsb (fun k => str_eqb (s2l (fst k)) n &&
                 match path with
                 | [] => true
                 | [a] => negb q && existsb (fun x => str_eqb (s2l x) a) (sort_attrs (snd k))
                 | _ => false
                 end) (s_kw s)
  end.
Fixpoint nodupb (l : list str) : bool :=
  match l with [] => true | x :: t => negb (existsb (str_eqb x) t) && nodupb t end.
Lemma nodupb_ok l : nodupb l = true -> NoDup l.
Proof.
  induction l as [|x t IH]; simpl; intros H; [constructor|].
  apply andb_true_iff in H as [H1 H2]. constructor; auto. intros Hi.
  apply negb_true_iff in H1. assert (existsb (str_eqb x) t = true); [|congruence].
  apply existsb_exists. exists x. split; auto. apply str_eqb_refl.
Qed.
Definition site_ok (s : site) : bool :=
  odd_line s ||
  (match message (s_class s) with Some _ => true | None => false end
   && forallb (slot_ok s) (pieces_of (s_class s))
   && nodupb (map (fun k => s2l (fst k)) (s_kw s))).
Lemma sites_ok : forallb site_ok sites = true.
Proof. vm_compute. reflexivity. Qed.

Lemma in_combine_sorts (l : list (string * sort)) vs k :
  Forall2 (fun k v => of_sort fmt rep attr (snd k) v) l vs -> In k l ->
  exists v, In (s2l (fst k), v) (combine (map (fun k => s2l (fst k)) l) vs)
            /\ of_sort fmt rep attr (snd k) v.
Proof.
  induction 1 as [|x v l vs Hx H IH]; simpl; [tauto|]. intros [->|Hi].
  - exists v. auto.
  - destruct (IH Hi) as (w & Hw & Hs). exists w. auto.
Qed.

Lemma keywords_names (l : list (string * sort)) (vs : list val) :
  length l = length vs ->
  map fst (combine (map (fun k => s2l (fst k)) l) vs) = map (fun k => s2l (fst k)) l.
Proof.
  revert vs; induction l as [|x t IH]; intros [|v vs]; simpl; try discriminate; auto.
  intros H. f_equal. apply IH. lia.
Qed.

Lemma Forall2_len {A B} (P : A -> B -> Prop) l l' : Forall2 P l l' -> length l = length l'.
Proof. induction 1; simpl; auto. Qed.

Lemma Forall2_exists {A B} (P : A -> B -> Prop) l :
  Forall (fun x => exists y, P x y) l -> exists ys, Forall2 P l ys.
Proof.
  induction 1 as [|x t (y & Hy) _ (ys & IH)]; [exists []; auto|]. exists (y :: ys); auto.
Qed.

Lemma site_makes s args vs : In s sites -> odd_line s = false ->
  Forall2 (fun k v => of_sort fmt rep attr (snd k) v) (s_kw s) vs ->
  exists m t, message (s_class s) = Some m /\ Renders (keywords s vs) (s2l m) t
    /\ make (s_class s) args (keywords s vs)
       = Made val {| x_class := s_class s; x_args := args; x_kw := keywords s vs; x_text := t |}.
Proof.
  intros Hs Ho Hv. pose proof sites_ok as O. rewrite forallb_forall in O. specialize (O s Hs).
  unfold site_ok in O. rewrite Ho in O. cbn [orb] in O.
  apply andb_true_iff in O as [O Hn]. apply andb_true_iff in O as [Hm Hp].
  destruct (message (s_class s)) as [m|] eqn:M; [|discriminate].
  assert (Hlen : length (s_kw s) = length vs) by (eapply Forall2_len; eauto).
  assert (D : NoDup (map fst (keywords s vs))).
  { unfold keywords. rewrite keywords_names by auto. apply nodupb_ok; auto. }
  assert (T : exists ts, Forall2 (becomes (keywords s vs)) (pieces_of (s_class s)) ts).
  { apply Forall2_exists. apply Forall_forall. intros p Hi. rewrite forallb_forall in Hp.
    specialize (Hp p Hi). destruct p as [l|n path q]; [exists l; reflexivity|].
    unfold slot_ok in Hp. apply existsb_exists in Hp as (k & Hk & Hp).
    apply andb_true_iff in Hp as [En Hp]. apply str_eqb_eq in En.
    destruct (in_combine_sorts _ _ _ Hv Hk) as (v & Hiv & (tf & Hf) & (tr & Hr) & Ha).
    rewrite En in Hiv.
    destruct path as [|a [|? ?]]; [| |discriminate].
    - exists (if q then tr else tf), v, v. split; auto. split; [constructor|]. destruct q; auto.
    - apply andb_true_iff in Hp as [Hq Hp]. apply negb_true_iff in Hq. subst q.
      apply existsb_exists in Hp as (x & Hx & Ex). apply str_eqb_eq in Ex. subst a.
      rewrite Forall_forall in Ha. destruct (Ha x Hx) as (w & t & Hw & Ht).
      exists t, v, w. split; auto. split; auto. apply R_attr with w; auto. constructor. }
  destruct T as (ts & T). exists m, (concat ts). split; auto.
  assert (Rr : run (keywords s vs) (pieces_of (s_class s)) = inl (concat ts)).
  { apply run_becomes; eauto. }
  split.
  - apply (text_iff (s_class s) m args); auto. apply (make_renders _ _ _ m); auto.
  - apply (make_renders _ _ _ m); auto.
Qed.

Lemma kget_keywords s vs k v : NoDup (map (fun k => s2l (fst k)) (s_kw s)) ->
  length (s_kw s) = length vs -> In (k, v) (keywords s vs) -> kget val k (keywords s vs) = Some v.
Proof.
  intros D L H. apply in_kget; auto. unfold keywords. rewrite keywords_names; auto.
Qed.

Lemma site_names_ok s : In s sites -> odd_line s = false ->
  NoDup (map (fun k => s2l (fst k)) (s_kw s)).
Proof.
  intros Hs Ho. pose proof sites_ok as O. rewrite forallb_forall in O. specialize (O s Hs).
  unfold site_ok in O. rewrite Ho in O. cbn [orb] in O.
  apply andb_true_iff in O as [_ Hn]. apply nodupb_ok; auto.
Qed.

Definition visible (new_python : bool) (s : site) : bool :=
  forallb (fun k => negb (existsb (fun x => str_eqb (s2l (fst k)) (s2l x))
                                  (own_names new_python (s_class s)))) (s_kw s).
Lemma sites_visible_old : forallb (visible false) sites = true.
Proof. vm_compute. reflexivity. Qed.
Lemma sites_visible_new :
  forallb (fun s => visible true s || String.eqb (s_class s) "FieldSelectorAttributeError") sites = true.
Proof. vm_compute. reflexivity. Qed.

Lemma site_attrs np s vs o k v : In s sites -> odd_line s = false ->
  np = false \/ s_class s <> "FieldSelectorAttributeError" ->
  length (s_kw s) = length vs ->
  x_class val o = s_class s -> x_kw val o = keywords s vs ->
  In (k, v) (keywords s vs) -> get_attr val np o k = Kw val v.
Proof.
  intros Hs Ho Hnp Hl Ec Ek Hi. unfold get_attr. rewrite Ec, Ek.
  assert (V : visible np s = true).
  { destruct np.
    - pose proof sites_visible_new as O. rewrite forallb_forall in O. specialize (O s Hs).
      apply orb_true_iff in O as [O|O]; auto. apply String.eqb_eq in O.
      destruct Hnp as [H|H]; [discriminate|contradiction].
    - pose proof sites_visible_old as O. rewrite forallb_forall in O. auto. }
  unfold visible in V. rewrite forallb_forall in V.
  assert (Hk : exists x, In x (s_kw s) /\ s2l (fst x) = k).
  { assert (H : In k (map fst (keywords s vs))) by (apply in_map_iff; exists (k, v); auto).
    unfold keywords in H. rewrite keywords_names in H by auto. apply in_map_iff in H as (x & E & Hx).
    eauto. }
  destruct Hk as (x & Hx & <-). specialize (V x Hx). apply negb_true_iff in V. rewrite V.
  rewrite (kget_keywords s vs _ v); auto. apply site_names_ok; auto.
Qed.

(** *** Copies *)
Fixpoint first_slot (ps : list piece) : option str :=
  match ps with
  | [] => None
  | Text _ :: t => first_slot t
  | Slot n _ _ :: _ => Some n
  end.
Lemma run_nothing ps n : first_slot ps = Some n -> run [] ps = inr (FKey (of_str n)).
Proof.
  induction ps as [|[s|k path q] t IH]; simpl; intros H; [discriminate| |].
  - rewrite IH by auto. reflexivity.
  - injection H as ->. reflexivity.
Qed.
Lemma run_no_slot kw kw' ps : first_slot ps = None -> run kw ps = run kw' ps.
Proof.
  induction ps as [|[s|k path q] t IH]; simpl; intros H; auto; [|discriminate].
  rewrite IH by auto. auto.
Qed.
Lemma run_no_slot_ok kw ps : first_slot ps = None -> exists t, run kw ps = inl t.
Proof.
  induction ps as [|[s|k path q] t IH]; simpl; intros H; [exists []; auto| |discriminate].
  destruct IH as (r & ->); auto. cbn [fbind]. eauto.
Qed.
End Exc.
