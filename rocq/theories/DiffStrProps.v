(** Reports of differences: C52.
    [shows], [framed] and [named] are defined in DiffStrSpec, [covers], [norm] and [clash] in
    MFSProofs, [faithful] in SelProps. *)
From Coq Require Import String List Arith NArith ZArith Bool Lia Permutation.
From Verif Require Import Prelude Regex SelPathModel SelPathProofs FSModel FSProofs SelProps MFSModel MFSProofs MFSText MFSProps
  PySeq ValModel EqModel EqProofs SeqDiffModel SeqDiffProofs FuzzyModel FuzzyProps DiffModel DiffProofs DiffSwap DiffExample DiffProps
  AutoModel DiffStrModel DiffStrSpec DiffStrProofs DiffStrPlace.
Import ListNotations.

(** Every element of every path has a text form that reads back (see C01). *)
Definition readable (uword : char -> bool) (l : list dentry) : Prop :=
  forall t p q e, In (t, p, q) l -> In e p \/ In e q -> faithful uword e.

(** The report has a heading for each kind of entry there is, and no other; the text below a
    heading reads back as a selector of exactly the fields which belong there. *)
Theorem C52_summary : forall uword udigit ord1 ord2 ord3 bt ot l s,
  set_order ord1 -> set_order ord2 -> set_order ord3 -> readable uword l ->
  report uword ord1 ord2 (Some bt) (Some ot) l = Ok s ->
  exists gs, framed bt ot (fmt_N (N.of_nat (length l))) gs s /\ NoDup (map fst gs) /\
    (forall k, In k (map fst gs) <-> exists t p q f, In (t, p, q) l /\ shows t p q k f) /\
    (forall k text, In (k, text) gs -> exists m, mfs_from_path uword udigit ord3 text = Ok m /\
       forall f, contains m f = true <-> exists t p q g, In (t, p, q) l /\ shows t p q k g /\ covers g f).
Proof. exact report_ok. Qed.

(** Printing fails exactly if below some heading there are a wildcard (or the object itself)
    and a name or index at the same level; then with ValueError. *)
Theorem C52_error : forall uword ord1 ord2 bt ot l, set_order ord1 -> set_order ord2 -> readable uword l ->
  let field k f := exists t p q, In (t, p, q) l /\ shows t p q k f in
  let bad := exists k P, (forall f, In f P -> exists g, field k g /\ f = norm g) /\ (forall g, field k g -> In (norm g) P) /\ clash P in
  (bad -> report uword ord1 ord2 (Some bt) (Some ot) l = Err ValueErr) /\
  (~ bad -> exists s, report uword ord1 ord2 (Some bt) (Some ot) l = Ok s).
Proof. exact report_err. Qed.

(** ** The report of a comparison *)

Lemma got_put uword d t p q k x : In x (got k (put uword d (t, p, q))) ->
  In x (got k d) \/ (x = p /\ t <> Added) \/ (x = q /\ t <> Removed).
Proof.
  unfold put. destruct t; rewrite ?got_append; try (intros [H|[_ ->]]; auto; right; [left|right]; split; auto; discriminate).
  - intros [H|[_ ->]]; auto. right. left. split; auto. discriminate.
  - intros [H|[_ ->]]; auto. right. right. split; auto. discriminate.
  - intros [H|[_ ->]]; auto. right. left. split; auto. discriminate.
  - destruct (str_eqb _ _); rewrite !got_append.
    + intros [H|[_ ->]]; auto. right. left. split; auto. discriminate.
    + intros [[H|[_ ->]]|[_ ->]]; auto; right; [left|right]; split; auto; discriminate.
  - auto.
Qed.
Lemma got_collect uword l k x : In x (got k (collect uword l)) ->
  exists t p q, In (t, p, q) l /\ ((x = p /\ t <> Added) \/ (x = q /\ t <> Removed)).
Proof.
  unfold collect. assert (G : forall d, In x (got k (fold_left (put uword) l d)) -> In x (got k d) \/
    exists t p q, In (t, p, q) l /\ ((x = p /\ t <> Added) \/ (x = q /\ t <> Removed))).
  { induction l as [|[[t p] q] l IH]; intros d H; cbn [fold_left] in H; auto.
    apply IH in H as [H|(t'&p'&q'&I&H)].
    - apply got_put in H as [H|H]; auto. right. exists t, p, q. split; [now left|auto].
    - right. exists t', p', q'. split; [now right|auto]. }
  intros H. apply G in H as [[]|H]. exact H.
Qed.

Section Compare.
Context {A C : Type}.
Variable W : classes A C.
Variable ceqb : C -> C -> bool.
Notation val := (val A C).
Variable veqb : val -> val -> bool.
Variable hashable : val -> bool.
Variable repr : val -> str.
Variable a_hash a_falsy : A -> bool.
Variable a_items : A -> res (list (elem * val)).
Variable opt : options.
Variable record_id : rtype C -> option mfs -> val -> res val.
Notation orders := (list elem -> list elem -> dorders (A := A) (C := C)).
Notation diff_iter o := (diff_iter W ceqb veqb hashable repr a_hash a_falsy a_items opt record_id o).

(** The result of any comparison prints, with whatever options, unless some dict has the key
    None. *)
Theorem C52_prints : forall uword ord1 ord2 bt ot (ord : orders) n a b l,
  set_order ord1 -> set_order ord2 -> (forall fa fb, orders_ok (ord fa fb)) ->
  (forall x l, a_items x = Ok l -> forall k v, In (k, v) l -> k <> ENone /\ named v) ->
  (forall c p f o v, In p (props W c) -> p_compare_as p = Some f -> named o -> named v -> named (f o v)) ->
  named a -> named b ->
  diff_iter ord n a b = Ok l ->
  exists s, report uword ord1 ord2 (Some bt) (Some ot) l = Ok s.
Proof.
  intros uword ord1 ord2 bt ot ord n a b l H1 H2 Ho Hi Hc Na Nb H.
  pose proof (diff_inside W ceqb veqb hashable repr a_hash a_falsy a_items opt record_id ord Ho Hi Hc n a b [] [] l Na Nb H) as P.
  assert (T : forall o, set_order o -> exists ys, mapM (group_text uword o) (collect uword l) = Ok ys).
  { intros o Hs. apply mapM_total. intros [k ps] I. unfold group_text. cbn [fst snd].
    destruct (paths_text_err uword o ps Hs) as [_ Y]. destruct Y as (t&->); [|cbn; eauto].
    assert (X : forall f, In f (map norm ps) -> ~ In ENone f).
    { intros f If. apply in_map_iff in If as (g&<-&Ig). destruct (collect_good uword l) as [N _].
      rewrite <- (got_in k ps _ N I) in Ig. apply got_collect in Ig as (t&p&q&Il&Hg). specialize (P _ Il). cbn in P.
      destruct P as (x&y&->&->&Px&Py&Nx&Ny). destruct Hg as [[-> Ht]|[-> Ht]].
      - specialize (Px Ht). destruct x; [congruence|exact Nx].
      - specialize (Py Ht). destruct y; [congruence|exact Ny]. }
    intros (pre&u&x&v&I1&_). apply (X _ I1). apply in_app_iff. right. now left. }
  unfold report. destruct (T ord1 H1) as (y1&->). destruct (T ord2 H2) as (y2&->). cbn. eauto.
Qed.

(** An entry lies strictly below the object compared, where it is said to be; ADDED may name
    the container instead in the base, REMOVED in the other. *)
Theorem C52_below : forall (ord : orders) n a b fa fb l,
  (forall f g, orders_ok (ord f g)) ->
  (forall x l, a_items x = Ok l -> forall k v, In (k, v) l -> k <> ENone /\ named v) ->
  (forall c p f o v, In p (props W c) -> p_compare_as p = Some f -> named o -> named v -> named (f o v)) ->
  named a -> named b ->
  diff W ceqb veqb hashable repr a_hash a_falsy a_items opt record_id ord n a b fa fb = Ok l ->
  forall t p q, In (t, p, q) l -> exists x y, p = fa ++ x /\ q = fb ++ y /\
    (x = [] -> t = Added) /\ (y = [] -> t = Removed) /\ ~ In ENone x /\ ~ In ENone y.
Proof.
  intros ord n a b fa fb l Ho Hi Hc Na Nb H t p q I.
  destruct (diff_inside W ceqb veqb hashable repr a_hash a_falsy a_items opt record_id ord Ho Hi Hc n a b fa fb l Na Nb H _ I) as (x&y&E1&E2&Px&Py&Nx&Ny).
  exists x, y. split; [exact E1|]. split; [exact E2|]. split; [|split; [|split; [exact Nx|exact Ny]]].
  - intros E. destruct t; auto; exfalso; apply Px; auto; discriminate.
  - intros E. destruct t; auto; exfalso; apply Py; auto; discriminate.
Qed.
End Compare.

(** ** One entry *)

(** The text of an entry never fails; if one path extends the other it is the longer one that
    is printed, if neither does both are. *)
Theorem C52_entry_text : forall uword t p q,
  (forall e, In e p \/ In e q -> faithful uword e) ->
  exists info, entry_text uword (t, p, q) = Ok (s2l "<DiffInfo: " ++ dt_display t ++ s2l " " ++ info ++ s2l ">") /\
    (forall u, p = q ++ u -> info = fs_path uword p) /\
    (forall u, q = p ++ u -> info = fs_path uword q) /\
    ((~ exists u, p = q ++ u) -> (~ exists u, q = p ++ u) ->
       info = s2l "(" ++ fs_path uword p ++ s2l "/" ++ fs_path uword q ++ s2l ")").
Proof.
  intros uword t p q F. unfold entry_text. destruct (str_eqb (fs_path uword p) (fs_path uword q)) eqn:E.
  - apply path_inj in E; auto. subst q. eexists. split; [cbn [bind]; reflexivity|]. repeat split; auto.
    intros X. exfalso. apply X. exists []. now rewrite app_nil_r.
  - assert (N : p <> q) by (intros X; apply (proj2 (path_inj uword p q F)) in X; congruence).
    assert (L : forall (a b u : list elem), a <> b -> a = b ++ u -> Nat.ltb (length b) (length a) = true).
    { intros a b u Nab ->. apply Nat.ltb_lt. rewrite app_length. destruct u; [rewrite app_nil_r in Nab; congruence|]. cbn. lia. }
    destruct (Nat.ltb (length q) (length p)) eqn:E1.
    + destruct (ltb_starts p q E1) as [[-> (u&Hu)]|[-> Hn]]; cbn [bind].
      * eexists. split; [reflexivity|]. repeat split; auto.
        -- intros v Hv. pose proof (L q p v (not_eq_sym N) Hv) as X. apply Nat.ltb_lt in X, E1. lia.
        -- intros X. exfalso. eauto.
      * assert (E2 : Nat.ltb (length p) (length q) = false) by (apply Nat.ltb_lt in E1; apply Nat.ltb_ge; lia).
        rewrite E2. cbn [bind]. eexists. split; [reflexivity|]. repeat split; auto.
        -- intros u Hu. exfalso. eauto.
        -- intros u Hu. pose proof (L q p u (not_eq_sym N) Hu). congruence.
    + cbn [bind]. destruct (Nat.ltb (length p) (length q)) eqn:E2.
      * destruct (ltb_starts q p E2) as [[-> (u&Hu)]|[-> Hn]]; cbn [bind].
        -- eexists. split; [reflexivity|]. repeat split; auto.
           ++ intros v Hv. pose proof (L p q v N Hv). congruence.
           ++ intros _ X. exfalso. eauto.
        -- eexists. split; [reflexivity|]. repeat split; auto.
           ++ intros v Hv. pose proof (L p q v N Hv). congruence.
           ++ intros u Hu. exfalso. eauto.
      * cbn [bind]. eexists. split; [reflexivity|]. repeat split; auto.
        -- intros v Hv. pose proof (L p q v N Hv). congruence.
        -- intros v Hv. pose proof (L q p v (not_eq_sym N) Hv). congruence.
Qed.

(** ** JSON *)

(** A JsonDiff read back from its JSON form has the same entries in the same order. *)
Theorem C52_json_round_trip : forall l,
  load_diff (diff_json l) = Ok (map (fun e => (fst (fst e), map Good (snd (fst e)), map Good (snd e))) l).
Proof.
  intros l. unfold load_diff, diff_json. induction l as [|[[t p] q] l IH]; [reflexivity|]. cbn [map mapM].
  assert (X : forall p, coerce_fs (JList (map elem_json p)) = Ok (map Good p)).
  { intros r. cbn [coerce_fs]. replace (map raw_of (map elem_json r)) with (map Good r).
    - destruct (C46_fs_constructor (map Good r)) as [_ Y]. rewrite Y; auto.
      intros H. apply in_map_iff in H as (e&E&_). discriminate.
    - rewrite map_map. apply map_ext. now intros []. }
  assert (Y : load_entry (entry_json (t, p, q)) = Ok (t, map Good p, map Good q)).
  { change (load_entry (entry_json (t, p, q))) with
      (do t <- coerce_diff (JStr (dt_canonical t)); do p <- coerce_fs (JList (map elem_json p));
       do q <- coerce_fs (JList (map elem_json q)); Ok (t, p, q)).
    rewrite !X. destruct t; reflexivity. }
  rewrite Y. cbn [bind]. rewrite IH. reflexivity.
Qed.

(** Different differences have different JSON forms. *)
Theorem C52_json_injective : forall l m, diff_json l = diff_json m -> l = m.
Proof.
  assert (G : forall p q : list elem, map Good p = map Good q -> p = q).
  { induction p as [|x p IH]; intros [|y q] E; try discriminate; auto. cbn in E. inversion E. f_equal. auto. }
  intros l m E. assert (X : load_diff (diff_json l) = load_diff (diff_json m)) by now rewrite E.
  rewrite !C52_json_round_trip in X. inversion X as [Y]. clear X E. revert m Y.
  induction l as [|[[t p] q] l IH]; intros [|[[t' p'] q'] m] Y; try discriminate; auto. cbn [map fst snd] in Y.
  inversion Y as [[Y1 Y2 Y3 Y4]]. apply G in Y2, Y3. subst. f_equal. auto.
Qed.

(** ** Cases *)

Definition rep (l : list dentry) : res str :=
  report no_uword id_ord id_ord (Some (s2l "Order")) (Some (s2l "Order")) l.
Notation S_ s := (EStr (s2l s)).

(** an order with a changed line, one more line and changed tags *)
Example C52_order_case : exists l, diff2 in_order defaults o1 o2 = Ok l /\ length l = 5 /\ readable no_uword l /\
  rep l = Ok (s2l "<Diff [Order]; 5 diff(s): <->OLD(.lines[0].qty); <+>NEW(.lines[1].qty); +NEW((.lines[2]|.tags([1]|[2]))); -OLD(.tags[0])>").
Proof.
  eexists. split; [vm_compute; reflexivity|].
  split; [reflexivity|]. split; [|vm_compute; reflexivity].
  intros t p q e H He. assert (Hs : forall s, s <> [] -> forallb (fun x => negb (N.eqb x 39) && negb (N.eqb x 10)) s = true ->
             faithful no_uword (EStr s)).
  { intros s Hs Ha. rewrite forallb_forall in Ha. split; [exact Hs|]. split.
    - intros [u [v ->]]. assert (Hin : In 39%N (u ++ s2l "']" ++ v)) by (apply in_or_app; right; left; reflexivity).
      apply Ha in Hin. discriminate.
    - intros [i [_ ->]]. assert (Hin : In 10%N (i ++ [10%N])) by (apply in_or_app; right; left; reflexivity).
      apply Ha in Hin. discriminate. }
  assert (Hz : forall z, (0 <= z)%Z -> faithful no_uword (EInt z)) by auto.
  cbn in H. destruct H as [H|[H|[H|[H|[H|[]]]]]]; injection H as <- <- <-; cbn in He;
    repeat match goal with X : _ \/ _ |- _ => destruct X | X : False |- _ => destruct X | X : _ = e |- _ => subst e end;
    (apply Hz; lia) || (apply Hs; [discriminate|vm_compute; reflexivity]).
Qed.

Example C52_named_case : named o1 /\ named o2.
Proof.
  assert (L : forall s n, named (line s n)).
  { intros s n. constructor. intros k v H. cbn in H. destruct H as [H|[H|[]]]; inversion H; constructor. }
  split; constructor; intros k v H; cbn in H.
  - destruct H as [H|[H|[H|[]]]]; inversion H; subst; constructor.
    + intros k v [].
    + intros v [<-|[<-|[]]]; apply L.
    + intros v I. cbn in I. destruct I as [<-|[<-|[]]]; constructor.
  - destruct H as [H|[H|[H|[]]]]; inversion H; subst; constructor.
    + intros k v [].
    + intros v [<-|[<-|[<-|[]]]]; apply L.
    + intros v I. cbn in I. destruct I as [<-|[<-|[<-|[]]]]; constructor.
Qed.

Example C52_entry_cases :
  entry_text no_uword (Removed, [S_ "lines"; EInt 0], [S_ "lines"]) = Ok (s2l "<DiffInfo: REMOVED .lines[0]>") /\
  entry_text no_uword (Added, [S_ "lines"], [S_ "lines"; EInt 3]) = Ok (s2l "<DiffInfo: ADDED .lines[3]>") /\
  entry_text no_uword (Modified, [S_ "lines"; EInt 0; S_ "qty"], [S_ "lines"; EInt 1; S_ "qty"]) =
    Ok (s2l "<DiffInfo: MODIFIED (.lines[0].qty/.lines[1].qty)>").
Proof. repeat split; vm_compute; reflexivity. Qed.

Example C52_json_case :
  diff_json [(Removed, [S_ "lines"; EInt 0], [S_ "lines"])] =
    JList [JObj [(s2l "diff_type", JStr (s2l "removed")); (s2l "base", JList [JStr (s2l "lines"); JInt 0]);
                 (s2l "other", JList [JStr (s2l "lines")])]].
Proof. reflexivity. Qed.

Definition moves : options := mkOptions (fun s => s) false true false false false false None true false.

(** MOVED entries are counted and not shown: which item has moved makes no difference. *)
Theorem C52_moved_refuted : exists l l' s,
  rep l = Ok s /\ rep l' = Ok s /\ l <> [] /\ (forall e, In e l -> ~ In e l') /\
  exists a b c d, diff2 in_order moves a b = Ok l /\ diff2 in_order moves c d = Ok l'.
Proof.
  exists [(Moved, [EInt 0], [EInt 1]); (Moved, [EInt 1], [EInt 0])].
  exists [(Moved, [EInt 1], [EInt 2]); (Moved, [EInt 2], [EInt 1])]. eexists.
  split; [vm_compute; reflexivity|]. split; [vm_compute; reflexivity|]. split; [discriminate|]. split.
  - intros e [<-|[<-|[]]] [H|[H|[]]]; discriminate.
  - exists (VLC 1 [] [line "pen" 2; line "ink" 1]), (VLC 1 [] [line "ink" 1; line "pen" 2]).
    exists (VLC 1 [] [line "cap" 3; line "pen" 2; line "ink" 1]), (VLC 1 [] [line "cap" 3; line "ink" 1; line "pen" 2]).
    split; vm_compute; reflexivity.
Qed.

(** With the option [unchanged], an item's own entry hides the entries for its fields. *)
Theorem C52_hidden_refuted : exists l l' s, rep l = Ok s /\ rep l' = Ok s /\
  exists e, In e l /\ ~ In e l' /\ fst (fst e) <> Moved.
Proof.
  exists [(NoChange, [EInt 0], [EInt 0]); (NoChange, [EInt 0; S_ "sku"], [EInt 0; S_ "sku"])].
  exists [(NoChange, [EInt 0], [EInt 0]); (NoChange, [EInt 0; S_ "qty"], [EInt 0; S_ "qty"])].
  eexists. split; [vm_compute; reflexivity|]. split; [vm_compute; reflexivity|].
  exists (NoChange, [EInt 0; S_ "sku"], [EInt 0; S_ "sku"]). split; [cbn; auto|]. split; [|discriminate].
  cbn. intros [H|[H|[]]]; discriminate.
Qed.

(** Two dicts with the key None: the comparison succeeds, its report does not. *)
Theorem C52_none_key_refuted : exists a b l, diff2 in_order defaults a b = Ok l /\ rep l = Err ValueErr.
Proof.
  exists (VMap []), (VMap [(ENone, t "x"); (S_ "k", t "y")]). eexists. split; vm_compute; reflexivity.
Qed.

(** A JsonDiff read back from JSON has no type names, and does not print. *)
Theorem C52_reloaded_refuted : exists l s, rep l = Ok s /\
  (exists l', load_diff (diff_json l) = Ok l') /\ report no_uword id_ord id_ord None None l = Err AttrErr.
Proof.
  exists [], (s2l "<Diff [Order]; 0 diff(s)>"). split; [vm_compute; reflexivity|]. split; [eexists; reflexivity|reflexivity].
Qed.

(** A path given as text is taken apart into characters; null and 0 are taken as the object
    itself. *)
Lemma path_text (p : str) :
  load_entry (JObj [(s2l "diff_type", JInt 4); (s2l "base", JStr p); (s2l "other", JNull)]) =
    Ok (Modified, map (fun c => Good (EStr [c])) p, []).
Proof.
  change (load_entry (JObj [(s2l "diff_type", JInt 4); (s2l "base", JStr p); (s2l "other", JNull)])) with
    (do p <- coerce_fs (JStr p); Ok (Modified, p, @nil raw)).
  cbn [coerce_fs]. destruct (C46_fs_constructor (map (fun c => Good (EStr [c])) p)) as [_ Y]. rewrite Y; auto.
  intros H. apply in_map_iff in H as (e&E&_). discriminate.
Qed.
Theorem C52_path_text_refuted : exists p, p = fs_path no_uword [S_ "a"] /\
  load_entry (JObj [(s2l "diff_type", JInt 4); (s2l "base", JStr p); (s2l "other", JNull)]) =
    Ok (Modified, [Good (S_ "."); Good (S_ "a")], []).
Proof. exists (s2l ".a"). split; vm_compute; reflexivity. Qed.

Print Assumptions C52_summary.
Print Assumptions C52_error.
Print Assumptions C52_prints.
Print Assumptions C52_below.
Print Assumptions C52_entry_text.
Print Assumptions C52_json_round_trip.
Print Assumptions C52_json_injective.
Print Assumptions C52_moved_refuted.
Print Assumptions C52_hidden_refuted.
Print Assumptions C52_none_key_refuted.
Print Assumptions C52_reloaded_refuted.
Print Assumptions C52_path_text_refuted.
