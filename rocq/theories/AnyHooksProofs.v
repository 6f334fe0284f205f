(** Proofs for C72. *)
From Coq Require Import List Bool Arith Permutation.
From Verif Require Import Prelude SelPathModel MFSModel AnyHooksModel AnyHooksSpec.
Import ListNotations.

Definition rmap {X Y} (f : X -> Y) (m : run X) : run Y := (fst m, res_map f (snd m)).

Lemma rmap_andthen {X Y Z} (g : Y -> Z) (m : run X) (k : X -> run Y) : rmap g (andthen m k) = andthen m (fun x => rmap g (k x)).
Proof. destruct m as [l [x|e]]; reflexivity. Qed.
Lemma andthen_rmap {X Y Z} (g : X -> Y) (m : run X) (k : Y -> run Z) : andthen (rmap g m) k = andthen m (fun x => k (g x)).
Proof. destruct m as [l [x|e]]; reflexivity. Qed.
Lemma andthen_ext {X Y} (m : run X) (k k' : X -> run Y) : (forall x, k x = k' x) -> andthen m k = andthen m k'.
Proof. intros H. destruct m as [l [x|e]]; cbn; unfold andthen; cbn; [now rewrite H|reflexivity]. Qed.
Lemma rmap_also {X Y} (g : X -> Y) l (m : run X) : rmap g (also l m) = also l (rmap g m).
Proof. reflexivity. Qed.
Lemma rmap_logged {X Y} (g : X -> Y) c r : rmap g (logged c r) = logged c (res_map g r).
Proof. reflexivity. Qed.
Lemma andthen_logged {X Y} c (x : X) (k : X -> run Y) : andthen (logged c (Ok x)) k = also [c] (k x).
Proof. reflexivity. Qed.
Lemma also_nil {X} (m : run X) : also [] m = m.
Proof. destruct m; reflexivity. Qed.

Lemma andthen_ok {X Y} (m : run X) (k : X -> run Y) y : snd (andthen m k) = Ok y ->
  exists x, snd m = Ok x /\ snd (k x) = Ok y /\ fst (andthen m k) = fst m ++ fst (k x).
Proof. destruct m as [l [x|e]]; unfold andthen; cbn; [eauto|discriminate]. Qed.

Section Types.
Context {V T P : Type}.
Variable record_type : T -> bool.
Variable properties : T -> list P.
Variable itemtype : T -> T.
Variable p_name : P -> str.
Variable p_extraneous : P -> bool.
Variable p_type : P -> option (T + list T).
Variable type_of : V -> T.
Variable instance : V -> T -> bool.
Variable type_error : exn -> bool.
Variable prop_error : list elem -> P -> exn -> exn.
Variable o : wopts.

Section Fusion.
Context {R R' : Type}.
Variable r_none : R.
Variable is_none is_empty truth : R -> bool.
Variable r_none' : R'.
Variable is_none' is_empty' truth' : R' -> bool.
Variable f : R -> R'.
Hypothesis F_none : f r_none = r_none'.
Hypothesis F_is_none : forall r, is_none' (f r) = is_none r.
Hypothesis F_is_empty : forall r, is_empty' (f r) = is_empty r.
Hypothesis F_truth : forall r, truth' (f r) = truth r.
Variable h : hooks V T P R.
Variable h' : hooks V T P R'.
Hypothesis H : hooks_map f h h'.
Notation pf := (fun kr => (fst kr, f (snd kr))).
Notation mv := (map_value record_type properties itemtype p_name p_extraneous p_type type_of instance r_none is_none is_empty truth type_error prop_error o h).
Notation mv' := (map_value record_type properties itemtype p_name p_extraneous p_type type_of instance r_none' is_none' is_empty' truth' type_error prop_error o h').

Lemma dropped_map r : dropped is_none' is_empty' o (f r) = dropped is_none is_empty o r.
Proof. unfold dropped. now rewrite F_is_none, F_is_empty. Qed.

Section Rec.
Variable rec : list elem -> V -> T -> run R.
Variable rec' : list elem -> V -> T -> run R'.
Hypothesis REC : forall cue v t, rec' cue v t = rmap f (rec cue v t).

Lemma try_map cue v ts : forall r, try_types truth' type_error rec' cue v ts (f r) = rmap f (try_types truth type_error rec cue v ts r).
Proof.
  induction ts as [|t ts IH]; intros r; cbn [try_types]; [reflexivity|]. rewrite REC. destruct (rec cue v t) as [l [x|e]] eqn:E; cbn.
  - rewrite F_truth. destruct (truth x); [reflexivity|]. rewrite IH. reflexivity.
  - destruct (type_error e); [|reflexivity]. rewrite IH. reflexivity.
Qed.
Lemma apply_map c cue v p : logged c (h_apply h' cue v p) = rmap f (logged c (h_apply h cue v p)).
Proof. rewrite rmap_logged, (hm_apply _ _ _ H). reflexivity. Qed.
Lemma union_map cue v ts p : map_union record_type instance r_none' truth' type_error h' rec' cue v ts p =
  rmap f (map_union record_type instance r_none truth type_error h rec cue v ts p).
Proof.
  unfold map_union. rewrite <- F_none. destruct (filter (instance v) _) as [|m ms]; [|apply try_map].
  rewrite try_map, andthen_rmap, rmap_andthen. apply andthen_ext. intros r. rewrite F_truth. destruct (truth r); [reflexivity|apply apply_map].
Qed.
Lemma prop_map cue v p : map_prop record_type p_type type_of instance r_none' truth' type_error h' rec' cue v p =
  rmap f (map_prop record_type p_type type_of instance r_none truth type_error h rec cue v p).
Proof.
  unfold map_prop. destruct (p_type p) as [[t|ts]|]; [|apply union_map|]; (destruct (record_type _); [apply REC|apply apply_map]).
Qed.
Lemma record_map cue get ps :
  map_record record_type p_name p_extraneous p_type type_of instance r_none' is_none' is_empty' truth' type_error prop_error o h' rec' cue get ps =
  rmap (map pf) (map_record record_type p_name p_extraneous p_type type_of instance r_none is_none is_empty truth type_error prop_error o h rec cue get ps).
Proof.
  induction ps as [|p ps IH]; cbn [map_record]; [reflexivity|]. destruct (left_out _ _ _ _ _); [exact IH|].
  assert (VS : forall v, andthen (map_prop record_type p_type type_of instance r_none' truth' type_error h' rec' (cue ++ [EStr (p_name p)]) v p)
      (fun r => andthen (map_record record_type p_name p_extraneous p_type type_of instance r_none' is_none' is_empty' truth' type_error prop_error o h' rec' cue get ps)
      (fun l => ret (if dropped is_none' is_empty' o r then l else (p, r) :: l))) =
    rmap (map pf) (andthen (map_prop record_type p_type type_of instance r_none truth type_error h rec (cue ++ [EStr (p_name p)]) v p)
      (fun r => andthen (map_record record_type p_name p_extraneous p_type type_of instance r_none is_none is_empty truth type_error prop_error o h rec cue get ps)
      (fun l => ret (if dropped is_none is_empty o r then l else (p, r) :: l))))).
  { intros v. rewrite prop_map, andthen_rmap, rmap_andthen. apply andthen_ext. intros r. rewrite IH, andthen_rmap, rmap_andthen.
    apply andthen_ext. intros l. rewrite dropped_map. destruct (dropped _ _ _ _); reflexivity. }
  destruct (get p); [apply VS| |reflexivity]. destruct (w_empty_slots o); [apply VS|exact IH].
Qed.
Lemma collection_map cue t l e : map_collection is_none' is_empty' o rec' cue t l e = rmap (map pf) (map_collection is_none is_empty o rec cue t l e).
Proof.
  induction l as [|[k v] l IH]; cbn [map_collection]; [destruct e; reflexivity|].
  rewrite REC, andthen_rmap, rmap_andthen. apply andthen_ext. intros r. rewrite IH, andthen_rmap, rmap_andthen. apply andthen_ext. intros rs.
  rewrite dropped_map. destruct (dropped _ _ _ _); reflexivity.
Qed.
End Rec.

Lemma fusion n : forall cue v t, mv' n cue v t = rmap f (mv n cue v t).
Proof.
  induction n as [|n IH]; intros cue v t; cbn [map_value]; [reflexivity|].
  rewrite (hm_unpack _ _ _ H). change (logged (Unpack cue) (res_map (unpacked_map f) (h_unpack h cue v t)))
    with (rmap (unpacked_map f) (logged (Unpack cue) (h_unpack h cue v t))).
  rewrite andthen_rmap, rmap_andthen. apply andthen_ext. intros [r|g c]; cbn [unpacked_map]; [reflexivity|].
  rewrite rmap_andthen.
  set (M := match c with Some (l, e) => _ | None => _ end). set (M' := match c with Some (l, e) => _ | None => _ end).
  assert (E : M = rmap f M').
  { unfold M, M'. destruct c as [[l e]|]; [|cbn; unfold rmap, ret; cbn; now rewrite F_none].
    rewrite (collection_map _ _ IH), andthen_rmap, rmap_andthen. apply andthen_ext. intros ms. rewrite rmap_logged. f_equal. apply (hm_collect _ _ _ H). }
  rewrite E, andthen_rmap. clear E M. apply andthen_ext. intros mc.
  destruct g as [g|].
  - rewrite (record_map _ _ IH), andthen_rmap, rmap_andthen. apply andthen_ext. intros ps. rewrite rmap_logged. f_equal.
    exact (hm_reduce _ _ _ H cue (Some ps) mc t).
  - rewrite F_is_none. destruct (is_none mc); [apply apply_map|]. rewrite rmap_logged. f_equal. exact (hm_reduce _ _ _ H cue None mc t).
Qed.
End Fusion.

Section One.
Context {R : Type}.
Variable r_none : R.
Variable is_none is_empty truth : R -> bool.

Section Unread.
Variable h h' : hooks V T P R.
Hypothesis S : same_but_hidden properties (left_out p_name p_extraneous o) h h'.
Notation mv h := (map_value record_type properties itemtype p_name p_extraneous p_type type_of instance r_none is_none is_empty truth type_error prop_error o h).

Section Rec.
Variable rec rec' : list elem -> V -> T -> run R.
Hypothesis REC : forall cue v t, rec' cue v t = rec cue v t.
Lemma try_same cue v ts : forall r, try_types truth type_error rec' cue v ts r = try_types truth type_error rec cue v ts r.
Proof. induction ts as [|t ts IH]; intros r; cbn [try_types]; [reflexivity|]. rewrite REC. destruct (snd _); rewrite !IH; reflexivity. Qed.
Lemma prop_same cue v p : map_prop record_type p_type type_of instance r_none truth type_error h' rec' cue v p =
  map_prop record_type p_type type_of instance r_none truth type_error h rec cue v p.
Proof.
  unfold map_prop, map_union. destruct (p_type p) as [[t|ts]|]; rewrite ?(sh_apply _ _ _ _ S), ?REC; try reflexivity.
  destruct (filter (instance v) (filter record_type ts)); [|apply try_same]. rewrite try_same. reflexivity.
Qed.
Lemma record_same cue get get' ps : (forall q, In q ps -> left_out p_name p_extraneous o cue q = false -> get q = get' q) ->
  map_record record_type p_name p_extraneous p_type type_of instance r_none is_none is_empty truth type_error prop_error o h' rec' cue get' ps =
  map_record record_type p_name p_extraneous p_type type_of instance r_none is_none is_empty truth type_error prop_error o h rec cue get ps.
Proof.
  induction ps as [|p ps IH]; intros G; cbn [map_record]; [reflexivity|]. rewrite IH by (intros q I; apply G; now right).
  destruct (left_out _ _ _ cue p) eqn:L; [reflexivity|]. rewrite <- (G p (or_introl eq_refl) L). destruct (get p); rewrite ?prop_same; reflexivity.
Qed.
Lemma collection_same cue t l e : map_collection is_none is_empty o rec' cue t l e = map_collection is_none is_empty o rec cue t l e.
Proof. induction l as [|[k v] l IH]; cbn [map_collection]; [reflexivity|]. now rewrite REC, IH. Qed.
End Rec.

Lemma unread n : forall cue v t, mv h' n cue v t = mv h n cue v t.
Proof.
  induction n as [|n IH]; intros cue v t; cbn [map_value]; [reflexivity|].
  pose proof (sh_unpack _ _ _ _ S cue v t) as U. destruct (h_unpack h cue v t) as [u|e], (h_unpack h' cue v t) as [u'|e']; try contradiction; [|now subst].
  rewrite !andthen_logged. f_equal.
  destruct u as [r|g c], u' as [r'|g' c']; cbn [same_parts] in U; try contradiction; [now subst|]. destruct U as [<- U].
  replace (match c with Some (l, e) => ms <~ map_collection is_none is_empty o (mv h' n) cue (itemtype t) l e ;; logged (Collect cue) (h_collect h' cue ms t) | None => ret r_none end)
    with (match c with Some (l, e) => ms <~ map_collection is_none is_empty o (mv h n) cue (itemtype t) l e ;; logged (Collect cue) (h_collect h cue ms t) | None => ret r_none end).
  2: { destruct c as [[l e]|]; [|reflexivity]. rewrite (collection_same _ _ IH). apply andthen_ext. intros ms. now rewrite (sh_collect _ _ _ _ S). }
  apply andthen_ext. intros mc. destruct g as [g|], g' as [g'|]; try contradiction.
  - rewrite (record_same _ _ IH cue g g' (properties t) U). apply andthen_ext. intros ps. now rewrite (sh_reduce _ _ _ _ S).
  - now rewrite (sh_reduce _ _ _ _ S), (sh_apply _ _ _ _ S).
Qed.
End Unread.

Section Calls.
Variable h : hooks V T P R.
Hypothesis one_type : forall p ts, p_type p <> Some (inr ts).
Notation mv := (map_value record_type properties itemtype p_name p_extraneous p_type type_of instance r_none is_none is_empty truth type_error prop_error o h).
Notation part := (fun p l => exists k, visited (p ++ [k]) l \/ l = [Apply (p ++ [k]) true]).

Section Rec.
Variable rec : list elem -> V -> T -> run R.
Hypothesis REC : forall cue v t r, snd (rec cue v t) = Ok r -> visited cue (fst (rec cue v t)).
Lemma prop_calls cue v p r : snd (map_prop record_type p_type type_of instance r_none truth type_error h rec cue v p) = Ok r ->
  visited cue (fst (map_prop record_type p_type type_of instance r_none truth type_error h rec cue v p)) \/
  fst (map_prop record_type p_type type_of instance r_none truth type_error h rec cue v p) = [Apply cue true].
Proof.
  unfold map_prop. intros E. destruct (p_type p) as [[t|ts]|] eqn:TP; [|exfalso; eapply one_type; eauto|];
    (destruct (record_type _); [left; eapply REC, E|right; reflexivity]).
Qed.
Lemma record_calls cue get ps l :
  snd (map_record record_type p_name p_extraneous p_type type_of instance r_none is_none is_empty truth type_error prop_error o h rec cue get ps) = Ok l ->
  exists ls, fst (map_record record_type p_name p_extraneous p_type type_of instance r_none is_none is_empty truth type_error prop_error o h rec cue get ps) = concat ls /\
    Forall (part cue) ls.
Proof.
  revert l. induction ps as [|p ps IH]; intros l E; cbn [map_record] in *; [exists []; auto|].
  destruct (left_out _ _ _ cue p); [eauto|].
  assert (VS : forall v, snd (r <~ map_prop record_type p_type type_of instance r_none truth type_error h rec (cue ++ [EStr (p_name p)]) v p ;;
      l <~ map_record record_type p_name p_extraneous p_type type_of instance r_none is_none is_empty truth type_error prop_error o h rec cue get ps ;;
      ret (if dropped is_none is_empty o r then l else (p, r) :: l)) = Ok l ->
    exists ls, fst (r <~ map_prop record_type p_type type_of instance r_none truth type_error h rec (cue ++ [EStr (p_name p)]) v p ;;
      l <~ map_record record_type p_name p_extraneous p_type type_of instance r_none is_none is_empty truth type_error prop_error o h rec cue get ps ;;
      ret (if dropped is_none is_empty o r then l else (p, r) :: l)) = concat ls /\ Forall (part cue) ls).
  { intros v Q. apply andthen_ok in Q as (r & E1 & Q & ->). apply andthen_ok in Q as (l' & E2 & _ & ->).
    destruct (IH _ E2) as (ls & -> & F). destruct (prop_calls _ _ _ _ E1) as [G|G].
    - exists (fst (map_prop record_type p_type type_of instance r_none truth type_error h rec (cue ++ [EStr (p_name p)]) v p) :: ls).
      cbn [ret fst concat]. rewrite app_nil_r. split; [reflexivity|]. constructor; eauto.
    - rewrite G. exists ([Apply (cue ++ [EStr (p_name p)]) true] :: ls). cbn [ret fst concat]. rewrite app_nil_r. split; [reflexivity|]. constructor; eauto. }
  destruct (get p); [now apply VS| |discriminate]. destruct (w_empty_slots o); [now apply VS|eauto].
Qed.
Lemma collection_calls cue t its e l : snd (map_collection is_none is_empty o rec cue t its e) = Ok l ->
  exists ls, fst (map_collection is_none is_empty o rec cue t its e) = concat ls /\ Forall (fun l => exists k, visited (cue ++ [k]) l) ls.
Proof.
  revert l. induction its as [|[k v] its IH]; intros l E; cbn [map_collection] in *; [destruct e; [discriminate|exists []; auto]|].
  apply andthen_ok in E as (r & E1 & E & ->). apply andthen_ok in E as (rs & E2 & _ & ->). destruct (IH _ E2) as (ls & -> & F).
  exists (fst (rec (cue ++ [k]) v t) :: ls). cbn [ret fst concat]. rewrite app_nil_r. split; [reflexivity|]. constructor; eauto.
Qed.
End Rec.

Lemma calls n : forall cue v t r, snd (mv n cue v t) = Ok r -> visited cue (fst (mv n cue v t)).
Proof.
  induction n as [|n IH]; intros cue v t r E; cbn [map_value] in *; [discriminate|].
  apply andthen_ok in E as (u & _ & E & ->). change (fst (logged (Unpack cue) (h_unpack h cue v t))) with [Unpack cue]. destruct u as [x|g c].
  { cbn [logged fst snd] in *. apply visit_stop. }
  apply andthen_ok in E as (mc & E1 & E & ->).
  match type of E1 with snd ?m = _ => assert (C : exists items mid, fst m = concat items ++ mid /\
     Forall (fun l => exists k, visited (cue ++ [k]) l) items /\ (mid = [Collect cue] \/ mid = [] /\ items = [])) end.
  { destruct c as [[l e]|]; [|exists [], []; cbn; auto]. apply andthen_ok in E1 as (ms & E1 & _ & ->).
    destruct (collection_calls _ IH _ _ _ _ _ E1) as (ls & -> & F). exists ls, [Collect cue]. auto. }
  destruct C as (items & mid & -> & FI & M). destruct g as [g|].
  - apply andthen_ok in E as (ps & E2 & _ & ->). destruct (record_calls _ IH _ _ _ _ E2) as (ls & -> & F). cbn [logged fst app].
    rewrite <- app_assoc. apply visit_value; auto.
  - destruct (is_none mc); cbn [logged fst app].
    + rewrite <- app_assoc. change (mid ++ [Apply cue false]) with (mid ++ concat [] ++ [Apply cue false]). apply visit_value; auto.
    + rewrite <- app_assoc. change (mid ++ [Reduce cue]) with (mid ++ concat [] ++ [Reduce cue]). apply visit_value; auto.
Qed.
End Calls.

Section Errs.
Variable h : hooks V T P R.
Notation mv := (map_value record_type properties itemtype p_name p_extraneous p_type type_of instance r_none is_none is_empty truth type_error prop_error o h).
Notation bad e := (e = RecursionErr \/ raised properties prop_error h e).

Lemma andthen_err {X Y} (m : run X) (k : X -> run Y) e : snd (andthen m k) = Err e ->
  snd m = Err e \/ exists x, snd m = Ok x /\ snd (k x) = Err e.
Proof. destruct m as [l [x|e']]; unfold andthen; cbn; [right; eauto|left; congruence]. Qed.

Section Rec.
Variable rec : list elem -> V -> T -> run R.
Hypothesis REC : forall cue v t e, snd (rec cue v t) = Err e -> bad e.
Lemma try_err cue v ts : forall r e, snd (try_types truth type_error rec cue v ts r) = Err e -> bad e.
Proof.
  induction ts as [|t ts IH]; intros r e E; cbn [try_types] in E; [discriminate|].
  destruct (snd (rec cue v t)) as [x|e'] eqn:Q.
  - destruct (truth x); [congruence|]. exact (IH _ _ E).
  - destruct (type_error e'); [exact (IH _ _ E)|]. eapply REC, E.
Qed.
Lemma prop_err cue v p e : snd (map_prop record_type p_type type_of instance r_none truth type_error h rec cue v p) = Err e -> bad e.
Proof.
  unfold map_prop, map_union. destruct (p_type p) as [[t|ts]|]; intros E.
  - destruct (record_type t); [eapply REC, E|right; eapply by_apply, E].
  - destruct (filter (instance v) (filter record_type ts)); [|eapply try_err, E].
    apply andthen_err in E as [E|(r & _ & E)]; [eapply try_err, E|]. destruct (truth r); [discriminate|right; eapply by_apply, E].
  - destruct (record_type (type_of v)); [eapply REC, E|right; eapply by_apply, E].
Qed.
Lemma record_err cue get ps e :
  (forall q e', In q ps -> get q = Raised e' -> bad (prop_error cue q e')) ->
  snd (map_record record_type p_name p_extraneous p_type type_of instance r_none is_none is_empty truth type_error prop_error o h rec cue get ps) = Err e -> bad e.
Proof.
  induction ps as [|p ps IH]; intros G E; cbn [map_record] in E; [discriminate|].
  specialize (IH (fun q e' I => G q e' (or_intror I))).
  destruct (left_out _ _ _ cue p); [auto|].
  assert (VS : forall v, snd (r <~ map_prop record_type p_type type_of instance r_none truth type_error h rec (cue ++ [EStr (p_name p)]) v p ;;
      l <~ map_record record_type p_name p_extraneous p_type type_of instance r_none is_none is_empty truth type_error prop_error o h rec cue get ps ;;
      ret (if dropped is_none is_empty o r then l else (p, r) :: l)) = Err e -> bad e).
  { intros v Q. apply andthen_err in Q as [Q|(r & _ & Q)]; [eapply prop_err, Q|]. apply andthen_err in Q as [Q|(l & _ & Q)]; [auto|discriminate]. }
  destruct (get p) as [v|x|e'] eqn:GP; [now apply (VS v)| |].
  - destruct (w_empty_slots o); [now apply (VS x)|auto].
  - injection E as <-. apply G; auto. now left.
Qed.
Lemma collection_err cue t its stop e : (forall e', stop = Some e' -> bad e') ->
  snd (map_collection is_none is_empty o rec cue t its stop) = Err e -> bad e.
Proof.
  intros G. induction its as [|[k v] its IH]; intros E; cbn [map_collection] in E.
  - destruct stop as [e'|]; [injection E as <-; auto|discriminate].
  - apply andthen_err in E as [E|(r & _ & E)]; [eapply REC, E|]. apply andthen_err in E as [E|(rs & _ & E)]; [auto|discriminate].
Qed.
End Rec.

Lemma errors n : forall cue v t e, snd (mv n cue v t) = Err e -> bad e.
Proof.
  induction n as [|n IH]; intros cue v t e E; cbn [map_value] in E; [left; cbn in E; congruence|].
  apply andthen_err in E as [E|(u & U & E)]; [right; eapply by_unpack, E|]. destruct u as [r|g c]; [discriminate|]. cbn [logged snd] in U.
  apply andthen_err in E as [E|(mc & _ & E)].
  { destruct c as [[l stop]|]; [|discriminate]. apply andthen_err in E as [E|(ms & _ & E)]; [|right; eapply by_collect, E].
    eapply (collection_err _ IH); [|exact E]. intros e' ->. right. eapply by_items, U. }
  destruct g as [g|].
  - apply andthen_err in E as [E|(ps & _ & E)]; [|right; eapply by_reduce, E].
    eapply (record_err _ IH); [|exact E]. intros q e' I Q. right. eapply by_attribute; eauto.
  - destruct (is_none mc); [right; eapply by_apply, E|right; eapply by_reduce, E].
Qed.
End Errs.
End One.
End Types.

(** ** Each value is finished where it was unpacked *)
Lemma once : forall p l, visited p l -> Permutation (flat_map unpacked_at l) (flat_map finished_at l).
Proof.
  fix F 3. intros p l H. destruct H as [p|p items props last FI FP L mid M]; [reflexivity|].
  assert (GI : Permutation (flat_map unpacked_at (concat items)) (flat_map finished_at (concat items))).
  { clear L M. induction FI as [|l ls (k & V) FI IH]; cbn [concat]; [reflexivity|]. rewrite !flat_map_app. apply Permutation_app; [exact (F _ _ V)|exact IH]. }
  assert (GP : Permutation (flat_map unpacked_at (concat props)) (flat_map finished_at (concat props))).
  { clear L M. induction FP as [|l ls (k & [V|E]) FP IH]; cbn [concat]; [reflexivity| |]; rewrite !flat_map_app; apply Permutation_app; try exact IH; [exact (F _ _ V)|].
    rewrite E. reflexivity. }
  assert (GM : flat_map unpacked_at mid = [] /\ flat_map finished_at mid = []) by (destruct M as [->|[-> _]]; split; reflexivity). destruct GM as [GM1 GM2].
  assert (GL : flat_map unpacked_at [last] = [] /\ flat_map finished_at [last] = [p]) by (destruct L as [[-> _]| ->]; split; reflexivity). destruct GL as [GL1 GL2].
  change (Unpack p :: concat items ++ mid ++ concat props ++ [last]) with ([Unpack p] ++ concat items ++ mid ++ concat props ++ [last]).
  rewrite !flat_map_app, GM1, GM2, GL1, GL2. cbn [flat_map unpacked_at finished_at app]. rewrite !app_nil_r.
  rewrite app_assoc, <- Permutation_cons_append. constructor. now apply Permutation_app.
Qed.
