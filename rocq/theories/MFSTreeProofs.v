(** Lemmas on multi field selectors applied to objects. *)
From Coq Require Import List Arith NArith ZArith Bool Lia.
From Verif Require Import Prelude SelPathModel FSModel FSProofs PySeq CollProofs MFSModel MFSProofs TreeModel TreeProofs MFSTreeModel.
Import ListNotations.

(** ** Selectors *)

Lemma contains_cons m x t : wf m -> contains m (x :: t) =
  match hget (if has_none m then ENone else x) (heads m) with
  | None => false
  | Some None => true
  | Some (Some m') => contains m' t
  end.
Proof.
  intros W. cbn [contains]. destruct (hget _ (heads m)) as [o|] eqn:E; auto.
  unfold getitem. destruct (complete m) eqn:Ec.
  - rewrite contains_complete by auto. unfold complete in Ec.
    destruct (hget ENone (heads m)) as [[m'|]|] eqn:E2; try discriminate.
    assert (has_none m = true) as Hn. { apply has_none_spec. apply hget_in in E2. apply in_map_iff. eexists. split; [|exact E2]. reflexivity. }
    rewrite Hn, E2 in E. inversion E; subst. reflexivity.
  - rewrite E. destruct o as [m'|]; auto. now apply contains_complete.
Qed.

Lemma complete_heads m : wf m -> complete m = true -> heads m = [(ENone, None)].
Proof.
  intros W Hc. unfold complete in Hc. destruct (hget ENone (heads m)) as [[m'|]|] eqn:E; try discriminate.
  apply hget_in in E. assert (Hn : has_none m = true).
  { apply has_none_spec. apply in_map_iff. eexists. split; [|exact E]. reflexivity. }
  destruct (wf_has_none m W Hn) as [o Ho]. rewrite Ho in *. destruct E as [E|[]]. congruence.
Qed.

Lemma has_none_false_hget m : has_none m = false -> hget ENone (heads m) = None.
Proof.
  intros H. destruct (hget ENone (heads m)) eqn:E; auto. apply hget_in in E.
  assert (has_none m = true); [|congruence]. apply has_none_spec. apply in_map_iff.
  eexists. split; [|exact E]. reflexivity.
Qed.

Lemma wf_sub hs h m : wf (Node hs) -> In (h, Some m) hs -> wf m /\ heads m <> [].
Proof. intros W H. apply wf_node in W as (_&_&W). destruct (W h m H). auto. Qed.

Lemma iter_sub hs h m p : In (h, Some m) hs -> In p (MFSModel.iter m) -> In (h :: p) (MFSModel.iter (Node hs)).
Proof.
  intros H Hp. cbn [MFSModel.iter]. apply in_flat_map. exists (h, Some m). split; auto.
  simpl. now apply in_map.
Qed.

Lemma iter_leaf hs h : In (h, None) hs -> In [h] (MFSModel.iter (Node hs)).
Proof. intros H. cbn [MFSModel.iter]. apply in_flat_map. exists (h, None). split; simpl; auto. Qed.

Lemma iter_inhabited m : wf m -> heads m <> [] -> exists p, In p (MFSModel.iter m).
Proof.
  intros W N. destruct (wf_inhabited m W N) as [q Hq].
  apply (proj1 (iter_contains m W q)) in Hq as (p&Hp&_). eauto.
Qed.

(** the elements of the selected paths *)
Definition mentions (m : mfs) (e : elem) : Prop := exists p, In p (MFSModel.iter m) /\ In e p.

Lemma mentions_head hs h o : wf (Node hs) -> In (h, o) hs -> mentions (Node hs) h.
Proof.
  intros W H. destruct o as [m|].
  - destruct (wf_sub hs h m W H) as [W' N]. destruct (iter_inhabited m W' N) as [p Hp].
    exists (h :: p). split; [eapply iter_sub; eauto|]. now left.
  - exists [h]. split; [now apply iter_leaf|]. now left.
Qed.

Lemma mentions_sub hs h m e : In (h, Some m) hs -> mentions m e -> mentions (Node hs) e.
Proof.
  intros H (p&Hp&He). exists (h :: p). split; [eapply iter_sub; eauto|]. now right.
Qed.

Lemma hget_map {X Y} (f : X -> Y) (l : list (elem * X)) k :
  hget k (map (fun ht => (fst ht, f (snd ht))) l) = option_map f (hget k l).
Proof. induction l as [|[k' x] t IH]; simpl; auto. destruct (elem_eqb k k'); auto. Qed.

Lemma hget_dict_get {X} (l : list (elem * X)) k : dict_get elem_eqb l k = hget k l.
Proof.
  induction l as [|[k' x] t IH]; simpl; auto.
  destruct (elem_eqb k' k) eqn:E1, (elem_eqb k k') eqn:E2; auto.
  - apply elem_eqb_eq in E1. subst. rewrite elem_eqb_refl in E2. discriminate.
  - apply elem_eqb_eq in E2. subst. rewrite elem_eqb_refl in E1. discriminate.
Qed.

Section MFSTree.
Context {A C T : Type}.
Variable a_attr : A -> str -> option A.
Variable unset : C -> str -> option A.
Variable a_isnone : A -> bool.
Variable new_rec : C -> list (str * obj A C) -> res (obj A C).
Variable new_atom : A -> list (str * obj A C) -> res (obj A C).
Variable new_list : C -> list (obj A C) -> res (obj A C).
Variable new_dict : C -> list (elem * obj A C) -> res (obj A C).

Notation obj := (obj A C).
Notation is_none := (is_none (C:=C) a_isnone).
Notation attr := (attr a_attr unset).
Notation mget := (mget a_attr unset a_isnone new_rec new_atom new_list new_dict).
Notation kwargs := (kwargs a_attr unset a_isnone).

(** ** What is where in an object *)

Inductive reach : obj -> list elem -> obj -> Prop :=
| reach_here o : reach o [] o
| reach_slot c sl n x q v : dict_get str_eqb sl n = Some x -> reach x q v -> reach (ORec c sl) (EStr n :: q) v
| reach_key c kvs k x q v : dict_get elem_eqb kvs k = Some x -> reach x q v -> reach (ODict c kvs) (k :: q) v
| reach_item c xs i x q v : nth_error xs i = Some x -> reach x q v ->
    reach (OList c xs) (EInt (Z.of_nat i) :: q) v.

Definition same_kind (o o' : obj) : Prop :=
  match o, o' with
  | OAtom _, OAtom _ => True
  | ORec c _, ORec c' _ => c = c'
  | OList c _, OList c' _ => c = c'
  | ODict c _, ODict c' _ => c = c'
  | _, _ => False
  end.

Lemma same_kind_refl o : same_kind o o.
Proof. destruct o; simpl; auto. Qed.

Definition sub (t : option mfs) (x : obj) : res obj :=
  match t with None => Ok x | Some m => mget m x end.

Definition subs (hs : list (elem * option mfs)) : list (elem * (obj -> res obj)) :=
  map (fun ht => (fst ht, sub (snd ht))) hs.

Lemma mget_node hs o : mget (Node hs) o =
      match o with
      | OList c xs =>
          if has_string (Node hs) then Err TypeErr
          else
            do vs <- match hget ENone (subs hs) with
                     | Some f => mapM f xs
                     | None => mapM (fun kf => match fst kf with
                                               | EInt i => do x <- seq_get xs i; snd kf x
                                               | _ => Err TypeErr
                                               end) (sort_heads (subs hs))
                     end;
            match c with None => Ok (OList None vs) | Some c => new_list c vs end
      | ODict c kvs =>
          do kvs' <- match hget ENone (subs hs) with
                     | Some f => mapM (fun kv => do v <- f (snd kv); Ok (fst kv, v)) kvs
                     | None => mapM (fun kf => match dict_get elem_eqb kvs (fst kf) with
                                               | Some x => do v <- snd kf x; Ok (fst kf, v)
                                               | None => Err KeyErr
                                               end)
                                 (filter (fun kf => match dict_get elem_eqb kvs (fst kf) with
                                                    | Some _ => true | None => false end) (subs hs))
                     end;
          match c with None => Ok (ODict None kvs') | Some c => new_dict c kvs' end
      | _ =>
          if has_int (Node hs) || (has_none (Node hs) && negb (complete (Node hs))) then Err TypeErr
          else if has_none (Node hs) then Ok o
          else do kw <- kwargs o (subs hs);
               match o with
               | ORec c _ => new_rec c kw
               | OAtom a => new_atom a kw
               | _ => Err TypeErr
               end
      end.
Proof. destruct o; reflexivity. Qed.

Lemma subs_get hs k : hget k (subs hs) = option_map sub (hget k hs).
Proof. unfold subs. apply hget_map with (f := sub). Qed.

Lemma subs_fst hs : map fst (subs hs) = map fst hs.
Proof. unfold subs. rewrite map_map. reflexivity. Qed.

Lemma kwargs_keys o fs kw : kwargs o fs = Ok kw -> forall n, In n (map fst kw) -> In (EStr n) (map fst fs).
Proof.
  revert kw. induction fs as [|[[n| |] f] t IH]; intros kw H m Hm; cbn [MFSTreeModel.kwargs] in H; try discriminate.
  - inversion H; subst. destruct Hm.
  - destruct (attr o (EStr n)) as [v|e]; [destruct (is_none v)|destruct (is_attr_err e)]; try discriminate.
    + right. eapply IH; eauto.
    + destruct (f v) as [v'|]; cbn [bind] in H; [|discriminate].
      destruct (kwargs o t) as [kw'|] eqn:E; cbn [bind] in H; [|discriminate]. inversion H; subst.
      cbn [map fst In] in Hm. destruct Hm as [->|Hm]; [now left|]. right. eapply IH; eauto.
    + right. eapply IH; eauto.
Qed.

Lemma kwargs_absent o fs kw n : kwargs o fs = Ok kw -> ~ In (EStr n) (map fst fs) -> dict_get str_eqb kw n = None.
Proof.
  intros H N. apply (dict_get_none str_eqb str_eqb_eq). intros Hn. apply N. eapply kwargs_keys; eauto.
Qed.

Lemma kwargs_get o fs kw n : NoDup (map fst fs) -> kwargs o fs = Ok kw ->
  match hget (EStr n) fs with
  | None => dict_get str_eqb kw n = None
  | Some f =>
      match attr o (EStr n) with
      | Ok v => if is_none v then dict_get str_eqb kw n = None
                else exists v', f v = Ok v' /\ dict_get str_eqb kw n = Some v'
      | Err _ => dict_get str_eqb kw n = None
      end
  end.
Proof.
  revert kw. induction fs as [|[k f] t IH]; intros kw ND H; cbn [MFSTreeModel.kwargs] in H.
  - inversion H; subst. reflexivity.
  - inversion ND as [|? ? Hk NDt]; subst. destruct k as [m| |]; try discriminate. cbn [hget].
    destruct (str_eq_dec n m) as [->|N].
    + rewrite elem_eqb_refl. destruct (attr o (EStr m)) as [v|e].
      * destruct (is_none v); [eapply kwargs_absent; eauto|].
        destruct (f v) as [w|] eqn:Ef; cbn [bind] in H; [|discriminate].
        destruct (kwargs o t) as [kw'|] eqn:E; cbn [bind] in H; [|discriminate]. inversion H; subst.
        exists w. split; auto. simpl. now rewrite str_eqb_refl.
      * destruct (is_attr_err e); [|discriminate]. eapply kwargs_absent; eauto.
    + replace (elem_eqb (EStr n) (EStr m)) with false.
      2:{ symmetry. destruct (elem_eqb (EStr n) (EStr m)) eqn:E; auto. apply elem_eqb_eq in E. congruence. }
      destruct (attr o (EStr m)) as [v|e]; [destruct (is_none v)|destruct (is_attr_err e)]; try discriminate;
        try exact (IH kw NDt H).
      destruct (f v) as [w|] eqn:Ef; cbn [bind] in H; [|discriminate].
      destruct (kwargs o t) as [kw'|] eqn:E; cbn [bind] in H; [|discriminate]. inversion H; subst.
      cbn [dict_get]. replace (str_eqb m n) with false; [now apply IH|].
      symmetry. destruct (str_eqb m n) eqn:E2; auto. apply str_eqb_eq in E2. congruence.
Qed.

(** ** Constructors that take over what they are given *)

Definition faithful : Prop :=
  (forall c kw o, new_rec c kw = Ok o -> exists sl, o = ORec c sl /\ forall n, dict_get str_eqb sl n = dict_get str_eqb kw n) /\
  (forall a kw o, new_atom a kw = Ok o -> exists b, o = OAtom b) /\
  (forall c vs o, new_list c vs = Ok o -> o = OList (Some c) vs) /\
  (forall c kvs o, new_dict c kvs = Ok o -> o = ODict (Some c) kvs).

(** selectors of names and wildcards, the names being ones the classes show nothing for
    while they are unset *)
Definition names_only (m : mfs) : Prop :=
  forall e, mentions m e ->
    match e with EInt _ => False | EStr n => forall c b, unset c n = Some b -> a_isnone b = true | ENone => True end.

Lemma names_only_sub hs h m : names_only (Node hs) -> In (h, Some m) hs -> names_only m.
Proof. intros N H e He. apply N. eapply mentions_sub; eauto. Qed.

Hypothesis F : faithful.

Lemma mapM_Ok_id {X} (l : list X) : mapM (fun x => Ok x) l = Ok l.
Proof. induction l; simpl; auto. now rewrite IHl. Qed.

Lemma mget_complete m o o' : wf m -> complete m = true -> mget m o = Ok o' -> o' = o.
Proof.
  intros W Hc H. pose proof (complete_heads m W Hc) as E. destruct m as [hs]. simpl in E. subst hs.
  rewrite mget_node in H. destruct F as (_&_&Fl&Fd).
  assert (Eh : hget ENone (subs [(ENone, None)]) = Some (sub None)) by reflexivity.
  destruct o as [a|c sl|c xs|c kvs]; [simpl in H; congruence|simpl in H; congruence| |]; rewrite Eh in H.
  - assert (E : mapM (sub None) xs = Ok xs) by apply mapM_Ok_id. rewrite E in H. simpl in H.
    destruct c; [|congruence]. apply Fl in H. congruence.
  - assert (E : mapM (fun kv : elem * obj => do v <- sub None (snd kv); Ok (fst kv, v)) kvs = Ok kvs).
    { clear. induction kvs as [|[k v] t IH]; auto. cbn [mapM]. rewrite IH. reflexivity. }
    rewrite E in H. simpl in H. destruct c; [|congruence]. apply Fd in H. congruence.
Qed.

(** list: only through a wildcard *)
Lemma mget_list hs c xs o' : wf (Node hs) -> hs <> [] -> names_only (Node hs) ->
  mget (Node hs) (OList c xs) = Ok o' ->
  exists t vs, hs = [(ENone, t)] /\ Forall2 (fun x v => sub t x = Ok v) xs vs /\ o' = OList c vs.
Proof.
  intros W Ne No H. rewrite mget_node in H. destruct (has_string (Node hs)) eqn:Es; [discriminate|].
  destruct (has_none (Node hs)) eqn:En.
  - destruct (wf_has_none _ W En) as [t Et]. simpl in Et. subst hs. exists t.
    simpl in H. destruct (mapM (sub t) xs) as [vs|] eqn:Em; simpl in H; [|discriminate].
    exists vs. split; auto. split; [now apply mapM_ok|]. destruct F as (_&_&Fl&_).
    destruct c; [now apply Fl|congruence].
  - exfalso. destruct hs as [|[h t] hs]; [congruence|].
    pose proof (mentions_head _ h t W (or_introl eq_refl)) as M. apply No in M.
    destruct h as [n|i|]; simpl in *; try discriminate; auto.
Qed.

(** dict: the selected keys that are there *)
Lemma mget_dict hs c kvs o' : wf (Node hs) -> mget (Node hs) (ODict c kvs) = Ok o' ->
  exists kvs', o' = ODict c kvs' /\ forall k,
    match hget (if has_none (Node hs) then ENone else k) hs, dict_get elem_eqb kvs k with
    | Some t, Some x => exists v', sub t x = Ok v' /\ dict_get elem_eqb kvs' k = Some v'
    | _, _ => dict_get elem_eqb kvs' k = None
    end.
Proof.
  intros W H. rewrite mget_node in H. cbv zeta in H.
  destruct (match hget ENone (subs hs) with
            | Some f => mapM (fun kv => do v <- f (snd kv); Ok (fst kv, v)) kvs
            | None => _ end) as [kvs'|] eqn:E; cbn [bind] in H; [|discriminate].
  exists kvs'. split. { destruct F as (_&_&_&Fd). destruct c; [now apply Fd|congruence]. }
  clear H. intros k. destruct (has_none (Node hs)) eqn:En.
  - destruct (wf_has_none _ W En) as [t Et]. simpl in Et. subst hs. simpl in E. simpl.
    apply mapM_ok in E.
    induction E as [|[k1 x1] [k2 x2] l l' E1 E2 IH]; simpl; auto.
    simpl in E1. destruct (sub t x1) as [y|] eqn:Es; simpl in E1; inversion E1; subst.
    destruct (elem_eqb k2 k); eauto.
  - pose proof (has_none_false_hget _ En) as Hn. cbn [heads] in Hn. rewrite subs_get, Hn in E. cbn [option_map] in E.
    apply mapM_ok in E. apply wf_node in W as (ND&_&_).
    cut (match hget k (subs hs), dict_get elem_eqb kvs k with
         | Some f, Some x => exists v', f x = Ok v' /\ dict_get elem_eqb kvs' k = Some v'
         | _, _ => dict_get elem_eqb kvs' k = None end).
    { rewrite subs_get. destruct (hget k hs); auto. }
    rewrite <- subs_fst in ND. revert kvs' E. induction (subs hs) as [|[k1 f] l IH]; intros kvs' E.
    + simpl in E. inversion E; subst. reflexivity.
    + inversion ND as [|? ? Hk NDl]; subst. cbn [filter fst] in E. cbn [hget].
      destruct (dict_get elem_eqb kvs k1) as [x1|] eqn:E1.
      * inversion E as [|? ? ? ? E2 E3]; subst. cbn [fst snd] in E2. rewrite E1 in E2.
        destruct (f x1) as [y1|] eqn:Ef; cbn [bind] in E2; inversion E2; subst. cbn [dict_get].
        destruct (elem_eqb k k1) eqn:Ek.
        -- apply elem_eqb_eq in Ek. subst k1. rewrite elem_eqb_refl, E1. eauto.
        -- replace (elem_eqb k1 k) with false.
           ++ now apply IH.
           ++ symmetry. destruct (elem_eqb k1 k) eqn:Ek2; auto. apply elem_eqb_eq in Ek2. subst.
              rewrite elem_eqb_refl in Ek. discriminate.
      * pose proof (IH NDl _ E) as G. destruct (elem_eqb k k1) eqn:Ek; [|exact G].
        apply elem_eqb_eq in Ek. subst k1. rewrite E1 in *.
        destruct (hget k l); exact G.
Qed.

Lemma mget_rec hs c sl o' : wf (Node hs) -> complete (Node hs) = false -> names_only (Node hs) ->
  mget (Node hs) (ORec c sl) = Ok o' -> has_none (Node hs) = false /\
  exists sl', o' = ORec c sl' /\ forall n,
    match hget (EStr n) hs, dict_get str_eqb sl n with
    | Some t, Some x => if is_none x then dict_get str_eqb sl' n = None
                        else exists v', sub t x = Ok v' /\ dict_get str_eqb sl' n = Some v'
    | _, _ => dict_get str_eqb sl' n = None
    end.
Proof.
  intros W Hc No H. rewrite mget_node in H. rewrite Hc in H. rewrite andb_true_r in H.
  destruct (has_none (Node hs)) eqn:En; [rewrite orb_true_r in H; discriminate|].
  split; auto. destruct (has_int (Node hs)); simpl in H; [discriminate|].
  destruct (kwargs (ORec c sl) (subs hs)) as [kw|] eqn:Ek; cbn [bind] in H; [|discriminate].
  destruct F as (Fr&_). apply Fr in H as (sl'&->&Hsl). exists sl'. split; auto. intros n.
  rewrite Hsl. pose proof W as W0. apply wf_node in W as (ND&_&_). rewrite <- subs_fst in ND.
  pose proof (kwargs_get _ _ _ n ND Ek) as K. rewrite subs_get in K. cbn [TreeModel.attr] in K.
  destruct (hget (EStr n) hs) as [t|] eqn:Et; [|exact K]. cbn [option_map] in K.
  destruct (dict_get str_eqb sl n) as [x|] eqn:Ex; [exact K|].
  destruct (unset c n) as [b|] eqn:Eu; [|exact K].
  apply hget_in in Et. pose proof (mentions_head _ _ _ W0 Et) as M. apply No in M.
  simpl in K. rewrite (M c b Eu) in K. exact K.
Qed.

(** ** The three parts of C11 *)

Lemma reach_app_nil o v : reach o [] v -> v = o.
Proof. intros H. inversion H. reflexivity. Qed.

Lemma nth_error_F2 {X Y} (R : X -> Y -> Prop) l l' : Forall2 R l l' -> forall i x, nth_error l i = Some x ->
  exists y, nth_error l' i = Some y /\ R x y.
Proof. induction 1; intros [|i] z Hz; simpl in *; try discriminate; [inversion Hz; subst; eauto|eauto]. Qed.

Lemma nth_error_F2' {X Y} (R : X -> Y -> Prop) l l' : Forall2 R l l' -> forall i y, nth_error l' i = Some y ->
  exists x, nth_error l i = Some x /\ R x y.
Proof. induction 1; intros [|i] z Hz; simpl in *; try discriminate; [inversion Hz; subst; eauto|eauto]. Qed.

Lemma wf_ne_sub hs h t m : wf (Node hs) -> hget h hs = Some t -> t = Some m -> In (h, Some m) hs /\ wf m /\ heads m <> [].
Proof. intros W H ->. apply hget_in in H. destruct (wf_sub _ _ _ W H). auto. Qed.

(** what is on or below a selected path is taken over *)
Lemma mget_kept m : wf m -> heads m <> [] -> names_only m -> forall o o' q v,
  mget m o = Ok o' -> reach o q v -> is_none v = false -> contains m q = true -> reach o' q v.
Proof.
  induction m as [hs IH] using mfs_ind'. intros W Ne No o o' q v H R Nv Hc.
  destruct (complete (Node hs)) eqn:Ec.
  { apply mget_complete in H; auto. now subst. }
  assert (Sub : forall h t x y q, hget h hs = Some t -> sub t x = Ok y -> reach x q v ->
     match t with None => true | Some m => contains m q end = true -> reach y q v).
  { intros h t x y p Hh Hs Hr Hcont. destruct t as [m|]; simpl in Hs.
    - destruct (wf_ne_sub _ _ _ _ W Hh eq_refl) as (Hi&W'&Ne'). eapply IH; eauto. eapply names_only_sub; eauto.
    - inversion Hs; subst. auto. }
  inversion R as [|c sl n x q' v0 G R'|c kvs k x q' v0 G R'|c xs i x q' v0 G R']; subst.
  - simpl in Hc. unfold complete in *. congruence.
  - rewrite contains_cons in Hc by auto.
    apply mget_rec in H as (En&sl'&->&Hsl); auto. rewrite En in Hc. cbn [heads] in Hc.
    specialize (Hsl n). rewrite G in Hsl.
    destruct (hget (EStr n) hs) as [t|] eqn:Et; [|discriminate].
    assert (Nx : is_none x = false) by (inversion R'; subst; auto).
    rewrite Nx in Hsl. destruct Hsl as (y&Es&Gy).
    econstructor; [eassumption|]. eapply Sub; eauto.
  - rewrite contains_cons in Hc by auto. cbn [heads] in Hc.
    apply mget_dict in H as (kvs'&->&Hk); auto. specialize (Hk k). rewrite G in Hk.
    destruct (hget (if has_none (Node hs) then ENone else k) hs) as [t|] eqn:Et; [|discriminate].
    destruct Hk as (y&Es&Gy). econstructor; [eassumption|]. eapply Sub; eauto.
  - apply mget_list in H as (t&vs&->&F2&->); auto.
    rewrite contains_cons in Hc by auto. simpl in Hc.
    destruct (nth_error_F2 _ _ _ F2 i x G) as (y&Gy&Es).
    econstructor; [eassumption|]. apply (Sub ENone t x y q'); auto.
Qed.

(** what is above a selected path is there, and of the same kind *)
Lemma mget_above m : wf m -> heads m <> [] -> names_only m -> forall o o' q v r,
  mget m o = Ok o' -> reach o q v -> ~ is_atom v -> contains m (q ++ r) = true ->
  exists v', reach o' q v' /\ same_kind v v'.
Proof.
  induction m as [hs IH] using mfs_ind'. intros W Ne No o o' q v r H R Nv Hc.
  destruct (complete (Node hs)) eqn:Ec.
  { apply mget_complete in H; auto. subst. exists v. split; auto. apply same_kind_refl. }
  assert (Sub : forall h t x y q, hget h hs = Some t -> sub t x = Ok y -> reach x q v ->
     match t with None => true | Some m => contains m (q ++ r) end = true -> exists v', reach y q v' /\ same_kind v v').
  { intros h t x y p Hh Hs Hr Hcont. destruct t as [m|]; simpl in Hs.
    - destruct (wf_ne_sub _ _ _ _ W Hh eq_refl) as (Hi&W'&Ne'). eapply IH; eauto. eapply names_only_sub; eauto.
    - inversion Hs; subst. exists v. split; auto. apply same_kind_refl. }
  inversion R as [|c sl n x q' v0 G R'|c kvs k x q' v0 G R'|c xs i x q' v0 G R']; subst.
  - exists o'. split; [constructor|]. destruct v as [a|c sl|c xs|c kvs].
    + exfalso. apply Nv. now exists a.
    + apply mget_rec in H as (_&sl'&->&_); auto. reflexivity.
    + apply mget_list in H as (t&vs&_&_&->); auto. reflexivity.
    + apply mget_dict in H as (kvs'&->&_); auto. reflexivity.
  - cbn [app] in Hc. rewrite contains_cons in Hc by auto.
    apply mget_rec in H as (En&sl'&->&Hsl); auto. rewrite En in Hc. cbn [heads] in Hc.
    specialize (Hsl n). rewrite G in Hsl.
    destruct (hget (EStr n) hs) as [t|] eqn:Et; [|discriminate].
    assert (Nx : is_none x = false).
    { inversion R'; subst; auto. destruct v; auto. exfalso. apply Nv. eexists. reflexivity. }
    rewrite Nx in Hsl. destruct Hsl as (y&Es&Gy).
    destruct (Sub _ t x y q' Et Es R') as (v'&?&?); [destruct t; auto|].
    exists v'. split; auto. econstructor; eauto.
  - cbn [app] in Hc. rewrite contains_cons in Hc by auto. cbn [heads] in Hc.
    apply mget_dict in H as (kvs'&->&Hk); auto. specialize (Hk k). rewrite G in Hk.
    destruct (hget (if has_none (Node hs) then ENone else k) hs) as [t|] eqn:Et; [|discriminate].
    destruct Hk as (y&Es&Gy).
    destruct (Sub _ t x y q' Et Es R') as (v'&?&?); [destruct t; auto|].
    exists v'. split; auto. econstructor; eauto.
  - apply mget_list in H as (t&vs&->&F2&->); auto. cbn [app] in Hc.
    rewrite contains_cons in Hc by auto. simpl in Hc.
    destruct (nth_error_F2 _ _ _ F2 i x G) as (y&Gy&Es).
    destruct (Sub ENone t x y q' eq_refl Es R') as (v'&?&?); [destruct t; auto|].
    exists v'. split; auto. econstructor; eauto.
Qed.

(** and there is nothing else *)
Lemma mget_only m : wf m -> heads m <> [] -> names_only m -> forall o o' q v',
  mget m o = Ok o' -> reach o' q v' ->
  exists v r, reach o q v /\ contains m (q ++ r) = true /\ same_kind v v' /\
    (contains m q = true -> v' = v).
Proof.
  induction m as [hs IH] using mfs_ind'. intros W Ne No o o' q v' H R.
  destruct (complete (Node hs)) eqn:Ec.
  { apply mget_complete in H; auto. subst. exists v', []. repeat split; auto.
    - now apply contains_complete.
    - apply same_kind_refl. }
  assert (Sub : forall h t x y q, hget h hs = Some t -> sub t x = Ok y -> reach y q v' ->
     exists v r, reach x q v /\ match t with None => true | Some m => contains m (q ++ r) end = true /\ same_kind v v' /\
       (match t with None => true | Some m => contains m q end = true -> v' = v)).
  { intros h t x y p Hh Hs Hr. destruct t as [m|]; simpl in Hs.
    - destruct (wf_ne_sub _ _ _ _ W Hh eq_refl) as (Hi&W'&Ne').
      destruct (IH h m Hi W' Ne' (names_only_sub _ _ _ No Hi) x y p v' Hs Hr) as (v&r&?&?&?&?).
      exists v, r. auto.
    - inversion Hs; subst. exists v', []. repeat split; auto. apply same_kind_refl. }
  destruct q as [|e q'].
  - apply reach_app_nil in R. subst v'. destruct (wf_inhabited _ W Ne) as [r Hr].
    exists o, r. split; [constructor|]. split; [exact Hr|]. split.
    + destruct o as [a|c sl|c xs|c kvs].
      * rewrite mget_node in H. rewrite Ec, andb_true_r in H.
        destruct (has_int (Node hs)); [discriminate|].
        destruct (has_none (Node hs)); [discriminate|]. simpl in H.
        destruct (kwargs (OAtom a) (subs hs)); cbn [bind] in H; [|discriminate].
        destruct F as (_&Fa&_). apply Fa in H as [b ->]. exact I.
      * apply mget_rec in H as (_&sl'&->&_); auto. reflexivity.
      * apply mget_list in H as (t&vs&_&_&->); auto. reflexivity.
      * apply mget_dict in H as (kvs'&->&_); auto. reflexivity.
    + cbn [contains]. congruence.
  - destruct o as [a|c sl|c xs|c kvs].
    + exfalso. rewrite mget_node in H. rewrite Ec, andb_true_r in H.
      destruct (has_int (Node hs)); [discriminate|].
      destruct (has_none (Node hs)); [discriminate|]. simpl in H.
      destruct (kwargs (OAtom a) (subs hs)); cbn [bind] in H; [|discriminate].
      destruct F as (_&Fa&_). apply Fa in H as [b ->]. inversion R.
    + apply mget_rec in H as (En&sl'&->&Hsl); auto. inversion R as [|c0 sl0 n y q0 v0 G R'| |]; subst.
      specialize (Hsl n). rewrite G in Hsl.
      destruct (hget (EStr n) hs) as [t|] eqn:Et; [|discriminate].
      destruct (dict_get str_eqb sl n) as [x|] eqn:Ex; [|discriminate].
      destruct (is_none x); [discriminate|]. destruct Hsl as (y'&Es&Ey). inversion Ey; subst y'.
      destruct (Sub _ t x y q' Et Es R') as (v&r&Rv&Hc&K&E). exists v, r. split; [econstructor; eauto|].
      cbn [app]. rewrite !contains_cons, En by auto. cbn [heads]. rewrite Et. destruct t; auto.
    + apply mget_list in H as (t&vs&->&F2&->); auto. inversion R as [| | |c0 xs0 i y q0 v0 G R']; subst.
      destruct (nth_error_F2' _ _ _ F2 i y G) as (x&Gx&Es).
      destruct (Sub ENone t x y q' eq_refl Es R') as (v&r&Rv&Hc&K&E). exists v, r. split; [econstructor; eauto|].
      cbn [app]. rewrite !contains_cons by auto. simpl. destruct t; auto.
    + apply mget_dict in H as (kvs'&->&Hk); auto. inversion R as [| |c0 kvs0 k y q0 v0 G R'|]; subst.
      specialize (Hk e). rewrite G in Hk.
      destruct (hget (if has_none (Node hs) then ENone else e) hs) as [t|] eqn:Et; [|discriminate].
      destruct (dict_get elem_eqb kvs e) as [x|] eqn:Ex; [|discriminate].
      destruct Hk as (y'&Es&Ey). inversion Ey; subst y'.
      destruct (Sub _ t x y q' Et Es R') as (v&r&Rv&Hc&K&E). exists v, r. split; [econstructor; eauto|].
      cbn [app]. rewrite !contains_cons by auto. cbn [heads]. rewrite Et. destruct t; auto.
Qed.
End MFSTree.
