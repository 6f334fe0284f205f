(** C11, C12, C47: multi field selectors applied to objects. *)
From Coq Require Import String List Arith NArith ZArith Bool Lia Permutation Sorted.
From Verif Require Import Prelude SelPathModel FSModel FSProofs PySeq CollProofs MFSModel MFSProofs MFSProps TreeModel TreeProofs TreeProps MFSTreeModel MFSTreeProofs MFSTreeDel.
Import ListNotations.

Section MFSTree.
Context {A C T : Type}.
Variable a_none : A.
Variable a_key : elem -> A.
Variable a_str : A -> bool.
Variable a_indexable : A -> bool.
Variable a_item : A -> elem -> res A.
Variable a_attr : A -> str -> option A.
Variable a_iter : A -> res (list A).
Variable a_len : A -> Z.
Variable unset : C -> str -> option A.
Variable store : C -> str -> obj A C -> res (obj A C).
Variable erase : C -> str -> bool -> option exn.
Variable istore : C -> obj A C -> res (obj A C).
Variable itemtype : C -> res T.
Variable valuetype : C -> str -> res T.
Variable call : T -> option (str * obj A C) -> res (obj A C).
Variable a_isnone : A -> bool.
Variable new_rec : C -> list (str * obj A C) -> res (obj A C).
Variable new_atom : A -> list (str * obj A C) -> res (obj A C).
Variable new_list : C -> list (obj A C) -> res (obj A C).
Variable new_dict : C -> list (elem * obj A C) -> res (obj A C).

Notation obj := (obj A C).
Notation is_none := (is_none (C:=C) a_isnone).
Notation step := (step a_str a_indexable a_item a_attr unset).
Notation get := (get a_none a_key a_str a_indexable a_item a_attr a_iter unset).
Notation mget := (mget a_attr unset a_isnone new_rec new_atom new_list new_dict).
Notation mdelete := (mdelete a_none a_key a_str a_indexable a_item a_attr a_iter unset erase).
Notation patch := (patch a_none a_key a_str a_indexable a_item a_attr a_iter a_len unset store erase istore itemtype valuetype call).

(** ** C11 *)

(** The selector consists of names and wildcards, and no class shows anything but None for
    these names while they are unset. *)
Definition plain_selector (m : mfs) : Prop :=
  constructible m /\ heads m <> [] /\ names_only unset a_isnone m.

(** What is on or below a selected path and not None is in the result, the same, ... *)
Theorem C11_selected_is_kept : forall m o o' q v, plain_selector m ->
  faithful new_rec new_atom new_list new_dict ->
  mget m o = Ok o' -> reach o q v -> is_none v = false -> contains m q = true -> reach o' q v.
Proof. intros m o o' q v (W&Ne&No) F. eapply mget_kept; eauto using constructible_wf. Qed.

(** ... what is above a selected path is there and of the same kind, ... *)
Theorem C11_above_is_there : forall m o o' q v r, plain_selector m ->
  faithful new_rec new_atom new_list new_dict ->
  mget m o = Ok o' -> reach o q v -> ~ is_atom v -> contains m (q ++ r) = true ->
  exists v', reach o' q v' /\ same_kind v v'.
Proof. intros m o o' q v r (W&Ne&No) F. eapply mget_above; eauto using constructible_wf. Qed.

(** ... and there is nothing else: whatever the result has, the object has, and it is on,
    above or below a selected path. *)
Theorem C11_nothing_else : forall m o o' q v', plain_selector m ->
  faithful new_rec new_atom new_list new_dict ->
  mget m o = Ok o' -> reach o' q v' ->
  exists v r, reach o q v /\ contains m (q ++ r) = true /\ same_kind v v' /\
    (contains m q = true -> v' = v).
Proof. intros m o o' q v' (W&Ne&No) F. eapply mget_only; eauto using constructible_wf. Qed.

(** The whole object is selected by the complete selector. *)
Theorem C11_complete_copies : forall o o', faithful new_rec new_atom new_list new_dict ->
  mget complete_mfs o = Ok o' -> o' = o.
Proof.
  intros o o' F H. eapply mget_complete; eauto. simpl. repeat split; auto.
  - constructor; [intros []|constructor].
  - reflexivity.
Qed.

(** Selecting list items by index: the items come out in the order of the indices, without
    gaps. *)
Definition by_index {X} (x y : elem * X) : Prop := key_leb (fst x) (fst y) = true.

Theorem C11_list_indices : forall hs xs o', (forall h t, In (h, t) hs -> exists i, h = EInt i) ->
  mget (Node hs) (OList None xs) = Ok o' ->
  exists ks vs, Permutation ks hs /\ Sorted by_index ks /\ o' = OList None vs /\
    Forall2 (fun ht v => exists i x, fst ht = EInt i /\ seq_get xs i = Ok x /\
               match snd ht with None => v = x | Some m => mget m x = Ok v end) ks vs.
Proof.
  intros hs xs o' Hi H. rewrite mget_node in H.
  assert (Es : has_string (Node hs) = false).
  { destruct (has_string (Node hs)) eqn:E; auto. apply existsb_exists in E as ([h t]&Hin&E).
    destruct (Hi h t Hin) as [i ->]. discriminate. }
  assert (En : hget ENone (subs a_attr unset a_isnone new_rec new_atom new_list new_dict hs) = None).
  { rewrite subs_get. destruct (hget ENone hs) as [t|] eqn:E; auto. apply hget_in in E.
    destruct (Hi _ _ E) as [i Ei]. discriminate. }
  rewrite Es, En in H. clear Es En.
  match type of H with context [mapM ?f ?l] => destruct (mapM f l) as [vs|] eqn:Em end; simpl in H; inversion H; subst.
  apply mapM_ok in Em.
  assert (S : forall X (f : option mfs -> X) l, sort_heads (map (fun ht : elem * option mfs => (fst ht, f (snd ht))) l) =
              map (fun ht => (fst ht, f (snd ht))) (sort_heads l)).
  { intros X f l. induction l as [|x t IH]; simpl; auto. rewrite IH. clear.
    induction (sort_heads t) as [|y u IH]; simpl; auto. destruct (key_leb (fst x) (fst y)); simpl; auto. now rewrite IH. }
  unfold subs in Em. rewrite S in Em. exists (sort_heads hs), vs.
  assert (P : forall (x : elem * option mfs) l, Permutation (insert_head x l) (x :: l)).
  { intros x l. induction l as [|y u IH]; simpl; auto. destruct (key_leb (fst x) (fst y)); auto.
    rewrite IH. apply perm_swap. }
  assert (P2 : Permutation (sort_heads hs) hs).
  { clear - P. induction hs as [|x t IH]; simpl; auto. rewrite P. now constructor. }
  split; auto. split; [|split; auto].
  - clear - P Hi. assert (T : forall a b : elem * option mfs, key_leb (fst a) (fst b) = false -> key_leb (fst b) (fst a) = true).
    { intros [[n|i|] t] [[m|j|] u]; simpl; auto. intros H. apply Z.leb_gt in H. apply Z.leb_le. lia. }
    induction hs as [|x t IH]; simpl; [constructor|].
    assert (St : Sorted by_index (sort_heads t)) by (apply IH; intros h u Hu; apply (Hi h u); now right).
    clear - St T. induction St as [|y u Su IH Hu]; simpl.
    + repeat constructor.
    + destruct (key_leb (fst x) (fst y)) eqn:E.
      * repeat constructor; auto.
      * constructor; auto. destruct u as [|z w]; simpl.
        -- constructor. now apply T.
        -- inversion Hu; subst. destruct (key_leb (fst x) (fst z)); constructor; auto. now apply T.
  - assert (F2 : forall X Y Z (f : X -> Y) (R : Y -> Z -> Prop) l l', Forall2 R (map f l) l' -> Forall2 (fun x z => R (f x) z) l l').
    { intros X Y Z f R l. induction l as [|x u IH]; intros l' HF; inversion HF; subst; constructor; auto. }
    apply F2 in Em. clear F2.
    assert (Hi' : forall h t, In (h, t) (sort_heads hs) -> exists i, h = EInt i).
    { intros h t Hh. apply (Hi h t). eapply Permutation_in; eauto. }
    clear - Em Hi'. induction Em as [|[h t] v l l' E1 E2 IH]; constructor.
    + destruct (Hi' h t (or_introl eq_refl)) as [i ->]. simpl in *.
      destruct (seq_get xs i) as [x|] eqn:Ex; simpl in E1; [|discriminate].
      exists i, x. repeat split; auto. destruct t; simpl in E1; auto. congruence.
    + apply IH. intros h0 t0 H0. apply (Hi' h0 t0). now right.
Qed.

(** ** C12 *)

(** Every selected path consists of names. *)
Definition name_selector (m : mfs) : Prop :=
  constructible m /\ forall p, In p (MFSModel.iter m) -> Forall is_name p.

Lemma name_selector_apart m : name_selector m -> apart (MFSModel.iter m).
Proof.
  intros [Cm Hn]. pose proof (iter_antichain m (constructible_wf m Cm)) as H.
  unfold apart. induction H as [|p l H1 H2 IH]; constructor.
  - rewrite Forall_forall in *. intros q Hq. destruct (H1 q Hq). apply names_part; auto.
    + apply Hn. now left.
    + apply Hn. now right.
  - apply IH. intros q Hq. apply Hn. now right.
Qed.

(** Without force: if a selected path cannot be read, delete raises what reading it raises,
    and changes nothing. *)
Theorem C12_missing_raises_unchanged : forall m o,
  (exists p e, In p (MFSModel.iter m) /\ get p o = Err e) ->
  exists p e, In p (MFSModel.iter m) /\ get p o = Err e /\ mdelete m false o = (Some e, o).
Proof.
  intros m o (p&e&Hp&He). unfold MFSTreeModel.mdelete.
  destruct (check_all _ _ _ _ _ _ _ _ (MFSModel.iter m) o) as [e'|] eqn:E.
  - apply check_all_some in E as (q&Hq&Eq). eauto.
  - pose proof (proj1 (check_all_none a_none a_key a_str a_indexable a_item a_attr a_iter unset (MFSModel.iter m) o) E p Hp) as [v Hv].
    congruence.
Qed.

(** If all can be read, all are removed, and nothing else changes.  For names which neither
    classes nor immutable values show anything for, and which may be deleted. *)
Theorem C12_removes_exactly : forall m o, name_selector m -> tidy_obj true true o ->
  (forall n, mentions m (EStr n) -> bare a_str a_indexable a_item a_attr unset n /\ forall c, erase c n true = None) ->
  (forall p, In p (MFSModel.iter m) -> exists v, get p o = Ok v) ->
  exists o', mdelete m false o = (None, o') /\
    (forall p, In p (MFSModel.iter m) -> exists e, get p o' = Err e) /\
    (forall q, (forall p, In p (MFSModel.iter m) -> part_ways p q) -> get q o' = get q o).
Proof.
  intros m o Hm Ht Hb Hg. pose proof (name_selector_apart m Hm) as Ha. destruct Hm as [Cm Hn].
  assert (Fn : Forall (Forall is_name) (MFSModel.iter m)) by now apply Forall_forall.
  destruct (delete_all_present a_none a_key a_str a_indexable a_item a_attr a_iter a_len unset erase true true (MFSModel.iter m) o)
    as (o'&E&G); auto.
  - apply Forall_forall. intros p Hp. eapply iter_nonempty; eauto.
  - intros p n Hp Hi. apply Hb. exists p. auto.
  - exists o'. split; [|split; auto].
    + unfold MFSTreeModel.mdelete.
      rewrite (proj2 (check_all_none a_none a_key a_str a_indexable a_item a_attr a_iter unset (MFSModel.iter m) o) Hg). exact E.
    + intros q Hq. eapply delete_all_frame; eauto.
Qed.

(** With force, on records of records, missing fields never raise. *)
Theorem C12_force : forall m o, name_selector m -> tidy_obj false false o ->
  (forall n, mentions m (EStr n) -> (forall c, unset c n = None) /\ (forall c, erase c n true = None) /\
     forall a, (a_str a = true \/ a_indexable a = false) /\ a_attr a n = None) ->
  fst (mdelete m true o) = None.
Proof.
  intros m o [Cm Hn] Ht Hb. unfold MFSTreeModel.mdelete.
  apply (delete_all_force a_key a_str a_indexable a_item a_attr a_iter unset erase false false); auto.
  - now apply Forall_forall.
  - apply Forall_forall. intros p Hp. eapply iter_nonempty; eauto.
  - intros p n Hp Hi. apply Hb. exists p. auto.
  - intros p n Hp Hi. destruct (Hb n) as (?&_&?); auto. exists p. auto.
Qed.

(** ** C47: patch *)

Definition lifted (ps : list (list elem)) s l : Prop :=
  Forall2 (fun p (pv : list elem * option obj) => fst pv = p /\
        match snd pv with
        | Some v => get p s = Ok v
        | None => exists e : exn, get p s = Err e /\ is_attr_err e = true
        end) ps l.

Lemma lifted_fst ps s l : lifted ps s l -> map fst l = ps.
Proof. intros El. induction El as [|p [q v] ps l [E _] _ IH]; simpl in *; congruence. Qed.

Lemma lifted_in ps s l : lifted ps s l -> forall p v, In (p, v) l -> In p ps /\ match v with
                                     | Some v => get p s = Ok v
                                     | None => exists e, get p s = Err e /\ is_attr_err e = true
                                     end.
Proof.
  intros El p v Hpv. induction El as [|p' [q v'] ps l [E E2] _ IH]; [destruct Hpv|]. simpl in *. subst q.
  destruct Hpv as [Hpv|Hpv].
  - inversion Hpv; subst. auto.
  - destruct (IH Hpv). auto.
Qed.

Lemma lifted_tidy ps s l : lifted ps s l -> (forall p, In p ps -> Forall is_name p) -> tidy_obj false true s ->
  forall p v, In (p, v) l -> match v with Some x => tidy_obj false true x | None => True end.
Proof.
  intros El Hn Hs p [v|] Hpv; auto. destruct (lifted_in _ _ _ El p (Some v) Hpv) as [Hp G]. simpl in G.
  eapply (tidy_get a_none a_key a_str a_indexable a_item a_attr a_iter unset false true p s v); auto.
  apply name_named. auto.
Qed.

(** After a patch that returns, every selected field that the source has reads in the target
    as what was kept of the source's value, and every selected field the source lacks cannot
    be read. *)
Theorem C47_patch : forall R m t s t', name_selector m ->
  keeps a_none a_key a_str a_indexable a_item a_attr a_iter unset store istore call R ->
  keeps_tidy store istore call false true ->
  tidy_obj false true t -> tidy_obj false true s ->
  (forall n c, mentions m (EStr n) -> unset c n = None) ->
  patch m t s = (None, t') ->
  forall p, In p (MFSModel.iter m) ->
     match get p s with
     | Ok v => exists v', get p t' = Ok v' /\ R v v'
     | Err e => is_attr_err e = true /\ exists e', get p t' = Err e'
     end.
Proof.
  intros R m t s t' Hm KR KT Ht Hs Hu H. pose proof (name_selector_apart m Hm) as Ha. destruct Hm as [Cm Hn].
  unfold MFSTreeModel.patch in H.
  destruct (lift _ _ _ _ _ _ _ _ (MFSModel.iter m) s) as [l|e] eqn:El; [|discriminate].
  apply lift_spec in El. pose proof (lifted_fst _ _ _ El) as Fst. pose proof (lifted_in _ _ _ El) as In1.
  pose proof (lifted_tidy _ _ _ El Hn Hs) as Tv.
  intros p Hp. rewrite <- Fst in Hp. apply in_map_iff in Hp as ([p' v]&E&Hpv). simpl in E. subst p'.
  pose proof (apply_all_spec a_none a_key a_str a_indexable a_item a_attr a_iter a_len unset store erase istore itemtype valuetype call
      false true KT R KR l t t' eq_refl Ht) as S.
  assert (G : match v with Some x => exists x', get p t' = Ok x' /\ R x x' | None => exists e, get p t' = Err e end).
  { apply S with (p := p); auto.
      - now rewrite Fst.
      - intros q w Hqw. destruct (In1 q w Hqw) as [Hq _]. split; auto. split; [eapply iter_nonempty; eauto|].
        split; [|eapply Tv; eauto]. intros c n Hi. apply Hu. exists q. auto. }
  destruct (In1 p v Hpv) as [_ G2]. destruct v as [v|].
  + rewrite G2. exact G.
  + destruct G2 as (e&->&Ee). auto.
Qed.

(** Whether or not it returns, what could be read elsewhere reads as before. *)
Theorem C47_frame : forall m t s r t', name_selector m ->
  keeps_tidy store istore call false true ->
  tidy_obj false true t -> tidy_obj false true s ->
  patch m t s = (r, t') ->
  forall q y, (forall p, In p (MFSModel.iter m) -> part_ways p q) -> get q t = Ok y -> get q t' = Ok y.
Proof.
  intros m t s r t' [Cm Hn] KT Ht Hs H q y Hq G.
  unfold MFSTreeModel.patch in H.
  destruct (lift _ _ _ _ _ _ _ _ (MFSModel.iter m) s) as [l|e] eqn:El; [|inversion H; subst; auto].
  apply lift_spec in El. pose proof (lifted_in _ _ _ El) as In1.
  pose proof (lifted_tidy _ _ _ El Hn Hs) as Tv.
  eapply (apply_all_frame a_none a_key a_str a_indexable a_item a_attr a_iter a_len unset store erase istore itemtype valuetype call
      false true KT l t r t' q y); auto.
  intros p v Hpv. destruct (In1 p v Hpv) as [Hp _]. split; auto. split; auto. eapply Tv; eauto.
Qed.

(** If reading the source fails otherwise than with an AttributeError, the target is not
    touched. *)
Theorem C47_unreadable_source : forall m t s p e, In p (MFSModel.iter m) ->
  get p s = Err e -> is_attr_err e = false ->
  exists e', is_attr_err e' = false /\ patch m t s = (Some e', t).
Proof.
  intros m t s p e Hp G He. unfold MFSTreeModel.patch.
  destruct (lift _ _ _ _ _ _ _ _ (MFSModel.iter m) s) as [l|e'] eqn:El.
  - exfalso. apply lift_spec in El. clear - El Hp G He. induction El as [|p' [q v] ps l [E E2] _ IH]; [destruct Hp|].
    destruct Hp as [->|Hp]; auto. simpl in *. destruct v as [v|]; [congruence|].
    destruct E2 as (e2&E2&E3). congruence.
  - apply lift_err in El as (q&_&_&E). eauto.
Qed.

End MFSTree.

(** ** Cases *)

Section Cases.
Notation t := s2l.
Definition n_rec (c : klass) (kw : list (str * O)) : res O := Ok (ORec c kw).
Definition n_atom (a : atom) (kw : list (str * O)) : res O :=
  match kw, a with [], AText _ => Ok (OAtom (AText [])) | [], ANum _ => Ok (OAtom (ANum 0)) | _, _ => Err TypeErr end.
Definition n_list (c : klass) (vs : list O) : res O := Ok (OList (Some c) vs).
Definition n_dict (c : klass) (kvs : list (elem * O)) : res O := Ok (ODict (Some c) kvs).
Definition x_isnone (a : atom) : bool := match a with ANone => true | _ => false end.
Notation xget := (get x_none x_key x_str x_indexable x_item x_attr x_iter x_unset).
Notation xmget := (mget x_attr x_unset x_isnone n_rec n_atom n_list n_dict).
Notation xmdelete := (mdelete x_none x_key x_str x_indexable x_item x_attr x_iter x_unset x_erase).

Example C11_faithful_case : faithful n_rec n_atom n_list n_dict.
Proof.
  split; [|split; [|split]].
  - intros c kw o H. inversion H; subst. eauto.
  - intros a kw o H. unfold n_atom in H. destruct kw, a; inversion H; subst; eauto.
  - intros c vs o H. now inversion H.
  - intros c vs o H. now inversion H.
Qed.

Definition sel (ps : list (list elem)) : mfs :=
  match MFSModel.make id_ord (map AFS ps) with Ok m => m | Err _ => Node [] end.

Lemma sel_constructible ps : match MFSModel.make id_ord (map AFS ps) with Ok _ => true | Err _ => false end = true ->
  constructible (sel ps).
Proof.
  unfold sel. destruct (MFSModel.make id_ord (map AFS ps)) as [m|] eqn:E; [|discriminate]. intros _.
  apply (constructed id_ord (map AFS ps)); auto using id_set_order.
  intros m' H. apply in_map_iff in H as (p&Hp&_). discriminate.
Qed.

Definition m1 := sel [[EStr (t "name")]; [EStr (t "friends"); ENone; EStr (t "age")]; [EStr (t "book"); EStr (t "x")]].

Example C11_case : plain_selector x_unset x_isnone m1 /\
  xmget m1 ann = Ok (ORec Person [(t "name", txt "ann");
    (t "friends", OList (Some People) [ORec Person []; ORec Person [(t "age", num 3)]]);
    (t "book", ODict (Some Book) [(EStr (t "x"), person "dee" [])])]) /\
  reach ann [EStr (t "book"); EStr (t "x"); EStr (t "name")] (txt "dee") /\
  contains m1 [EStr (t "book"); EStr (t "x"); EStr (t "name")] = true /\
  contains m1 [EStr (t "age")] = false.
Proof.
  split; [|split; [reflexivity|split; [|split; reflexivity]]].
  - split; [apply sel_constructible; reflexivity|]. split; [discriminate|].
    intros [n|i|] (p&Hp&Hi); auto.
    + intros c b H. discriminate.
    + vm_compute in Hp. destruct Hp as [<-|[<-|[<-|[]]]]; simpl in Hi; repeat destruct Hi as [Hi|Hi]; try discriminate; auto.
  - econstructor; [reflexivity|]. econstructor; [reflexivity|]. econstructor; [reflexivity|]. constructor.
Qed.

Example C11_list_case :
  xmget (Node [(EInt 2, None); (EInt 0, None)]) (OList None [num 5; num 6; num 7]) = Ok (OList None [num 5; num 7]).
Proof. reflexivity. Qed.

(** With list indices the item is not found under its own path any more. *)
Theorem C11_list_index_refuted : exists m (o o' : O) q v,
  constructible m /\ xmget m o = Ok o' /\ reach o q v /\ contains m q = true /\ ~ exists v', reach o' q v'.
Proof.
  exists (sel [[EInt 1]]), (OList None [num 5; num 6]), (OList None [num 6]), [EInt 1], (num 6).
  split; [apply sel_constructible; reflexivity|]. repeat split.
  - change (EInt 1) with (EInt (Z.of_nat 1)). econstructor; [reflexivity|]. constructor.
  - intros [v' H]. inversion H as [| | |c xs i x q v0 G R E1]; subst.
    destruct i as [|[|i]]; simpl in *; try discriminate; try lia.
Qed.

(** A class with a default shows it in fields that were not selected. *)
Definition d_rec (c : klass) (kw : list (str * O)) : res O :=
  Ok (ORec c (match dict_get str_eqb kw (t "age") with Some _ => kw | None => kw ++ [(t "age", num 18)] end)).

Theorem C11_defaults_refuted : exists m (o o' : O) q v v',
  constructible m /\ mget x_attr x_unset x_isnone d_rec n_atom n_list n_dict m o = Ok o' /\
  reach o q v /\ reach o' q v' /\ v' <> v /\ forall r, contains m (q ++ r) = false.
Proof.
  exists (sel [[EStr (t "name")]]), ann, (person "ann" [(t "age", num 18)]), [EStr (t "age")], (num 40), (num 18).
  split; [apply sel_constructible; reflexivity|]. split; [reflexivity|].
  split; [econstructor; [reflexivity|]; constructor|].
  split; [econstructor; [reflexivity|]; constructor|].
  split; [discriminate|]. intros r. destruct r; reflexivity.
Qed.

(** Selecting below a plain value replaces it by an empty value of its type. *)
Theorem C11_below_plain_value_refuted : exists m (o o' : O) q v v',
  constructible m /\ xmget m o = Ok o' /\ reach o q v /\ reach o' q v' /\ v' <> v.
Proof.
  exists (sel [[EStr (t "name"); EStr (t "first")]]), (person "ann" []), (person "" []), [EStr (t "name")], (txt "ann"), (txt "").
  split; [apply sel_constructible; reflexivity|]. split; [reflexivity|].
  split; [econstructor; [reflexivity|]; constructor|].
  split; [econstructor; [reflexivity|]; constructor|]. discriminate.
Qed.

Definition m2 := sel [[EStr (t "age")]; [EStr (t "boss"); EStr (t "age")]; [EStr (t "book"); EStr (t "x")]].
Definition bea : O := person "bea" [(t "age", num 4); (t "boss", person "ann" [(t "age", num 50)]);
   (t "book", ODict (Some Book) [(EStr (t "x"), person "dee" []); (EStr (t "y"), person "eve" [])])].

Example C12_case : name_selector m2 /\
  xmdelete m2 false bea = (None, person "bea" [(t "boss", person "ann" []);
    (t "book", ODict (Some Book) [(EStr (t "y"), person "eve" [])])]) /\
  (forall n, mentions m2 (EStr n) -> bare x_str x_indexable x_item x_attr x_unset n /\ forall c, x_erase c n true = None) /\
  (exists e, xmdelete m2 false ann = (Some e, ann)).
Proof.
  split; [|split; [reflexivity|split]].
  - split; [apply sel_constructible; reflexivity|]. intros p Hp. vm_compute in Hp.
    destruct Hp as [<-|[<-|[<-|[]]]]; repeat constructor; eexists; reflexivity.
  - intros n (p&Hp&Hi). split.
    + split; [reflexivity|]. intros a x. destruct a; discriminate.
    + intros c. vm_compute in Hp. unfold x_erase. destruct (str_eqb n (t "name")) eqn:E; auto. exfalso.
      apply str_eqb_eq in E. subst n.
      destruct Hp as [<-|[<-|[<-|[]]]]; simpl in Hi; repeat destruct Hi as [Hi|Hi]; try discriminate; auto.
  - eexists. reflexivity.
Qed.

Ltac tidy_tac := repeat (simpl; match goal with
  | |- tidy_obj _ _ (txt _) => constructor
  | |- tidy_obj _ _ (num _) => constructor
  | |- tidy_obj _ _ _ => constructor
  | |- NoDup _ => constructor
  | |- ~ _ => intuition discriminate
  | |- _ = _ => reflexivity
  | |- forall (n : _) (x : _), _ -> _ => let H := fresh in intros ? ? H; simpl in H; repeat destruct H as [H|H]; try contradiction; inversion H; subst; clear H
  | |- forall (x : _), _ -> _ => let H := fresh in intros ? H; simpl in H; repeat destruct H as [H|H]; try contradiction; subst
  end).

Example C12_tidy_case : tidy_obj true true bea.
Proof. unfold bea, person. tidy_tac. Qed.

Example C12_force_case :
  xmdelete (sel [[EStr (t "age")]; [EStr (t "boss"); EStr (t "age")]]) true (person "bea" [(t "age", num 4)]) = (None, person "bea" []) /\
  tidy_obj false false (person "bea" [(t "age", num 4)]).
Proof. split; [reflexivity|]. unfold person. tidy_tac. Qed.

(** List items: deleting one shifts the next, so the wrong ones go, ... *)
Theorem C12_list_items_refuted : exists m (o o' : O),
  constructible m /\ MFSModel.iter m = [[EInt 0]; [EInt 1]] /\
  o = OList None [num 10; num 11; num 12] /\
  xmdelete m false o = (None, OList None [num 11]).
Proof.
  exists (sel [[EInt 0]; [EInt 1]]), (OList None [num 10; num 11; num 12]), (OList None []).
  split; [apply sel_constructible; reflexivity|]. repeat split.
Qed.

(** ... or delete raises halfway although everything selected was there. *)
Theorem C12_list_items_midway_refuted : exists m (o o' : O) e,
  constructible m /\ (forall p, In p (MFSModel.iter m) -> exists v, xget p o = Ok v) /\
  xmdelete m false o = (Some e, o') /\ o' <> o.
Proof.
  exists (sel [[EInt 0]; [EInt 1]]), (OList None [num 10; num 11]), (OList None [num 11]), IndexErr.
  split; [apply sel_constructible; reflexivity|]. split.
  - intros p [<-|[<-|[]]]; eexists; reflexivity.
  - split; [reflexivity|discriminate].
Qed.

(** A required attribute among the selected ones: the ones before it are gone. *)
Theorem C12_required_midway_refuted : exists m (o o' : O) e,
  name_selector m /\ (forall p, In p (MFSModel.iter m) -> exists v, xget p o = Ok v) /\
  xmdelete m false o = (Some e, o') /\ o' <> o.
Proof.
  exists (sel [[EStr (t "age")]; [EStr (t "name")]]), (person "bea" [(t "age", num 4)]), (person "bea" []), ValueErr.
  split; [|split; [|split; [reflexivity|discriminate]]].
  - split; [apply sel_constructible; reflexivity|]. intros p [<-|[<-|[]]]; repeat constructor; eexists; reflexivity.
  - intros p [<-|[<-|[]]]; eexists; reflexivity.
Qed.

(** force does not help against missing dict keys. *)
Theorem C12_force_dict_refuted : exists m (o : O),
  name_selector m /\ xmdelete m true o = (Some KeyErr, o).
Proof.
  exists (sel [[EStr (t "x")]]), (ODict None []). split; [|reflexivity].
  split; [apply sel_constructible; reflexivity|]. intros p [<-|[]]; repeat constructor; eexists; reflexivity.
Qed.

Definition y_call (c : klass) (kw : option (str * O)) : res O := match c with Book => Err TypeErr | _ => x_call c kw end.
Notation ypatch := (patch x_none x_key x_str x_indexable x_item x_attr x_iter x_len x_unset x_store x_erase x_istore x_itemtype x_valuetype y_call).

Definition m3 := sel [[EStr (t "age")]; [EStr (t "boss"); EStr (t "name")]; [EStr (t "boss"); EStr (t "age")]; [EStr (t "boss"); EStr (t "friends")]].
Definition src : O := person "src" [(t "boss", person "top" [(t "friends", OList (Some People) [])])].

Example C47_case : name_selector m3 /\ tidy_obj false true src /\
  tidy_obj false true (person "tgt" [(t "age", num 4)]) /\
  (forall n c, mentions m3 (EStr n) -> x_unset c n = None) /\
  ypatch m3 (person "tgt" [(t "age", num 4)]) src
  = (None, person "tgt" [(t "boss", person "top" [(t "friends", OList (Some People) [])])]).
Proof.
  split; [|split; [|split; [|split; [|vm_compute; reflexivity]]]].
  - split; [apply sel_constructible; reflexivity|]. intros p Hp. vm_compute in Hp.
    destruct Hp as [<-|[<-|[<-|[<-|[]]]]]; repeat constructor; eexists; reflexivity.
  - unfold src, person. tidy_tac.
  - unfold person. tidy_tac.
  - reflexivity.
Qed.

Example C47_keeps_case : keeps x_none x_key x_str x_indexable x_item x_attr x_iter x_unset x_store x_istore y_call kept.
Proof.
  destruct C07_keeps_case as (H1&H2&H3&H4). split; [exact H1|]. split; [exact H2|]. split; [exact H3|].
  intros ty n v x c m x' H. destruct ty; simpl in H; try discriminate; apply (H4 Person); exact H.
Qed.

Example C47_keeps_tidy_case : keeps_tidy (T := klass) x_store x_istore y_call false true.
Proof.
  split; [|split; [|split]].
  - intros c n v v' H Hv. unfold x_store in H. destruct (str_eqb n (t "age")); [|inversion H; subst; auto].
    destruct v as [[|s|z]| | |]; inversion H; subst; constructor.
  - intros c v v' H Hv. unfold x_istore in H. destruct v; inversion H; subst; auto.
  - intros ty x H. destruct ty; simpl in H; inversion H; subst; tidy_tac.
  - intros ty n v x H Hv. destruct ty; simpl in H; try discriminate.
    destruct (x_store Person n v) as [v'|] eqn:E; simpl in H; inversion H; subst.
    constructor; [tidy_tac|]. intros m y [Hy|[]]. inversion Hy; subst.
    unfold x_store in E. destruct (str_eqb m (t "age")); [|inversion E; subst; auto].
    destruct v as [[|s|z]| | |]; inversion E; subst; constructor.
Qed.

End Cases.

Print Assumptions C11_selected_is_kept.
Print Assumptions C11_above_is_there.
Print Assumptions C11_nothing_else.
Print Assumptions C11_complete_copies.
Print Assumptions C11_list_indices.
Print Assumptions C12_missing_raises_unchanged.
Print Assumptions C12_removes_exactly.
Print Assumptions C12_force.
Print Assumptions C47_patch.
Print Assumptions C47_frame.
Print Assumptions C47_unreadable_source.
Print Assumptions C11_list_index_refuted.
Print Assumptions C11_defaults_refuted.
Print Assumptions C11_below_plain_value_refuted.
Print Assumptions C12_list_items_refuted.
Print Assumptions C12_list_items_midway_refuted.
Print Assumptions C12_required_midway_refuted.
Print Assumptions C12_force_dict_refuted.
