(** Selectors and their source text: C62. *)
From Coq Require Import String List NArith ZArith Arith Bool Lia.
From Verif Require Import Prelude SelPathModel FSModel MFSModel MFSProofs MFSProps ReprModel ReprSpec SelReprModel
  SelReprSpec SelReprProofs.
Import ListNotations.
Local Open Scope list_scope.

Lemma named_readable p : named p -> Forall readable p.
Proof. intros H. apply Forall_forall. intros [s|i|] Hin; cbn; auto. Qed.

(** [eval(repr(fs))] is a selector with the same elements, whatever the names look like. *)
Theorem C62_field_selector : forall printable num_value ord scope cls l,
  identifier cls -> scope cls = Some CFS -> named l ->
  eval_selector ord scope num_value (fs_repr printable cls l) = Some (Ok (OneSel (map Good l))).
Proof.
  intros printable nv ord scope cls l Hc Hs Hl. unfold eval_selector.
  rewrite fs_reads by (auto; apply named_readable; exact Hl). cbn [sel_call]. rewrite Hs, call_elems. reflexivity.
Qed.

(** [eval(repr(mfs))] selects the same, and iterates over the same selectors; of any selector a program
    can build, the empty one included. *)
Theorem C62_multi_field_selector : forall printable num_value ord scope m,
  set_order ord -> constructible m -> scope (s2l "MultiFieldSelector") = Some CMFS ->
  (forall p, In p (iter m) -> named p) ->
  exists m', eval_selector ord scope num_value (mfs_repr printable m) = Some (Ok (ManySel m'))
    /\ (forall q, contains m' q = contains m q)
    /\ forall p, In p (iter m') <-> In p (iter m).
Proof.
  intros printable nv ord scope m Ho Hc Hs Hn.
  destruct (rebuild_iter ord Ho m Hc) as (m' & E & _ & Q & I). exists m'. split; [|split; assumption].
  unfold eval_selector. rewrite mfs_reads by (intros p Hp; apply named_readable, Hn, Hp).
  cbn [sel_call]. rewrite Hs, args_elems. cbn [option_map bind]. rewrite E. reflexivity.
Qed.

(** Different selectors have different source. *)
Theorem C62_injective : forall printable cls l l', identifier cls -> named l -> named l' ->
  fs_repr printable cls l = fs_repr printable cls l' -> l = l'.
Proof.
  intros printable cls l l' Hc H H' E.
  pose proof (C62_field_selector printable (fun _ => None) (fun x => x) (fun _ => Some CFS) cls l Hc eq_refl H) as A.
  pose proof (C62_field_selector printable (fun _ => None) (fun x => x) (fun _ => Some CFS) cls l' Hc eq_refl H') as B.
  rewrite E, B in A. injection A as A. clear -A. revert l A.
  induction l' as [|x l' IH]; intros [|y l] A; cbn in A; try discriminate; auto.
  injection A as -> A. f_equal. auto.
Qed.
Theorem C62_multi_injective : forall printable m m', constructible m -> constructible m' ->
  (forall p, In p (iter m) -> named p) -> (forall p, In p (iter m') -> named p) ->
  mfs_repr printable m = mfs_repr printable m' -> iter m = iter m' /\ forall q, contains m q = contains m' q.
Proof.
  intros printable m m' Hc Hc' H H' E.
  assert (P : forall x, (forall p, In p (iter x) -> named p) -> forall p, In p (iter x) -> Forall readable p)
    by (intros x Hx p Hp; apply named_readable, Hx, Hp).
  pose proof (mfs_reads printable (fun _ => None) m (P m H)) as A.
  pose proof (mfs_reads printable (fun _ => None) m' (P m' H')) as B.
  rewrite E, B in A. injection A as A.
  assert (I : iter m = iter m').
  { clear -A. revert A. generalize (iter m) (iter m'). intros a. induction a as [|x a IH]; intros [|y b] A; cbn in A; try discriminate; auto.
    injection A as A1 A2. f_equal; [|apply IH; exact A2].
    clear -A1. revert y A1. induction x as [|e x IH]; intros [|e' y] A1; cbn in A1; try discriminate; auto.
    injection A1 as A1 A2. f_equal; [|auto].
    destruct e, e'; cbn in A1; congruence. }
  split; [exact I|]. intros q. apply eq_true_iff_eq.
  rewrite (iter_contains m (constructible_wf m Hc) q), (iter_contains m' (constructible_wf m' Hc') q), I. reflexivity.
Qed.

(** Which selectors a multi field selector iterates over: those given that do not lie within others. *)
Theorem C62_iteration : forall ord ps m, set_order ord -> make ord (map AFS ps) = Ok m ->
  forall p, In p (iter m) <-> outermost ps p.
Proof.
  intros ord ps m Ho E p.
  assert (Ha : args_ok (map AFS ps)).
  { intros x Hx. apply in_map_iff in Hx as [q [Eq _]]. discriminate. }
  rewrite (build_iter ord Ho _ _ _ (args_ok_good _ Ha) E p).
  assert (P : forall x, In x (paths (map AFS ps)) <-> exists g, In g ps /\ as_wildcard g x).
  { intros x. unfold paths. rewrite in_map_iff. split.
    - intros (g & <- & Hg). apply in_flat_map in Hg as (a & Ha1 & Hg). apply in_map_iff in Ha1 as (g' & <- & Ha1).
      destruct Hg as [<-|[]]. exists g'. split; [exact Ha1|]. destruct g' as [|e g']; [right; auto|left].
      split; [discriminate|reflexivity].
    - intros (g & Hg & W). exists g. split.
      + destruct W as [[W ->]|[-> ->]]; [|reflexivity]. destruct g; [congruence|reflexivity].
      + apply in_flat_map. exists (AFS g). split; [apply in_map; exact Hg|left; reflexivity]. }
  unfold outermost. rewrite P. split; intros [H1 H2]; (split; [exact H1|]).
  - intros g h t Hg W ->. assert (Q : h = h ++ t).
    { apply H2; [apply P; eauto|exists t; reflexivity]. }
    rewrite <- (app_nil_r h) in Q at 1. apply app_inv_head in Q. auto.
  - intros p' Hp' [t ->]. apply P in Hp' as (g & Hg & W). rewrite (H2 g p' t Hg W eq_refl), app_nil_r. reflexivity.
Qed.

(** ** Examples *)
Definition S_ (s : string) : elem := EStr (s2l s).
Definition ascii_printable (c : N) : bool := false.
Definition both (n : str) : option ctor :=
  if str_eqb n (s2l "FieldSelector") then Some CFS
  else if str_eqb n (s2l "MultiFieldSelector") then Some CMFS else None.
Definition no_floats (_ : str) : option nat := None.

Example C62_text :
  let l := [EStr (s2l "it's"); EInt (-3); ENone; EStr [10%N; 8364%N]; EStr []] in
  named l /\ both (s2l "FieldSelector") = Some CFS /\ identifier (s2l "FieldSelector") /\
  fs_repr ascii_printable (s2l "FieldSelector") l
  = s2l "FieldSelector([""it's"", -3, None, '\n\u20ac', ''])" /\
  eval_selector id_ord both no_floats (s2l "FieldSelector([""it's"", -3, None, '\n\u20ac', ''])")
  = Some (Ok (OneSel (map Good l))).
Proof.
  cbv zeta. split; [|split; [reflexivity|split; [|split; vm_compute; reflexivity]]].
  - intros s [E|[E|[E|[E|[E|[]]]]]]; try discriminate; injection E as <-; repeat constructor; vm_compute; reflexivity.
  - apply identifier_check. split; reflexivity.
Qed.
Example C62_texts :
  exists m one none,
    make id_ord [AFS [S_ "a"; S_ "b"]; AFS [S_ "c"; ENone; EInt 1]; AFS [S_ "a"; S_ "b"; S_ "z"]] = Ok m /\ constructible m /\
    mfs_repr ascii_printable m = s2l "MultiFieldSelector(['a', 'b'], ['c', None, 1])" /\
    eval_selector id_ord both no_floats (mfs_repr ascii_printable m) = Some (Ok (ManySel m)) /\
    outermost [[S_ "a"; S_ "b"]; [S_ "a"; S_ "b"; S_ "z"]] [S_ "a"; S_ "b"] /\
    make id_ord [AFS []] = Ok one /\ mfs_repr ascii_printable one = s2l "MultiFieldSelector([None],)" /\
    eval_selector id_ord both no_floats (mfs_repr ascii_printable one) = Some (Ok (ManySel one)) /\
    make id_ord [] = Ok none /\ mfs_repr ascii_printable none = s2l "MultiFieldSelector()" /\
    eval_selector id_ord both no_floats (mfs_repr ascii_printable none) = Some (Ok (ManySel none)).
Proof.
  eexists _, _, _.
  split; [vm_compute; reflexivity|].
  split. { refine (constructed id_ord [AFS [S_ "a"; S_ "b"]; AFS [S_ "c"; ENone; EInt 1]; AFS [S_ "a"; S_ "b"; S_ "z"]] _ id_set_order _ _).
           - intros m' [E|[E|[E|[]]]]; discriminate.
           - vm_compute. reflexivity. }
  split; [vm_compute; reflexivity|]. split; [vm_compute; reflexivity|].
  split. { split.
           - exists [S_ "a"; S_ "b"]. split; [left; reflexivity|]. left. split; [discriminate|reflexivity].
           - intros g h t [<-|[<-|[]]] [[_ ->]|[E _]] Q; try discriminate; injection Q; auto. }
  repeat (split; [vm_compute; reflexivity|]). vm_compute. reflexivity.
Qed.
(** What other source does *)
Example C62_other_source :
  eval_selector id_ord both no_floats (s2l "FieldSelector('ab')") = Some (Ok (OneSel [Good (S_ "a"); Good (S_ "b")])) /\
  eval_selector id_ord both no_floats (s2l "FieldSelector([('a',)])") = Some (Err ValueErr) /\
  eval_selector id_ord both no_floats (s2l "FieldSelector(['a'], ['b'])") = Some (Err TypeErr) /\
  eval_selector id_ord both no_floats (s2l "MultiFieldSelector(['a'], [None])") = Some (Err ValueErr).
Proof. repeat split; vm_compute; reflexivity. Qed.

Print Assumptions C62_field_selector.
Print Assumptions C62_multi_field_selector.
Print Assumptions C62_injective.
Print Assumptions C62_multi_injective.
Print Assumptions C62_iteration.
