(** C51: the catalogue of types. *)
From Coq Require Import String List NArith ZArith Arith Bool Lia.
From Verif Require Import Prelude SelPathModel GenModel PickleModel AutoModel JsonModel JsonSpec
  VisitModel VisitSpec ReflectModel ReflectSpec ReflectProofs.
Import ListNotations.
Local Open Scope string_scope.
Local Open Scope list_scope.

(** ** C51 *)

(** Everything reachable from the type, through properties on show and item types, is described in its
    place: records and collections by their names, properties and items of plain types by name and type. *)
Theorem C51_complete : forall W cname pname iname alts extraneous c,
  (forall d, NoDup (map q_name (w_props W d))) -> finite W alts extraneous c ->
  exists N doc, (forall n, N <= n -> reflect W cname pname iname alts extraneous n c = Ok doc)
    /\ forall q t, walk W alts extraneous c q t ->
       exists x, doc_at doc q = Some x /\ says cname pname iname alts t x.
Proof.
  intros W cname pname iname alts extraneous c ND F.
  destruct (finite_reflect W cname pname iname alts extraneous c F) as (n & x & E).
  exists n, x. split; [intros m L; eapply reflect_mono; eauto|].
  intros q t H. eapply reflect_walk; eauto.
Qed.

(** Nothing else is described. *)
Theorem C51_only : forall W cname pname iname alts extraneous n c doc,
  (forall d, NoDup (map q_name (w_props W d))) ->
  reflect W cname pname iname alts extraneous n c = Ok doc ->
  forall q x, doc_at doc q = Some x ->
  exists t, walk W alts extraneous c q t /\ says cname pname iname alts t x.
Proof.
  intros W cname pname iname alts extraneous n c doc ND E q x H.
  destruct (reflect_only W cname pname iname alts extraneous ND q c n doc x E H) as (t & T).
  exists t. split; [exact T|].
  destruct (reflect_walk W cname pname iname alts extraneous ND c q t T n doc E) as (y & Y & S). congruence.
Qed.

(** It ends exactly when no way through the types goes on for ever. *)
Theorem C51_terminates : forall W cname pname iname alts extraneous c,
  (forall d, NoDup (map q_name (w_props W d))) ->
  ((exists n doc, reflect W cname pname iname alts extraneous n c = Ok doc) <-> finite W alts extraneous c).
Proof.
  intros W cname pname iname alts extraneous c ND. split.
  - intros (n & doc & E). eapply reflect_finite; eauto.
  - apply finite_reflect.
Qed.

(** So a type that can contain itself has no catalogue, whatever the stack ([seen], visitor.py:85, is
    not used). *)
Theorem C51_recursive_refuted : forall W cname pname iname alts extraneous c,
  (forall d, NoDup (map q_name (w_props W d))) -> reaches W alts extraneous c c ->
  forall n, reflect W cname pname iname alts extraneous n c = Err RecursionErr.
Proof.
  intros W cname pname iname alts extraneous c ND R n.
  destruct (reflect W cname pname iname alts extraneous n c) as [x|e] eqn:E.
  - exfalso. eapply finite_no_loop; [|exact R]. eapply reflect_finite; eauto.
  - f_equal. eapply reflect_err; eauto.
Qed.

(** What visiting a value shows (C42) is described in the catalogue of its type, at the place its
    position says. *)
Theorem C51_covers_output : forall W cname pname iname o P n c doc v,
  (forall d, NoDup (map q_name (w_props W d))) ->
  reflect W cname pname iname no_alts (v_extraneous o) n c = Ok doc ->
  declared_records W o P c v ->
  forall q r,
  (forall d w, leads W o P c v [] q r (SNode d w) ->
     exists s x, Forall2 along q s /\ doc_at doc s = Some x /\ says cname pname iname no_alts (AType d) x)
  /\ (forall p w, leads W o P c v [] q r (SLeaf (Some p) w) ->
     exists s x, Forall2 along q s /\ doc_at doc s = Some x /\ says cname pname iname no_alts (AProp p) x)
  /\ (forall w, leads W o P c v [] q r (SLeaf None w) ->
     exists s x, Forall2 along q s /\ doc_at doc s = Some x).
Proof.
  intros W cname pname iname o P n c doc v ND E DR q r.
  assert (G : forall sp, leads W o P c v [] q r sp ->
    exists s x t, Forall2 along q s /\ doc_at doc s = Some x /\ says cname pname iname no_alts t x /\ spot_place sp t).
  { intros sp L. destruct (covers W o P c v [] q r sp L DR) as (q1 & s & t & -> & F2 & Wk & SP).
    destruct (reflect_walk W cname pname iname no_alts (v_extraneous o) ND c s t Wk n doc E) as (x & X & S).
    exists s, x, t. auto. }
  split; [|split].
  - intros d w L. destruct (G _ L) as (s & x & t & F2 & X & S & SP). destruct t; try destruct SP. eauto.
  - intros p w L. destruct (G _ L) as (s & x & t & F2 & X & S & SP). destruct t; try destruct SP. eauto.
  - intros w L. destruct (G _ L) as (s & x & t & F2 & X & S & SP). eauto.
Qed.

(** ** Examples *)
Definition fld (n : string) (t : vtype) (ext : bool) : prop :=
  {| q_name := s2l n; q_json := true; q_jname := None; q_in := None; q_out := None; q_type := t;
     q_check := fun _ => true; q_required := false; q_default := None; q_extraneous := ext |}.
Definition prim : vtype := TPrim (fun _ => true) (fun v => Val v).
(** Order: id, customer Person, lines Lines, secret; Person: name; Lines: list of Line; Line: sku;
    Tree: children Trees; Trees: list of Tree; Either: it is a Person or a Line or text; Loose: thing *)
Definition ex_world : world := {|
  w_kind := fun c => match c with 2 | 5 => KList | _ => KRecord end;
  w_props := fun c => match c with
    | 0 => [fld "id" prim false; fld "customer" (TCls 1 None) false; fld "lines" (TCls 2 None) false; fld "secret" TAny true]
    | 1 => [fld "name" prim false]
    | 3 => [fld "sku" prim false]
    | 4 => [fld "children" (TCls 5 None) false]
    | 6 => [fld "it" TAny false]
    | 7 => [fld "thing" TAny false]
    | _ => [] end;
  w_item := fun c => match c with 2 => TCls 3 None | 5 => TCls 4 None | _ => prim end;
  w_sub := fun a b => Nat.eqb a b |}.
Definition ex_cname (c : nat) : str :=
  s2l match c with 0 => "Order" | 1 => "Person" | 2 => "Lines" | 3 => "Line" | 4 => "Tree" | 5 => "Trees" | 6 => "Either" | _ => "Loose" end.
Definition ex_alts (p : prop) : list (nat + str) :=
  if str_eqb (q_name p) (s2l "it") then [inr (s2l "str"); inl 1; inl 3] else [].
Definition ex_reflect := reflect ex_world ex_cname (fun _ => s2l "str") (fun _ => s2l "str") ex_alts.

Lemma ex_distinct : forall d, NoDup (map q_name (w_props ex_world d)).
Proof.
  intros d. do 8 (destruct d as [|d]; [cbn; repeat (apply NoDup_cons; [cbn; intuition discriminate|]); apply NoDup_nil|]).
  constructor.
Qed.

(** Of the types a property may have, the catalogue describes the first record type only. *)
Theorem C51_union_refuted : exists doc,
  (forall n, 2 <= n -> ex_reflect false n 6 = Ok doc)
  /\ In (inl 3) (ex_alts (fld "it" TAny false)) /\ In (fld "it" TAny false) (w_props ex_world 6)
  /\ forall q x, doc_at doc q = Some x -> member (s2l "name") x <> Some (PStr (ex_cname 3)).
Proof.
  eexists. split; [|split; [|split]].
  - intros n L. eapply reflect_mono with (n := 2); [vm_compute; reflexivity|exact L].
  - vm_compute. auto.
  - vm_compute. auto.
  - intros q x H.
    destruct (C51_only ex_world ex_cname (fun _ => s2l "str") (fun _ => s2l "str") ex_alts false 2 6 _ ex_distinct eq_refl q x H)
      as (t & T & S).
    inversion T as [c E1|c p I O N E1 E2 E3|c p d q' t' I O D T' E1 E2|c C N E1 E2 E3|c d co q' t' C I T' E1 E2]; subst.
    + destruct S as [S _]. rewrite S. vm_compute. discriminate.
    + destruct I as [<-|[]]. exfalso. apply (N 1). right. exists [s2l "str"], [inl 3]. reflexivity.
    + destruct I as [<-|[]].
      assert (d = 1).
      { eapply (declared_one ex_alts); [exact D|]. right. exists [s2l "str"], [inl 3]. reflexivity. }
      subst d. clear D T H O.
      inversion T' as [c E1|c p I O N E1 E2 E3|c p d q2 t2 I O D T2 E1 E2|c C N E1 E2 E3|c d co q2 t2 C I T2 E1 E2]; subst.
      * destruct S as [S _]. rewrite S. vm_compute. discriminate.
      * destruct I as [<-|[]]. destruct S as [S _]. rewrite S. vm_compute. discriminate.
      * destruct I as [<-|[]]. destruct D as [[_ [co D]]|(pl & r & D)]; [discriminate|]. destruct pl; discriminate.
      * destruct C as [C _]. exfalso. apply C. reflexivity.
      * destruct C as [C _]. exfalso. apply C. reflexivity.
    + destruct C as [C _]. exfalso. apply C. reflexivity.
    + destruct C as [C _]. exfalso. apply C. reflexivity.
Qed.

(** A record held by a property without declared type is shown by visiting and described nowhere. *)
Theorem C51_undeclared_refuted : exists v q r w doc,
  leads ex_world default_opts None 7 v [] q r (SNode 1 w)
  /\ (forall n, 1 <= n -> ex_reflect false n 7 = Ok doc)
  /\ forall s x, doc_at doc s = Some x -> member (s2l "name") x <> Some (PStr (ex_cname 1)).
Proof.
  exists (PObj 7 [(s2l "thing", PObj 1 [(s2l "name", PStr (s2l "Ann"))])]).
  exists [EStr (s2l "thing")], [EStr (s2l "thing")], (PObj 1 [(s2l "name", PStr (s2l "Ann"))]).
  eexists. split; [|split].
  - apply (ld_slot ex_world default_opts None 7 7 _ [] (fld "thing" TAny false) (PObj 1 [(s2l "name", PStr (s2l "Ann"))]) 1).
    + left. reflexivity.
    + split; [|exact I]. intros [H _]. discriminate.
    + reflexivity.
    + eexists. reflexivity.
    + apply ld_here.
  - intros n L. eapply reflect_mono with (n := 1); [vm_compute; reflexivity|exact L].
  - intros q x H.
    destruct (C51_only ex_world ex_cname (fun _ => s2l "str") (fun _ => s2l "str") ex_alts false 1 7 _ ex_distinct eq_refl q x H)
      as (t & T & S).
    inversion T as [c E1|c p I O N E1 E2 E3|c p d q' t' I O D T' E1 E2|c C N E1 E2 E3|c d co q' t' C I T' E1 E2]; subst.
    + destruct S as [S _]. rewrite S. vm_compute. discriminate.
    + destruct I as [<-|[]]. destruct S as [S _]. rewrite S. vm_compute. discriminate.
    + destruct I as [<-|[]]. destruct D as [[_ [co D]]|(pl & r & D)]; [discriminate|]. destruct pl; discriminate.
    + destruct C as [C _]. exfalso. apply C. reflexivity.
    + destruct C as [C _]. exfalso. apply C. reflexivity.
Qed.

Example C51_case : finite ex_world ex_alts false 0 /\
  ex_reflect false 5 0 = Ok (PDict [
    (s2l "name", PStr (s2l "Order"));
    (s2l "properties", PDict [
       (s2l "id", PDict [(s2l "name", PStr (s2l "id")); (s2l "type", PStr (s2l "str"))]);
       (s2l "customer", PDict [(s2l "name", PStr (s2l "Person"));
          (s2l "properties", PDict [(s2l "name", PDict [(s2l "name", PStr (s2l "name")); (s2l "type", PStr (s2l "str"))])])]);
       (s2l "lines", PDict [(s2l "name", PStr (s2l "Lines"));
          (s2l "itemtype", PDict [(s2l "name", PStr (s2l "Line"));
             (s2l "properties", PDict [(s2l "sku", PDict [(s2l "name", PStr (s2l "sku")); (s2l "type", PStr (s2l "str"))])])])])])]).
Proof.
  split; [|vm_compute; reflexivity].
  apply (C51_terminates ex_world ex_cname (fun _ => s2l "str") (fun _ => s2l "str") ex_alts false 0 ex_distinct).
  exists 5. eexists. vm_compute. reflexivity.
Qed.
Example C51_walk_case : walk ex_world ex_alts false 0 [QProp (s2l "lines"); QItem; QProp (s2l "sku")] (AProp (fld "sku" prim false)).
Proof.
  apply (wk_prop ex_world ex_alts false 0 (fld "lines" (TCls 2 None) false) 2).
  - cbn. auto.
  - intros H. discriminate.
  - left. split; [reflexivity|]. eexists. reflexivity.
  - apply (wk_item ex_world ex_alts false 2 3 None); [split; discriminate|reflexivity|].
    apply (wk_leaf ex_world ex_alts false 3 (fld "sku" prim false)); [cbn; auto|intros H; discriminate|].
    intros d [[_ [co D]]|(pl & r & D)]; [discriminate|]. destruct pl; discriminate.
Qed.
Example C51_recursive_case : reaches ex_world ex_alts false 4 4.
Proof.
  apply (rch_more _ _ _ 4 5 4).
  - left. exists (fld "children" (TCls 5 None) false). split; [cbn; auto|]. split; [intros H; discriminate|].
    left. split; [reflexivity|]. eexists. reflexivity.
  - apply rch_one. right. split; [split; discriminate|]. eexists. reflexivity.
Qed.
(** A value that meets the hypothesis of [C51_covers_output]. *)
Example C51_covers_case : declared_records ex_world default_opts None 1 (PObj 1 [(s2l "name", PStr (s2l "Ann"))]).
Proof.
  intros q r d c' sl p x L I T. exfalso. revert T.
  inversion L as [c v q0 E1 E2 E3 E4 E5|  |c c1 sl1 q0 p1 x1 d1 q' r1 t I1 S1 F1 SE1 L1| |c c1 sl1 q0 k x1 d1 co q' r1 r2 t C1 I1 T1 L1 U1]; subst.
  - destruct I as [<-|[]]. discriminate.
  - destruct I1 as [<-|[]]. destruct SE1.
  - destruct C1 as [C1 _]. intros _. apply C1. reflexivity.
Qed.

Print Assumptions C51_complete.
Print Assumptions C51_only.
Print Assumptions C51_terminates.
Print Assumptions C51_recursive_refuted.
Print Assumptions C51_covers_output.
Print Assumptions C51_union_refuted.
Print Assumptions C51_undeclared_refuted.
