(** C58: filtered copies, patching and deletion on shared and cyclic objects. *)
From Coq Require Import String List Arith NArith ZArith Bool Lia.
From Verif Require Import Prelude SelPathModel FSModel PySeq MFSModel MFSTreeModel HeapModel HeapSpec HeapProofs
  HeapProps HeapMFSModel HeapMFSSpec HeapMFSProofs.
Import ListNotations.
Local Open Scope list_scope.

Section Props.
Context {A C T : Type}.
Notation val := (val A).
Notation cell := (cell A C).
Notation heap := (heap A C).
Variable a_none : A.
Variable a_key : elem -> A.
Variable a_str : A -> bool.
Variable a_indexable : A -> bool.
Variable a_item : A -> elem -> res A.
Variable a_attr : A -> str -> option A.
Variable a_iter : A -> res (list A).
Variable a_len : A -> Z.
Variable a_isnone : A -> bool.
Variable unset : C -> str -> option A.
Variable store : heap -> C -> str -> val -> res (list cell * val).
Variable istore : heap -> C -> val -> res (list cell * val).
Variable erase : C -> str -> bool -> option exn.
Variable fuel : nat.
Variable itemtype : C -> res T.
Variable valuetype : C -> str -> res T.
Variable call : heap -> T -> option (str * val) -> res (list cell * val).
Variable new_rec : heap -> C -> list (str * val) -> res (list cell * val).
Variable new_atom : heap -> A -> list (str * val) -> res (list cell * val).
Variable new_list : heap -> C -> list val -> res (list cell * val).
Variable new_dict : heap -> C -> list (elem * val) -> res (list cell * val).
Variable deepcopy : heap -> val -> res (list cell * val).
Notation leads := (leads a_str a_indexable a_item a_attr unset).
Notation put := (put a_key a_str a_indexable a_item a_attr a_iter unset store istore fuel).
Notation get := (get a_none a_key a_str a_indexable a_item a_attr a_iter unset).
Notation mget := (mget a_attr a_isnone unset new_rec new_atom new_list new_dict deepcopy).
Notation mdelete := (mdelete a_none a_key a_str a_indexable a_item a_attr a_iter unset erase fuel).
Notation patch := (patch a_none a_key a_str a_indexable a_item a_attr a_iter a_len unset store istore erase fuel
  itemtype valuetype call).
Implicit Types (h : heap) (v w o u : val) (s : elem) (p : list elem).

(** Constructors, coercions and copies bring in no objects but those they were given or made, and those
    in [D]: objects that are defaults of properties and hence shared by all records. *)
Variable D : nat -> Prop.
Hypothesis H_store : forall h c m v, brings D h [v] (store h c m v).
Hypothesis H_istore : forall h c v, brings D h [v] (istore h c v).
Hypothesis H_call : forall h ty kw, brings D h (match kw with Some (_, v) => [v] | None => [] end) (call h ty kw).
Hypothesis H_rec : forall h c kw, brings D h (map snd kw) (new_rec h c kw).
Hypothesis H_atom : forall h a kw, brings D h (map snd kw) (new_atom h a kw).
Hypothesis H_list : forall h c vs, brings D h vs (new_list h c vs).
Hypothesis H_dict : forall h c kvs, brings D h (map snd kvs) (new_dict h c kvs).
Hypothesis H_copy : forall h v, brings D h [] (deepcopy h v).

(** [get] of a multi field selector changes nothing, and its result consists of new objects only. *)
Theorem C58_get h m o r h' : whole D h -> mget m o h = (r, h') ->
  kept h h' /\ forall o' n, r = Ok o' -> reach h' o' n -> (length h <= n)%nat \/ D n.
Proof.
  intros Wh E.
  set (inS := fun n => (length h <= n)%nat \/ D n).
  assert (Cl : closed inS (length h) h).
  { split; [lia|]. intros n c v Sn En Hd. destruct v as [a|k]; [exact I|].
    destruct Sn as [L|Dn]; [apply nth_len in En; lia|]. right. eapply Wh; eauto. }
  destruct (mget_clean a_attr a_isnone unset new_rec new_atom new_list new_dict deepcopy D inS (length h)
    (fun n L => or_introl L) (fun n L => or_intror L) H_rec H_atom H_list H_dict H_copy m o h Cl) as (Cl' & K & O).
  rewrite E in Cl', K, O. cbn [fst snd] in *. split; auto. intros o' n -> R.
  exact (reach_S inS (length h) h' o' n Cl' (O o' eq_refl) R).
Qed.

(** So what is done to the copy is not seen in the original ... *)
Theorem C58_copy_changed h m o o' h' p s v h'' : (forall n, ~ D n) -> mget m o h = (Ok o', h') ->
  ~ In ENone (p ++ [s]) -> put (p ++ [s]) v o' h' = (None, h'') ->
  forall n, (n < length h)%nat -> nth_error h'' n = nth_error h n.
Proof.
  intros ND E N Ep n Ln. destruct (C58_get h m o _ _ (fun k c j Dk => False_ind _ (ND k Dk)) E) as ((new & ->) & R).
  destruct (C57_put a_none _ _ _ _ _ _ _ _ _ _ _ _ _ _ _ _ N Ep) as (tr & k & c & key & v' & c' & L & En & _ & _ & _ & (_ & Lk & _ & Ch) & _).
  destruct (leads_reach _ _ _ _ _ _ _ _ _ _ L) as (R1 & _). specialize (R1 k eq_refl).
  destruct (R o' k eq_refl R1) as [Lk'|Dk]; [|exfalso; eapply ND; eauto].
  rewrite Ch; [|rewrite app_length; lia|lia]. apply nth_error_app1; auto.
Qed.
(** ... nor what is done to the original in the copy. *)
Theorem C58_original_changed h m o o' h' r p s v h'' : (forall n, ~ D n) -> mget m o h = (Ok o', h') ->
  (forall n, reach h' r n -> (n < length h)%nat) ->
  ~ In ENone (p ++ [s]) -> put (p ++ [s]) v r h' = (None, h'') ->
  forall q tq u, leads h' o' q tq u -> leads h'' o' q tq u.
Proof.
  intros ND E Old N Ep q tq u Lq.
  destruct (C58_get h m o _ _ (fun k c j Dk => False_ind _ (ND k Dk)) E) as (_ & R).
  destruct (C57_put a_none _ _ _ _ _ _ _ _ _ _ _ _ _ _ _ _ N Ep) as (tr & k & c & key & v' & c' & L & En & _ & _ & _ & _ & Fr & _).
  destruct (leads_reach _ _ _ _ _ _ _ _ _ _ L) as (R1 & _). specialize (R1 k eq_refl).
  apply Fr; auto. intros I. destruct (leads_reach _ _ _ _ _ _ _ _ _ _ Lq) as (_ & R2).
  destruct (R o' k eq_refl (R2 _ _ I)) as [L'|Dk]; [|eapply ND; eauto]. specialize (Old k R1). lia.
Qed.

(** [patch] with [copy=] changes only objects of the target, whatever target and source share. *)
Lemma lift_kept src ps : forall h, kept h (snd (lift a_none a_key a_str a_indexable a_item a_attr a_iter unset ps src h)).
Proof.
  induction ps as [|p ps IH]; intros h0; cbn [lift]; [apply kept_refl|].
  pose proof (get_kept a_none a_key a_str a_indexable a_item a_attr a_iter unset p src h0) as K0.
  destruct (get p src h0) as [[v|e] h1]; cbn [snd] in *.
  - specialize (IH h1). destruct (lift _ _ _ _ _ _ _ _ ps src h1) as [[l|e] h2]; cbn [snd] in *; eapply kept_trans; eauto.
  - destruct (is_attr_err e); auto.
    specialize (IH h1). destruct (lift _ _ _ _ _ _ _ _ ps src h1) as [[l|e'] h2]; cbn [snd] in *; eapply kept_trans; eauto.
Qed.
(** the objects of the target, with new ones, hold only such *)
Lemma reached_closed (E : nat -> Prop) h new o : whole E h -> (forall n, E n -> (n < length h)%nat) ->
  (forall n, reach h o n -> (n < length h)%nat) ->
  closed (fun n => (length (h ++ new) <= n)%nat \/ reach h o n \/ E n) (length (h ++ new)) (h ++ new).
Proof.
  intros Wh OldE Old. split; [lia|]. intros k c v Sk Ek Hd. destruct v as [a|j]; [exact I|].
  destruct Sk as [L|Sk]; [apply nth_len in Ek; lia|].
  assert (Lk : (k < length h)%nat) by (destruct Sk; auto).
  rewrite nth_error_app1 in Ek by auto. destruct Sk as [R|Dk].
  - right. left. eapply r_next; eauto.
  - right. right. eapply Wh; eauto.
Qed.
Theorem C58_patch f m target src h r h' : (forall h v, brings D h [] (f h v)) ->
  whole D h -> (forall n, D n -> (n < length h)%nat) -> (forall n, reach h target n -> (n < length h)%nat) ->
  patch (Some f) m target src h = (r, h') ->
  forall n, (n < length h)%nat -> ~ reach h target n -> ~ D n -> nth_error h' n = nth_error h n.
Proof.
  intros Hf Wh OldD Old E n Ln NT ND. unfold HeapMFSModel.patch in E.
  pose proof (lift_kept src (MFSModel.iter m) h) as K.
  destruct (lift _ _ _ _ _ _ _ _ (MFSModel.iter m) src h) as [[l|e] h1]; cbn [snd] in K; destruct K as (new & ->).
  - pose proof (reached_closed D h new target Wh OldD Old) as Cl.
    set (inS := fun n => (length (h ++ new) <= n)%nat \/ reach h target n \/ D n) in *.
    assert (Ot : okv inS target) by (destruct target as [a|k]; [exact I|right; left; now constructor]).
    destruct (apply_all_S a_key a_str a_indexable a_item a_attr a_iter a_len unset store istore erase fuel itemtype valuetype call
      D inS (length (h ++ new)) (fun n L => or_introl L) (fun n L => or_intror (or_intror L)) H_store H_istore H_call f l Hf target _ Cl Ot)
      as (_ & (_ & W)).
    rewrite E in W. cbn [snd] in W. rewrite W; [apply nth_error_app1; auto|].
    intros [L|[R|Dn]]; auto. rewrite app_length in L. lia.
  - injection E as <- <-. apply nth_error_app1; auto.
Qed.
(** A source that shares no object with the target is as it was. *)
Theorem C58_patch_source f m target src h r h' : (forall h v, brings D h [] (f h v)) ->
  whole D h -> (forall n, D n -> (n < length h)%nat) -> (forall n, reach h target n -> (n < length h)%nat) ->
  (forall n, reach h src n -> (n < length h)%nat /\ ~ reach h target n /\ ~ D n) ->
  patch (Some f) m target src h = (r, h') ->
  forall q tq u, leads h src q tq u -> leads h' src q tq u.
Proof.
  intros Hf Wh OldD Old Sep E q tq u L. eapply leads_agree; eauto. intros n R.
  destruct (Sep n R) as (Ln & NT & ND). exact (C58_patch f m target src h r h' Hf Wh OldD Old E n Ln NT ND).
Qed.

(** [delete] of a multi field selector changes only objects reached from what it is given. *)
Theorem C58_delete m force o h r h' : (forall n, reach h o n -> (n < length h)%nat) ->
  mdelete m force o h = (r, h') ->
  forall n, (n < length h)%nat -> ~ reach h o n -> nth_error h' n = nth_error h n.
Proof.
  intros Old E n Ln NR.
  assert (Da : forall new ps h0, let inS := fun n => (length (h ++ new) <= n)%nat \/ reach h o n \/ False in
    closed inS (length (h ++ new)) h0 -> okv inS o ->
    within inS h0 (snd (delete_all a_key a_str a_indexable a_item a_attr a_iter unset erase fuel ps o h0))).
  { intros new ps. induction ps as [|p ps IH]; intros h0 inS Cl Oo; cbn [delete_all]; [apply within_refl|].
    destruct (delete_S a_key a_str a_indexable a_item a_attr a_iter unset erase fuel inS (length (h ++ new)) p o h0 Cl Oo) as (Cl1 & W1).
    destruct (delete a_key a_str a_indexable a_item a_attr a_iter unset erase fuel p o h0) as [[e|] h1]; cbn [snd] in *.
    - destruct (is_fs_exc e); auto. eapply within_trans; [exact W1|]. apply IH; auto.
    - eapply within_trans; [exact W1|]. apply IH; auto. }
  assert (Fin : forall new, nth_error (snd (delete_all a_key a_str a_indexable a_item a_attr a_iter unset erase fuel (MFSModel.iter m) o (h ++ new))) n
    = nth_error h n).
  { intros new. destruct (Da new (MFSModel.iter m) (h ++ new)) as (_ & W).
    - apply reached_closed; auto; [intros k c j []|intros k []].
    - destruct o as [a|k]; [exact I|right; left; now constructor].
    - rewrite W; [apply nth_error_app1; auto|]. intros [L|[R|[]]]; auto. rewrite app_length in L. lia. }
  unfold HeapMFSModel.mdelete in E. destruct force.
  - specialize (Fin []). rewrite app_nil_r, E in Fin. exact Fin.
  - assert (K : forall ps h, kept h (snd (check_all a_none a_key a_str a_indexable a_item a_attr a_iter unset ps o h))).
    { induction ps as [|p ps IH]; intros h0; cbn [check_all]; [apply kept_refl|].
      pose proof (get_kept a_none a_key a_str a_indexable a_item a_attr a_iter unset p o h0) as K0.
      destruct (get p o h0) as [[v|e] h1]; cbn [snd] in *; auto. eapply kept_trans; eauto. }
    specialize (K (MFSModel.iter m) h).
    destruct (check_all _ _ _ _ _ _ _ _ (MFSModel.iter m) o h) as [[e|] h1]; cbn [snd] in K; destruct K as (new & ->).
    + injection E as <- <-. apply nth_error_app1; auto.
    + specialize (Fin new). rewrite E in Fin. exact Fin.
Qed.

(** Without [copy=] the target's field is the source's own object. *)
Theorem C58_patch_shares m (t s : nat) (ct cs : C) slt sls v h :
  nth_error h t = Some (HRec ct slt) -> nth_error h s = Some (HRec cs sls) -> binds sls m v ->
  store h ct m v = Ok ([], v) ->
  exists h', patch None (Node [(EStr m, None)]) (VR t) (VR s) h = (None, h') /\ get [EStr m] (VR t) h' = (Ok v, h').
Proof.
  intros Et Es B St. pose proof (nth_len _ _ _ Et) as Lt.
  exists (upd h t (HRec ct (dict_set str_eqb slt m v))). split.
  - unfold HeapMFSModel.patch. cbn [MFSModel.iter flat_map app lift fst snd].
    assert (G : get [EStr m] (VR s) h = (Ok v, h)).
    { eapply leads_get. eapply leads_place; eauto; constructor; auto. }
    rewrite G. cbn [apply_all HeapMFSModel.post]. unfold HeapModel.put_last, HeapModel.try_index, HeapModel.attr_set.
    rewrite Et, St, app_nil_r. reflexivity.
  - eapply leads_get. eapply leads_place.
    + rewrite upd_nth by auto. now rewrite Nat.eqb_refl.
    + constructor.
    + constructor. apply set_same. apply str_eqb_eq.
Qed.
End Props.

(** ** Examples: two classes; in [true] the property "d" has the object 0 as its default *)
Module ExM.
Definition A := nat. Definition C := bool.
Notation H := (heap A C). Notation V := (val A).
Definition a := s2l "a". Definition b := s2l "b". Definition d := s2l "d". Definition y := s2l "y". Definition z := s2l "z".
Definition R := res (list (cell A C) * V).
Definition store (h : H) (c : C) (m : str) (v : V) : R := Ok ([], v).
Definition istore (h : H) (c : C) (v : V) : R := Ok ([], v).
Definition call (h : H) (ty : C) (kw : option (str * V)) : R :=
  Ok ([HRec ty (match kw with Some nv => [nv] | None => [] end)], VR (length h)).
Definition new_rec (h : H) (c : C) (kw : list (str * V)) : R :=
  Ok ([HRec c (if c then match dict_get str_eqb kw d with None => kw ++ [(d, VR 0)] | Some _ => kw end else kw)], VR (length h)).
Definition new_atom (h : H) (a : A) (kw : list (str * V)) : R := Err TypeErr.
Definition new_list (h : H) (c : C) (vs : list V) : R := Ok ([HList (Some c) vs], VR (length h)).
Definition new_dict (h : H) (c : C) (kvs : list (elem * V)) : R := Ok ([HDict (Some c) kvs], VR (length h)).
(** a copy of an object that holds no others *)
Definition flat (v : V) : bool := match v with VA _ => true | VR _ => false end.
Definition deepcopy (h : H) (v : V) : R :=
  match v with
  | VA a => Ok ([], VA a)
  | VR n => match nth_error h n with
            | Some (HRec c sl) => if forallb (fun x => flat (snd x)) sl then Ok ([HRec c sl], VR (length h)) else Err RecursionErr
            | Some (HList c xs) => if forallb flat xs then Ok ([HList c xs], VR (length h)) else Err RecursionErr
            | Some (HDict c kvs) => if forallb (fun x => flat (snd x)) kvs then Ok ([HDict c kvs], VR (length h)) else Err RecursionErr
            | None => Err TypeErr
            end
  end.
Definition get (p : list elem) (o : V) (h : H) :=
  HeapModel.get 0 (fun _ => 0) (fun _ => false) (fun _ => false) (fun _ _ => Err TypeErr) (fun _ _ => None)
    (fun _ => Err TypeErr) (fun _ _ => None) p o h.
Definition put (p : list elem) (v o : V) (h : H) :=
  HeapModel.put (fun _ => 0) (fun _ => false) (fun _ => false) (fun _ _ => Err TypeErr) (fun _ _ => None)
    (fun _ => Err TypeErr) (fun _ _ => None) store istore 10 p v o h.
Definition mget (m : mfs) (o : V) (h : H) :=
  HeapMFSModel.mget (fun _ _ => None) (fun _ => false) (fun _ _ => None) new_rec new_atom new_list new_dict deepcopy m o h.
Definition patch (copy : option (H -> V -> R)) (m : mfs) (t s : V) (h : H) :=
  HeapMFSModel.patch 0 (fun _ => 0) (fun _ => false) (fun _ => false) (fun _ _ => Err TypeErr) (fun _ _ => None)
    (fun _ => Err TypeErr) (fun _ => 0%Z) (fun _ _ => None) store istore (fun _ _ _ => None) 10 (fun c => Ok c) (fun c _ => Ok c) call
    copy m t s h.
(** 0: the default; 1: a record with [a] and [b] the record 2 *)
Definition h1 : H := [HList None []; HRec false [(a, VR 2); (b, VR 2)]; HRec false [(y, VA 5)]; HRec true [(d, VR 0); (y, VA 6)]].
(** 0: the target, [a] and [b] are the record 1; 2: the source *)
Definition h2 : H := [HRec false [(a, VR 1); (b, VR 1)]; HRec false []; HRec false [(a, VR 3); (b, VR 4)];
  HRec false [(y, VR 5)]; HRec false [(y, VR 6)]; HRec false [(z, VA 7)]; HRec false [(z, VA 8)]].
(** [[a, y], [b, y, z]] *)
Definition m2 : mfs := Node [(EStr a, Some (Node [(EStr y, None)])); (EStr b, Some (Node [(EStr y, Some (Node [(EStr z, None)]))]))].
End ExM.

(** the assumptions of the theorems hold of these classes *)
Example C58_case_hyp : let D := fun n => n = 0 in
  (forall h c m v, brings D h [v] (ExM.store h c m v)) /\ (forall h c v, brings D h [v] (ExM.istore h c v)) /\
  (forall h ty kw, brings D h (match kw with Some (_, v) => [v] | None => [] end) (ExM.call h ty kw)) /\
  (forall h c kw, brings D h (map snd kw) (ExM.new_rec h c kw)) /\ (forall h a kw, brings D h (map snd kw) (ExM.new_atom h a kw)) /\
  (forall h c vs, brings D h vs (ExM.new_list h c vs)) /\ (forall h c kvs, brings D h (map snd kvs) (ExM.new_dict h c kvs)) /\
  (forall h v, brings D h [] (ExM.deepcopy h v)) /\ whole D ExM.h1.
Proof.
  cbv zeta.
  assert (Q : forall (h : heap nat bool) (args : list (val nat)) c,
    (forall m, holds c (VR m) -> In (VR m) args \/ m = 0) -> brings (fun n => n = 0) h args (Ok ([c], VR (length h)))).
  { intros h args c Hc new v E m Hm. injection E as <- <-. destruct Hm as [E|(c' & [<-|[]] & Hd)].
    - injection E as <-. left. lia.
    - destruct (Hc m Hd) as [I| ->]; [|auto]. right. left. exists (VR m). split; auto. now constructor. }
  assert (K : forall (h : heap nat bool) v, brings (fun n => n = 0) h [v] (Ok ([], v))).
  { intros h v new w E m Hm. injection E as <- <-. destruct Hm as [->|(c' & [] & _)]. right. left. exists (VR m). split; [now left|now constructor]. }
  assert (I1 : forall (kw : list (str * val nat)) n v, In (n, v) kw -> In v (map snd kw)).
  { intros kw n v I. apply in_map_iff. exists (n, v). auto. }
  split; [intros h c m v; apply K|]. split; [intros h c v; apply K|]. repeat split.
  - intros h ty kw. apply Q. intros m. destruct kw as [[n v]|]; cbn; [|intros (n & [])].
    intros (n' & [E|[]]). injection E as _ ->. left. now left.
  - intros h c kw. apply Q. intros m Hd. destruct c; cbn [holds] in Hd; destruct Hd as (n & I); [|left; eauto].
    destruct (dict_get str_eqb kw ExM.d); [left; eauto|]. apply in_app_or in I as [I|[E|[]]]; [left; eauto|]. injection E as _ <-. now right.
  - intros h x kw new v E. discriminate.
  - intros h c vs. apply Q. intros m Hd. now left.
  - intros h c kvs. apply Q. intros m (s & Hd). left. apply in_map_iff. exists (s, VR m). auto.
  - intros h [x|n]; unfold ExM.deepcopy.
    + intros new v E m Hm. injection E as <- <-. destruct Hm as [E|(c' & [] & _)]. discriminate.
    + destruct (nth_error h n) as [[c sl|c xs|c kvs]|]; [| | |intros new v E; discriminate];
        (match goal with |- context [if ?x then _ else _] => destruct x eqn:F end; [|intros new v E; discriminate]);
        apply Q; intros m Hd; exfalso; rewrite forallb_forall in F.
      * destruct Hd as (k & I). now specialize (F _ I).
      * now specialize (F _ Hd).
      * destruct Hd as (k & I). now specialize (F _ I).
  - intros n c m Dn En Hd. subst n. injection En as <-. destruct Hd.
Qed.
(** a filtered copy, changed without changing the original *)
Example C58_case : exists o' h' h'',
  ExM.mget (Node [(EStr ExM.a, Some (Node [(EStr ExM.y, None)]))]) (VR 1) ExM.h1 = (Ok o', h') /\
  fst (ExM.get [EStr ExM.a; EStr ExM.y] o' h') = Ok (VA 5) /\
  ExM.put [EStr ExM.a; EStr ExM.y] (VA 9) o' h' = (None, h'') /\
  fst (ExM.get [EStr ExM.a; EStr ExM.y] o' h'') = Ok (VA 9) /\
  fst (ExM.get [EStr ExM.a; EStr ExM.y] (VR 1) h'') = Ok (VA 5).
Proof. do 3 eexists. repeat split; vm_compute; reflexivity. Qed.
(** the same patch with copies leaves the source alone; compare [C58_patch_source_refuted] *)
Example C58_case_patch : exists h', ExM.patch (Some ExM.deepcopy) ExM.m2 (VR 0) (VR 2) ExM.h2 = (None, h') /\
  fst (ExM.get [EStr ExM.a; EStr ExM.y; EStr ExM.z] (VR 2) h') = Ok (VA 7) /\
  fst (ExM.get [EStr ExM.a; EStr ExM.y; EStr ExM.z] (VR 0) h') = Ok (VA 8) /\
  (forall n, reach ExM.h2 (VR 0) n -> n < length ExM.h2 /\ (n = 0 \/ n = 1)).
Proof.
  eexists. split; [vm_compute; reflexivity|]. split; [vm_compute; reflexivity|]. split; [vm_compute; reflexivity|].
  intros n Rn. assert (Q : n = 0 \/ n = 1); [|split; auto; cbn; lia].
  induction Rn as [n E|n c m Rn IH En Hd]; [injection E as <-; auto|].
  destruct IH as [->| ->]; injection En as <-; destruct Hd as (k & I); cbn in I; intuition congruence.
Qed.

(** Without copies [patch] can change its source: what one field put into the target is changed by the
    next. *)
Theorem C58_patch_source_refuted : exists h h' m target src p v w,
  (forall n, reach h target n -> ~ reach h src n) /\
  ExM.patch None m target src h = (None, h') /\
  fst (ExM.get p src h) = Ok v /\ fst (ExM.get p src h') = Ok w /\ v <> w.
Proof.
  exists ExM.h2. eexists. exists ExM.m2, (VR 0), (VR 2), [EStr ExM.a; EStr ExM.y; EStr ExM.z], (VA 7), (VA 8).
  split.
  - intros n R1 R2.
    assert (Q1 : n = 0 \/ n = 1).
    { clear R2. induction R1 as [n E|n c m Rn IH En Hd]; [injection E as <-; auto|].
      destruct IH as [->| ->]; injection En as <-; destruct Hd as (k & I); cbn in I; intuition congruence. }
    assert (Q2 : 2 <= n).
    { clear Q1 R1. induction R2 as [n E|n c m Rn IH En Hd]; [injection E as <-; auto|].
      do 7 (destruct n as [|n]; [try lia; injection En as <-; destruct Hd as (k & I); cbn in I; intuition (try congruence);
        match goal with H : (_, _) = (_, VR m) |- _ => injection H as _ <-; lia end|]).
      destruct n; discriminate. }
    lia.
  - split; [vm_compute; reflexivity|]. split; [vm_compute; reflexivity|]. split; [vm_compute; reflexivity|discriminate].
Qed.
(** A filtered copy has two objects where the original has one. *)
Theorem C58_get_sharing_refuted : exists h h' m o o' n n1 n2,
  ExM.mget m o h = (Ok o', h') /\
  fst (ExM.get [EStr ExM.a] o h) = Ok (VR n) /\ fst (ExM.get [EStr ExM.b] o h) = Ok (VR n) /\
  fst (ExM.get [EStr ExM.a] o' h') = Ok (VR n1) /\ fst (ExM.get [EStr ExM.b] o' h') = Ok (VR n2) /\ n1 <> n2.
Proof.
  exists ExM.h1. eexists. exists (Node [(EStr ExM.a, None); (EStr ExM.b, None)]), (VR 1). do 4 eexists.
  split; [vm_compute; reflexivity|]. repeat (split; [vm_compute; reflexivity|]). discriminate.
Qed.
(** A default that is an object is shared by the copy and the original. *)
Theorem C58_get_default_refuted : exists h h' m o o' n,
  ExM.mget m o h = (Ok o', h') /\ fst (ExM.get [EStr ExM.d] o h) = Ok (VR n) /\ fst (ExM.get [EStr ExM.d] o' h') = Ok (VR n).
Proof.
  exists ExM.h1. eexists. exists (Node [(EStr ExM.y, None)]), (VR 3). do 2 eexists.
  split; [vm_compute; reflexivity|]. split; vm_compute; reflexivity.
Qed.

Print Assumptions C58_get.
Print Assumptions C58_copy_changed.
Print Assumptions C58_original_changed.
Print Assumptions C58_patch.
Print Assumptions C58_patch_source.
Print Assumptions C58_delete.
Print Assumptions C58_patch_shares.
Print Assumptions C58_patch_source_refuted.
Print Assumptions C58_get_sharing_refuted.
Print Assumptions C58_get_default_refuted.
