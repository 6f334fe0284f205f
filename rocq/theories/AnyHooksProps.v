(** C72: visits with any hooks. *)
From Coq Require Import String List NArith ZArith Arith Bool Lia Permutation.
From Verif Require Import Prelude SelPathModel MFSModel GenModel PickleModel AutoModel JsonModel JsonOutProofs VisitModel VisitProps
  AnyHooksModel AnyHooksSpec AnyHooksProofs AnyHooksVisit.
Import ListNotations.
Local Open Scope list_scope.

Section Statement.
Context {V T P : Type}.
Variable record_type : T -> bool.
Variable properties : T -> list P.
Variable itemtype : T -> T.
Variable p_name : P -> str.
Variable p_extraneous : P -> bool.
Variable p_type : P -> option (T + list T).
Variable type_of : V -> T.
Variable instance : V -> T -> bool.
Variable type_error : exn -> bool.
Variable prop_error : list elem -> P -> exn -> exn.
Variable o : wopts.
Notation mapper none is_none is_empty truth h :=
  (map_value record_type properties itemtype p_name p_extraneous p_type type_of instance none is_none is_empty truth type_error prop_error o h).

Section One.
Context {R : Type}.
Variable none : R.
Variable is_none is_empty truth : R -> bool.
Variable h : hooks V T P R.
Notation mv h := (mapper none is_none is_empty truth h).

(** *** C72: where unpack says stop, nothing more is done, and the value it gives is the result *)
Theorem C72_stop n p v t r : h_unpack h p v t = Ok (Stopped r) -> mv h (S n) p v t = ([Unpack p; Stop p], Ok r).
Proof. intros E. cbn [map_value]. rewrite E. reflexivity. Qed.

(** *** C72: a visit that ends makes its calls from the outside in and back: each value is unpacked, its items are dealt with
    and collected, then its properties, then it is reduced or applied to *)
Theorem C72_calls n p v t r : (forall q ts, p_type q <> Some (inr ts)) -> snd (mv h n p v t) = Ok r -> visited p (fst (mv h n p v t)).
Proof. intros U. apply (calls record_type properties itemtype p_name p_extraneous p_type type_of instance type_error prop_error o none is_none is_empty truth h U). Qed.

(** *** C72: as many values are finished as are unpacked, at the same places *)
Theorem C72_once n p v t r : (forall q ts, p_type q <> Some (inr ts)) -> snd (mv h n p v t) = Ok r ->
  Permutation (flat_map unpacked_at (fst (mv h n p v t))) (flat_map finished_at (fst (mv h n p v t))).
Proof. intros U E. eapply once, C72_calls; eauto. Qed.

(** *** C72: the exceptions that end a visit are those of hooks, of iterating over items and of reading attributes *)
Theorem C72_errors n p v t e : snd (mv h n p v t) = Err e -> e = RecursionErr \/ raised properties prop_error h e.
Proof. apply errors. Qed.

(** *** C72: attributes the options leave out are not read *)
Theorem C72_unread h' n p v t : same_but_hidden properties (left_out p_name p_extraneous o) h h' -> mv h' n p v t = mv h n p v t.
Proof. intros S. now apply unread. Qed.
End One.

(** *** C72: a translation of results can be done by the hooks or after the visit: the same calls, the same outcome *)
Theorem C72_fusion {R R'} (none : R) (is_none is_empty truth : R -> bool) (none' : R') (is_none' is_empty' truth' : R' -> bool)
    (f : R -> R') (h : hooks V T P R) (h' : hooks V T P R') n p v t :
  f none = none' -> (forall r, is_none' (f r) = is_none r) -> (forall r, is_empty' (f r) = is_empty r) -> (forall r, truth' (f r) = truth r) ->
  hooks_map f h h' ->
  fst (mapper none' is_none' is_empty' truth' h' n p v t) = fst (mapper none is_none is_empty truth h n p v t) /\
  snd (mapper none' is_none' is_empty' truth' h' n p v t) = res_map f (snd (mapper none is_none is_empty truth h n p v t)).
Proof.
  intros F1 F2 F3 F4 H. rewrite (fusion record_type properties itemtype p_name p_extraneous p_type type_of instance type_error prop_error o
    none is_none is_empty truth none' is_none' is_empty' truth' f F1 F2 F3 F4 h h' H n p v t). auto.
Qed.
End Statement.

(** *** C72: with the default hooks these are the visits of C41, C42 and C64 *)
Theorem C72_default W o apply n p v c b : size v < n -> snd (std_map W o apply n p v (TCls c b)) = to_res (visit W o apply v c p).
Proof. apply std_visit. Qed.

(** ** Cases *)
Module Ex72.
(** records with the properties a and b (b extraneous), lists of them, numbers *)
Inductive tv := Num (n : nat) | Rec (a b : tv) | Lst (l : list tv) | Odd.
Inductive ty := TNum | TRec | TLst.
Definition name (b : bool) : str := s2l (if b then "b" else "a").
Definition opts e : wopts := {| w_empty_slots := false; w_extraneous := e; w_ignore_empty := false; w_ignore_none := true; w_filter := None |}.
Definition ty_of v := match v with Rec _ _ => TRec | Lst _ => TLst | _ => TNum end.
Definition is_rec t := match t with TNum => false | _ => true end.
Definition props t := match t with TRec => [false; true] | _ => [] end.
(** sums of what is found; [k] times each number; a record with 0 under a is not entered *)
Definition sum (l : list (option nat)) : option nat := Some (list_sum (map (fun r => match r with Some n => n | None => 0 end) l)).
Definition unpack (hide : bool) (k : nat) (p : list elem) (v : tv) (t : ty) : res (unpacked tv bool (option nat)) :=
  match v with
  | Rec (Num 0) _ => Ok (Stopped (Some (7 * k)))
  | Rec a b => Ok (Parts (Some (fun q : bool => if q then if hide then Raised UserErr else Got b else match a with Odd => Missing a | _ => Got a end)) None)
  | Lst l => Ok (Parts None (Some (indexed 0 l, None)))
  | Odd => Err UserErr
  | _ => Ok (Parts None None)
  end.
Definition hk (hide : bool) (k : nat) : hooks tv ty bool (option nat) := {|
  h_unpack := unpack hide k;
  h_apply := fun _ v _ => match v with Num n => Ok (Some (k * n)) | _ => Ok None end;
  h_collect := fun _ l _ => Ok (sum (map snd l));
  h_reduce := fun _ l r _ => Ok (sum (r :: match l with Some l => map snd l | None => [] end))
|}.
Definition is_none (r : option nat) := match r with None => true | _ => false end.
Definition truth (r : option nat) := match r with Some (S _) => true | _ => false end.
Definition mv e hide k := map_value is_rec props (fun _ => TRec) name (fun q => q) (fun _ => None) ty_of (fun _ _ => false) None is_none (fun _ => false) truth
  (fun _ => false) (fun _ _ e => e) (opts e) (hk hide k) 9 [].
Definition sample : tv := Lst [Rec (Num 2) (Num 5); Rec (Num 0) (Num 9); Rec Odd (Num 1)].
End Ex72.
Import Ex72.

Example C72_ex_calls :
  mv true false 1 sample TLst =
  (let e i := EInt (Z.of_nat i) in
   [Unpack []; Unpack [e 0]; Apply [e 0; EStr (s2l "a")] true; Apply [e 0; EStr (s2l "b")] true; Reduce [e 0];
    Unpack [e 1]; Stop [e 1]; Unpack [e 2]; Apply [e 2; EStr (s2l "b")] true; Reduce [e 2]; Collect []; Reduce []],
   Ok (Some 15)) /\ (forall q ts, (fun _ : bool => @None (ty + list ty)) q <> Some (inr ts)).
Proof. split; [vm_compute; reflexivity|discriminate]. Qed.

Example C72_ex_fusion : hooks_map (option_map (fun n => 3 * n)) (hk false 1) (hk false 3) /\ snd (mv true false 3 sample TLst) = Ok (Some 45).
Proof.
  split; [|vm_compute; reflexivity].
  assert (S3 : forall l : list (option nat), list_sum (map (fun r => match r with Some n => n | None => 0 end) (map (option_map (fun n => 3 * n)) l)) =
                 3 * list_sum (map (fun r => match r with Some n => n | None => 0 end) l)).
  { induction l as [|[x|] l IH]; cbn [map list_sum fold_right]; [reflexivity| |]; cbn [option_map]; change (fold_right Nat.add 0) with list_sum; rewrite IH; lia. }
  assert (SN : forall X (l : list (X * option nat)), map snd (map (fun kr => (fst kr, option_map (fun n => 3 * n) (snd kr))) l) = map (option_map (fun n => 3 * n)) (map snd l))
    by (intros; rewrite !map_map; reflexivity).
  split.
  - intros p v t. cbn. destruct v as [|a b| |]; try reflexivity. destruct a as [[|n]| | |]; reflexivity.
  - intros p v q. cbn. destruct v; try reflexivity. cbn. do 2 f_equal. lia.
  - intros p l t. cbn [h_collect hk]. cbn [res_map]. unfold sum. rewrite SN, S3. reflexivity.
  - intros p l r t. cbn [h_reduce hk]. cbn [res_map]. unfold sum. destruct l as [l|]; cbn [option_map].
    + rewrite SN. change (option_map (fun n => 3 * n) r :: map (option_map (fun n => 3 * n)) (map snd l)) with (map (option_map (fun n => 3 * n)) (r :: map snd l)).
      rewrite S3. reflexivity.
    + change [option_map (fun n => 3 * n) r] with (map (option_map (fun n => 3 * n)) [r]). rewrite S3. reflexivity.
Qed.

(** b cannot be read, but it is extraneous *)
Example C72_ex_unread : same_but_hidden props (left_out name (fun q => q) (opts false)) (hk false 1) (hk true 1) /\
  snd (mv false true 1 sample TLst) = Ok (Some 9) /\ snd (mv true true 1 sample TLst) = Err UserErr.
Proof.
  split; [|split; vm_compute; reflexivity]. split; try reflexivity.
  intros p v t. cbn. destruct v as [|a b| |]; cbn; auto. destruct a as [[|n]| | |]; cbn; auto; split; auto; intros [] _; cbn; try discriminate; reflexivity.
Qed.

Example C72_ex_errors : snd (mv true false 1 (Lst [Odd]) TLst) = Err UserErr /\ raised props (fun _ _ e => e) (hk false 1) UserErr.
Proof. split; [vm_compute; reflexivity|]. now apply (by_unpack _ _ _ _ [] Odd TNum). Qed.

Example C72_ex_default : size ex_al < 9 /\
  snd (std_map ex_world default_opts default_apply 9 [] ex_bo (TCls 0 None)) = Ok (PDict [(s2l "name", PStr (s2l "Bo")); (s2l "age", PInt 7)]).
Proof. split; [vm_compute; lia|vm_compute; reflexivity]. Qed.

(** ** Where it differs from the documentation *)

(** What the hook for collections returns goes to reduce (visitor.py:311-345) ... unless it is None: then the collection
    itself is handed to apply, after its items. *)
Theorem C72_collect_none_refuted : exists (h : hooks tv ty bool (option nat)) v r,
  (forall p l t, h_collect h p l t = Ok None) /\ (forall p l x t, h_reduce h p l x t = Err UserErr) /\
  (exists p t l, h_unpack h p v t = Ok (Parts None (Some (l, None))) /\ l <> []) /\
  snd (map_value is_rec props (fun _ => TRec) name (fun q => q) (fun _ => None) ty_of (fun _ _ => false) None is_none (fun _ => false) truth
    (fun _ => false) (fun _ _ e => e) (opts true) h 9 [] v TLst) = Ok r /\ h_apply h [] v None = Ok r.
Proof.
  exists {| h_unpack := unpack false 1; h_apply := fun _ v _ => Ok (Some 4); h_collect := fun _ _ _ => Ok None; h_reduce := fun _ _ _ _ => Err UserErr |},
    (Lst [Rec (Num 0) (Num 1)]), (Some 4).
  split; [reflexivity|]. split; [reflexivity|]. split; [exists [], TLst; eexists; split; [reflexivity|discriminate]|]. split; [vm_compute|]; reflexivity.
Qed.

Print Assumptions C72_stop.
Print Assumptions C72_calls.
Print Assumptions C72_once.
Print Assumptions C72_errors.
Print Assumptions C72_unread.
Print Assumptions C72_fusion.
Print Assumptions C72_default.
Print Assumptions C72_collect_none_refuted.
