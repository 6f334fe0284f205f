(** Patching one record from another by the paths of their comparison: C63.
    [shared] is defined in SyncSpec, [agree] and [compared] in DiffExact. *)
From Coq Require Import String List Arith NArith ZArith Bool Lia Permutation.
From Verif Require Import Prelude SelPathModel FSModel PySeq MFSModel MFSProofs MFSProps TreeModel TreeProofs MFSTreeModel ValModel EqModel EqProofs
  SeqDiffModel SeqDiffProofs FuzzyModel FuzzyProps DiffModel DiffProofs DiffSwap DiffTotal DiffExact DiffEntries DiffExample DiffProps DiffExactProps
  SyncModel SyncSpec SyncProofs.
Import ListNotations.
Local Open Scope list_scope.

Section Props.
Context {A C T : Type}.
Variable W : classes A C.
Variable ceqb : C -> C -> bool.
Notation val := (val A C).
Notation obj := (obj val C).
Variable veqb : val -> val -> bool.
Variable hashable : val -> bool.
Variable repr : val -> str.
Variable a_hash a_falsy : A -> bool.
Variable a_items : A -> res (list (elem * val)).
Variable opt : options.
Variable record_id : rtype C -> option mfs -> val -> res val.
Notation orders := (list elem -> list elem -> dorders (A := A) (C := C)).
Notation diff_iter o := (diff_iter W ceqb veqb hashable repr a_hash a_falsy a_items opt record_id o).
Notation agree := (agree W veqb repr a_hash opt record_id).
Notation compared := (compared (A := A) (C := C) opt).
Notation shared := (shared W compared).
Notation corresponding := (corresponding W compared).

Variable a_none : val.
Variable a_key : elem -> val.
Variable a_str : val -> bool.
Variable a_indexable : val -> bool.
Variable a_item : val -> elem -> res val.
Variable a_attr : val -> str -> option val.
Variable a_iter : val -> res (list val).
Variable a_len : val -> Z.
Variable unset : C -> str -> option val.
Variable store : C -> str -> obj -> res obj.
Variable erase : C -> str -> bool -> option exn.
Variable istore : C -> obj -> res obj.
Variable itemtype : C -> res T.
Variable valuetype : C -> str -> res T.
Variable call : T -> option (str * obj) -> res obj.
Notation get := (get a_none a_key a_str a_indexable a_item a_attr a_iter unset).
Notation update mo := (update a_none a_key a_str a_indexable a_item a_attr a_iter a_len unset store erase istore itemtype valuetype call mo).

(** The options are the defaults, only changes are reported, and compare_as is not used. *)
Definition plain_comparison : Prop := default_options opt /\ changes_only opt /\
  (o_fuzzy opt = true -> forall u v, veqb u v = true -> v_falsy a_falsy u = v_falsy a_falsy v) /\
  forall c p, In p (props W c) -> compared p -> p_compare_as p = None.

(** Both are records of one class.  Wherever they have corresponding records: the slots have distinct names
    (of the target) and proper values; and where both sides have lists, dicts or collections of one type,
    these are lists or dicts which agree. *)
Definition record_differences (a b : val) : Prop := shared a b [] a b /\
  forall r c sl sl', shared a b r (VRec c sl) (VRec c sl') ->
    NoDup (map fst sl) /\
    (forall n, dict_get str_eqb sl n <> Some VNothing /\ dict_get str_eqb sl' n <> Some VNothing) /\
    forall p u v, In p (props W c) -> compared p ->
      dict_get str_eqb sl (p_name p) = Some u -> dict_get str_eqb sl' (p_name p) = Some v -> same_type u v ->
      (exists d s s', u = VRec d s /\ v = VRec d s') \/ (plain u /\ agree u v).

(** The slots compared take the values they have in [b]; what [b] lacks can be deleted and has no default. *)
Definition assignable (a b : val) : Prop := forall r c sl sl' p, shared a b r (VRec c sl) (VRec c sl') ->
  In p (props W c) -> compared p -> unset c (p_name p) = None /\
  match dict_get str_eqb sl' (p_name p) with
  | Some v => store c (p_name p) (enc v) = Ok (enc v)
  | None => erase c (p_name p) true = None
  end.

Lemma C63_core mo (ord : orders) n a b l : set_order mo -> sane W ceqb veqb ord a b -> plain_comparison ->
  record_differences a b -> assignable a b -> diff_iter ord n a b = Ok l ->
  exists t', update mo l (enc a) (enc b) = (None, t') /\ wfv W (dec t') /\ agree (dec t') b /\
    halfway W opt a b (base_paths l) t'.
Proof.
  intros Ho Sa (D & Q & F & Ai) (Root & RD) As H.
  destruct (C30_entries W ceqb veqb hashable repr a_hash a_falsy a_items opt record_id ord n a b l Sa D (fun f => conj (proj1 Q) (F f)) H)
    as (_ & near & _ & HL).
  destruct Sa as (_ & Hr & Hs & Ht & Hc & _ & Wa & Wb & _).
  apply (updated (T := T) W veqb repr a_hash opt record_id Hr Hs Ht Q Ai ceqb Hc a b Wa Wb) with (near := near); auto.
  - intros r c sl sl' m S. apply (RD _ _ _ _ S).
  - intros r c sl sl' p u v S. apply (RD _ _ _ _ S).
  - intros r c sl sl' S. apply (RD _ _ _ _ S).
  - intros r c sl sl' p v S Hp Hcp E. pose proof (proj2 (As _ _ _ _ _ S Hp Hcp)) as X. now rewrite E in X.
  - intros r c sl sl' p S Hp Hcp E. pose proof (proj2 (As _ _ _ _ _ S Hp Hcp)) as X. now rewrite E in X.
  - intros r c sl sl' p S Hp Hcp. apply (As _ _ _ _ _ S Hp Hcp).
Qed.

(** The patch succeeds, and afterwards the target agrees with the source. *)
Theorem C63_agree_afterwards : forall mo (ord : orders) n a b l, set_order mo -> sane W ceqb veqb ord a b ->
  plain_comparison -> record_differences a b -> assignable a b -> diff_iter ord n a b = Ok l ->
  exists t', update mo l (enc a) (enc b) = (None, t') /\ agree (dec t') b.
Proof.
  intros mo ord n a b l Ho Sa P R As H. destruct (C63_core mo ord n a b l Ho Sa P R As H) as (t' & E & _ & Ag & _). eauto.
Qed.

(** Comparing once more finds nothing. *)
Theorem C63_no_difference_left : forall mo (ord : orders) n a b l t', set_order mo -> sane W ceqb veqb ord a b ->
  plain_comparison -> record_differences a b -> assignable a b -> diff_iter ord n a b = Ok l ->
  (o_fuzzy opt = true -> forall u v, class_of u <> None -> class_of v <> None -> agree u v ->
     keqb veqb (identity record_id u) (identity record_id v) = true) ->
  update mo l (enc a) (enc b) = (None, t') ->
  forall (ord' : orders) n' l', (forall fa fb, orders_ok (ord' fa fb)) -> diff_iter ord' n' (dec t') b = Ok l' -> l' = [].
Proof.
  intros mo ord n a b l t' Ho Sa P R As H Fz E ord' n' l' Ho' H'.
  destruct (C63_core mo ord n a b l Ho Sa P R As H) as (t2 & E2 & W2 & Ag & Hf). rewrite E in E2. injection E2 as <-.
  destruct P as (D & Q & F & Ai). destruct Sa as (_ & Hr & Hs & Ht & Hc & Hk & Wa & Wb & _).
  refine (proj2 (C30_empty_iff_agree W ceqb veqb hashable repr a_hash a_falsy a_items opt record_id ord' n' (dec t') b l' _ D Q
     (fun f => conj (F f) (Fz f)) H') Ag).
  repeat (split; auto). left. destruct R as [Root _]. destruct (shared_root _ _ _ _ _ _ _ Root) as (c & sl & sl' & Ea & Eb).
  destruct (Hf [] c sl sl') as (st & L & _); [rewrite <- Ea, <- Eb; exact Root|]. cbn in L. injection L as ->. rewrite Eb. reflexivity.
Qed.

(** Nothing else is touched: in every record of the target which corresponds to one of the source, a slot not
    itself leading to corresponding records holds what the source has, if its path is reported, and what it
    held before, if not. *)
Theorem C63_exactly_the_reported : forall mo (ord : orders) n a b l t', set_order mo -> sane W ceqb veqb ord a b ->
  plain_comparison -> record_differences a b -> assignable a b -> diff_iter ord n a b = Ok l ->
  update mo l (enc a) (enc b) = (None, t') ->
  forall r c sl sl', shared a b r (VRec c sl) (VRec c sl') ->
  exists st, get (map EStr r) t' = Ok (ORec c st) /\ forall m, ~ corresponding a b (r ++ [m]) ->
    (In (map EStr (r ++ [m])) (base_paths l) -> dict_get str_eqb st m = option_map enc (dict_get str_eqb sl' m)) /\
    (~ In (map EStr (r ++ [m])) (base_paths l) -> dict_get str_eqb st m = option_map enc (dict_get str_eqb sl m)).
Proof.
  intros mo ord n a b l t' Ho Sa P R As H E r c sl sl' S.
  destruct (C63_core mo ord n a b l Ho Sa P R As H) as (t2 & E2 & _ & _ & Hf). rewrite E in E2. injection E2 as <-.
  destruct (Hf _ _ _ _ S) as (st & L & _ & K). exists st. split.
  - pose proof (get_look a_none a_key a_str a_indexable a_item a_attr a_iter unset r t' (ORec c st) [] L) as G. rewrite app_nil_r in G. exact G.
  - intros m Hm. rewrite map_app. apply K. exact Hm.
Qed.
End Props.

(** ** Cases *)
Section Cases.
Notation O := (obj V nat).
Definition y_str (v : V) : bool := match v with VText _ => true | _ => false end.
Definition y_upd (l : list dentry) (target source : O) : option exn * O :=
  update (T := unit) VNone (fun _ => VNone) y_str (fun _ => false) (fun _ _ => Err TypeErr) (fun _ _ => None) (fun _ => Err TypeErr) (fun _ => 0%Z)
    (fun _ _ => None) (fun _ _ v => Ok v) (fun _ _ _ => None) (fun _ v => Ok v) (fun _ => Err AttrErr) (fun _ _ => Err KeyErr) (fun _ _ => Err TypeErr)
    (fun l => l) l target source.
Definition nx := s2l "x".
Definition ny := s2l "y".
Definition two (x y : V) : V := VRec 3 [(nx, x); (ny, y)].
(** a record in a record: x.x differs, x.y is only in the first, y differs in order only *)
Definition before := two (two (VAtom 1) (t "old")) (VSeq false [t "a"; t "b"]).
Definition source := two (VRec 3 [(nx, VAtom 2)]) (VSeq false [t "b"; t "a"]).
Definition after := two (VRec 3 [(nx, VAtom 2)]) (VSeq false [t "a"; t "b"]).

Lemma shared_cases r x y : shared W2 (compared defaults) before source r x y ->
  (r = [] /\ x = before /\ y = source) \/ (r = [nx] /\ x = two (VAtom 1) (t "old") /\ y = VRec 3 [(nx, VAtom 2)]).
Proof.
  assert (Nm : forall p : prop nat nat, In p (props W2 3) -> p_name p = nx \/ p_name p = ny).
  { intros p [<-|[<-|[]]]; auto. }
  intros H. inversion H as [? ? ? E1 E2 E3|? ? ? p d s s' r' ? ? Hp Hc E E' H2 U1 U2 U3]; subst; [now left|]. right.
  destruct (Nm p Hp) as [N|N]; rewrite N in *; vm_compute in E, E'; try discriminate. injection E as <- <-. injection E' as <-.
  inversion H2 as [? ? ? V1 V2 V3|? ? ? p' ? ? ? ? ? ? Hp' _ F F' _ V1 V2 V3]; subst; [split; [reflexivity|split; reflexivity]|].
  exfalso. destruct (Nm p' Hp') as [N'|N']; rewrite N' in *; vm_compute in F, F'; discriminate.
Qed.

Example C63_case :
  sane W2 Nat.eqb vb in_order before source /\
  plain_comparison W2 vb (Nat.eqb 0) defaults /\
  record_differences W2 vb (fun _ => s2l "?") (fun _ => true) defaults (id2 defaults) before source /\
  assignable W2 defaults (fun _ _ => None) (fun _ _ v => Ok v) (fun _ _ _ => None) before source /\
  diff2 in_order defaults before source = Ok
    [(Modified, [EStr nx; EStr nx], [EStr nx; EStr nx]); (Removed, [EStr nx; EStr ny], [EStr nx; EStr ny])] /\
  (forall l, diff2 in_order defaults before source = Ok l -> y_upd l (enc before) (enc source) = (None, enc after)) /\
  diff2 in_order defaults after source = Ok [].
Proof.
  split; [|split; [|split; [|split; [|split; [|split]]]]].
  - destruct (sane_o in_order in_order_ok) as (S1&S2&S3&S4&S5&S6&_). unfold sane. repeat (split; auto).
    + unfold before, two, t. wfv_tac.
    + unfold source, two, t. wfv_tac.
    + left. reflexivity.
  - split; [repeat split|]. split; [split; reflexivity|]. split; [intros _; apply falsy_vb|].
    intros c p Ip _. destruct c as [|[|[|[|[|[|[|c]]]]]]]; cbn in Ip; repeat (destruct Ip as [<-|Ip]; [reflexivity|]); destruct Ip.
  - split; [constructor|]. intros r c sl sl' S. apply shared_cases in S as [(-> & E & E')|(-> & E & E')]; injection E as -> ->; injection E' as ->.
    + split; [repeat constructor; cbn; intuition discriminate|]. split.
      * intros n. cbn [dict_get]. split; repeat destruct (str_eqb _ _); discriminate.
      * intros p u v [<-|[<-|[]]] _ E E' _; cbn in E, E'; injection E as <-; injection E' as <-; [left; do 3 eexists; split; reflexivity|right].
        split; [exact I|]. apply agree_plain; cbn [same_type plain]; auto.
        intros k. unfold count, counted, contents, number, counts_as. cbn. destruct (vb k (VText [97%N])), (vb k (VText [98%N])); reflexivity.
    + split; [repeat constructor; cbn; intuition discriminate|]. split.
      * intros n. cbn [dict_get]. split; repeat destruct (str_eqb _ _); discriminate.
      * intros p u v [<-|[<-|[]]] _ E E' Ty; cbn in E, E'; try discriminate. injection E as <-. injection E' as <-. destruct Ty.
  - intros r c sl sl' p _ _ _. split; [reflexivity|]. destruct (dict_get _ _ _); reflexivity.
  - vm_compute. reflexivity.
  - intros l. vm_compute. intros E. injection E as <-. reflexivity.
  - vm_compute. reflexivity.
Qed.

(** ** Findings *)

(** Lists and collections as objects of their own, so that selectors lead into them *)
Fixpoint full (v : V) : O :=
  match v with
  | VSeq false l => OList None (map full l)
  | VLC c _ l => OList (Some c) (map full l)
  | VRec c sl => ORec c (map (fun kv => (fst kv, full (snd kv))) sl)
  | _ => OAtom v
  end.

(** Where items of a list are gone, patching by the reported paths puts other items in their place, ... *)
Theorem C63_removed_items_refuted : exists a b a' : V, 
  a = VRec 3 [(ny, VSeq false [t "a"; t "b"])] /\ b = VRec 3 [(ny, VSeq false [t "b"])] /\
  diff2 in_order defaults a b = Ok [(Removed, [EStr ny; EInt 0], [EStr ny])] /\
  y_upd [(Removed, [EStr ny; EInt 0], [EStr ny])] (full a) (full b) = (None, full a') /\
  a' = VRec 3 [(ny, VSeq false [t "b"; t "b"])] /\
  diff2 in_order defaults a' b = Ok [(Removed, [EStr ny; EInt 1], [EStr ny])].
Proof.
  exists (VRec 3 [(ny, VSeq false [t "a"; t "b"])]), (VRec 3 [(ny, VSeq false [t "b"])]), (VRec 3 [(ny, VSeq false [t "b"; t "b"])]).
  repeat split; vm_compute; reflexivity.
Qed.

(** ... or raises FieldSelectorKeyError, ... *)
Theorem C63_removed_last_item_refuted : exists a b : V,
  a = VRec 3 [(ny, VSeq false [t "a"; t "b"])] /\ b = VRec 3 [(ny, VSeq false [t "a"])] /\
  diff2 in_order defaults a b = Ok [(Removed, [EStr ny; EInt 1], [EStr ny])] /\
  y_upd [(Removed, [EStr ny; EInt 1], [EStr ny])] (full a) (full b) = (Some FSKeyErr, full a).
Proof.
  exists (VRec 3 [(ny, VSeq false [t "a"; t "b"])]), (VRec 3 [(ny, VSeq false [t "a"])]).
  repeat split; vm_compute; reflexivity.
Qed.

(** ... and where records of a collection have changed places, the path in the one leads to another record
    in the other. *)
Theorem C63_moved_records_refuted : exists a b a' : V,
  a = VRec 2 [(s2l "lines", VLC 6 [] [kline "pen" 2; kline "ink" 1])] /\
  b = VRec 2 [(s2l "lines", VLC 6 [] [kline "ink" 1; kline "pen" 3])] /\
  diff2 in_order defaults a b = Ok [(Modified, [EStr (s2l "lines"); EInt 0; EStr (s2l "qty")], [EStr (s2l "lines"); EInt 1; EStr (s2l "qty")])] /\
  y_upd [(Modified, [EStr (s2l "lines"); EInt 0; EStr (s2l "qty")], [EStr (s2l "lines"); EInt 1; EStr (s2l "qty")])] (full a) (full b) = (None, full a') /\
  a' = VRec 2 [(s2l "lines", VLC 6 [] [kline "pen" 1; kline "ink" 1])].
Proof.
  exists (VRec 2 [(s2l "lines", VLC 6 [] [kline "pen" 2; kline "ink" 1])]), (VRec 2 [(s2l "lines", VLC 6 [] [kline "ink" 1; kline "pen" 3])]),
    (VRec 2 [(s2l "lines", VLC 6 [] [kline "pen" 1; kline "ink" 1])]).
  repeat split; vm_compute; reflexivity.
Qed.
End Cases.

Print Assumptions C63_agree_afterwards.
Print Assumptions C63_no_difference_left.
Print Assumptions C63_exactly_the_reported.
Print Assumptions C63_removed_items_refuted.
Print Assumptions C63_removed_last_item_refuted.
Print Assumptions C63_moved_records_refuted.
