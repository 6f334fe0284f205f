(** What a comparison with [ignore_empty_items] leaves out: C82.  [blank_item] and [plain_keys] are defined in ItemsSpec. *)
From Coq Require Import String List Arith NArith ZArith Bool Lia Permutation.
From Verif Require Import Prelude SelPathModel FSModel PySeq MFSModel MFSProofs ValModel EqModel EqProofs SeqDiffModel SeqDiffProofs SeqDiffProps
  FuzzyModel FuzzyProps DiffModel DiffProofs DiffSwap DiffTotal DiffExact DiffEntries DiffOnce DiffExample DiffProps DiffExactProps DuckSpec DuckProofs DuckProps
  BlankProofs ItemsSpec ItemsProofs.
Import ListNotations.

Section Props.
Context {A C H : Type}.
Variable W : classes A C.
Variable ceqb : C -> C -> bool.
Notation val := (val A C).
Variable veqb : val -> val -> bool.
Variable hashable : val -> bool.
Variable repr : val -> str.
Variable a_hash a_falsy : A -> bool.
Variable a_items : A -> res (list (elem * val)).
Variable sort_items : list (elem * val) -> list (elem * val).
Variable alien_atom : C -> A -> res (list (elem * val)).
Variable ahash : A -> res H.
Variables hnothing hnone : H.
Variable htext : str -> H.
Variable htuple : list H -> H.
Notation orders := (list elem -> list elem -> dorders (A := A) (C := C)).
(** the identities are those of identity.py, with the normalisation of slots by the options *)
Notation record_id opt m := (rid W sort_items alien_atom a_hash ahash hnothing hnone htext htuple m
  (Some (fun v p o => normalize_slot (A := A) (C := C) opt v p o))).
Notation diff opt m o := (diff W ceqb veqb hashable repr a_hash a_falsy a_items opt (record_id opt m) o).
Notation diff_iter opt m o := (diff_iter W ceqb veqb hashable repr a_hash a_falsy a_items opt (record_id opt m) o).

(** An identity counts as empty iff every field of the key is blank. *)
Theorem C82_identity : forall opt m S c v i, plain_keys W S -> S c -> class_of v = Some c -> record_id opt m RAuto None v = Ok i ->
  nested_empty i = true <-> blank_item W opt c v.
Proof.
  intros opt m S c v i T Sc Ec E.
  assert (E' : record_id opt m (RClass c) None v = Ok i) by (destruct m; [discriminate E|]; cbn [rid] in E |- *; now rewrite Ec in E).
  destruct (key_blank W sort_items alien_atom a_hash ahash hnothing hnone htext htuple opt S T m c v i Sc E') as (l & _ & _ & B). exact B.
Qed.

(** Every item has an identity, and [keep] tells those whose key is not blank. *)
Definition tells (opt : options) (m : nat) (S : C -> Prop) (keep : val -> bool) (x : val) : Prop :=
  exists c i, class_of x = Some c /\ S c /\ record_id opt m RAuto None x = Ok i /\ (keep x = true <-> ~ blank_item W opt c x).
Lemma tells_void opt m S keep x d : plain_keys W S -> o_duck opt = false -> tells opt m S keep x -> negb (void opt (record_id opt m) d x) = keep x.
Proof.
  intros T Du (c & i & Ec & Sc & Ei & K). unfold void. rewrite Du, Ei. pose proof (C82_identity opt m S c x i T Sc Ec Ei) as B.
  destruct (nested_empty i) eqn:N, (keep x) eqn:Kx; auto; exfalso.
  - apply (proj1 K eq_refl), B. reflexivity.
  - assert (Z : ~ blank_item W opt c x) by (intros Z; apply B in Z; discriminate Z). apply K in Z. discriminate Z.
Qed.
Lemma filter_tells opt m S keep d (l : list (elem * val)) : plain_keys W S -> o_duck opt = false -> (forall k x, In (k, x) l -> tells opt m S keep x) ->
  kept opt (record_id opt m) d l = filter (fun kv => keep (snd kv)) l.
Proof.
  intros T Du F. unfold kept. induction l as [|[k x] l IH]; cbn [filter snd]; [reflexivity|].
  rewrite (tells_void opt m S keep x d T Du (F k x (or_introl eq_refl))). rewrite IH; [reflexivity|]. intros k' x' I. apply (F k' x'). now right.
Qed.

(** Dicts of records compare as if the blank ones were not there. *)
Theorem C82_dict_absent : forall opt m S (ord : orders) n c d sa sb la lb keep,
  o_empty_items opt = true -> o_duck opt = false -> o_filter opt = None -> (forall fa fb, orders_ok (ord fa fb)) ->
  ValModel.item W c = IRec d -> (forall p, In p (props W c) -> p_compare_as p = None) -> NoDup (map fst la) -> NoDup (map fst lb) ->
  plain_keys W S -> (forall k x, In (k, x) la \/ In (k, x) lb -> tells opt m S keep x) ->
  diff_iter opt m ord n (VDC c sa la) (VDC c sb lb) =
  diff_iter opt m ord n (VDC c sa (filter (fun kv => keep (snd kv)) la)) (VDC c sb (filter (fun kv => keep (snd kv)) lb)).
Proof.
  intros opt m S ord n c d sa sb la lb keep Em Du Fi Oo Ei Nc Na Nb T F.
  rewrite <- (filter_tells opt m S keep d la T Du (fun k x I => F k x (or_introl I))), <- (filter_tells opt m S keep d lb T Du (fun k x I => F k x (or_intror I))).
  exact (dict_kept W ceqb veqb hashable repr a_hash a_falsy a_items opt (record_id opt m) ord Oo Em Fi n c d sa sb la lb [] [] Ei Nc Na Nb).
Qed.
(** So does one which the other side lacks. *)
Theorem C82_dict_alone : forall opt m S (ord : orders) n c d sa la keep fa fb,
  o_empty_items opt = true -> o_duck opt = false -> o_filter opt = None -> (forall fa fb, orders_ok (ord fa fb)) ->
  ValModel.item W c = IRec d -> (forall p, In p (props W c) -> p_compare_as p = None) -> NoDup (map fst la) ->
  plain_keys W S -> (forall k x, In (k, x) la -> tells opt m S keep x) ->
  let a := VDC c sa la in let a' := VDC c sa (filter (fun kv => keep (snd kv)) la) in
  diff opt m ord n a VNothing fa fb = diff opt m ord n a' VNothing fa fb /\ diff opt m ord n VNothing a fa fb = diff opt m ord n VNothing a' fa fb.
Proof.
  intros opt m S ord n c d sa la keep fa fb Em Du Fi Oo Ei Nc Na T F. cbv zeta. rewrite <- (filter_tells opt m S keep d la T Du F).
  pose proof (fun side => dict_alone W ceqb veqb hashable repr a_hash a_falsy a_items opt (record_id opt m) ord Oo Em Fi n c d sa la fa fb side Ei Nc Na) as X.
  split; [exact (X true)|exact (X false)].
Qed.
(** In lists no entry is at the place of a blank one, be it in the base or in the other. *)
Theorem C82_list_unmentioned : forall opt m S (ord : orders) n c d sa sb la lb l t p q keep,
  o_empty_items opt = true -> o_duck opt = false -> o_filter opt = None -> (forall fa fb, orders_ok (ord fa fb)) -> ceqb c c = true ->
  ValModel.item W c = IRec d -> plain_keys W S -> (forall x, In x la \/ In x lb -> tells opt m S keep x) ->
  diff_iter opt m ord n (VLC c sa la) (VLC c sb lb) = Ok l -> In (t, p, q) l ->
  (forall k p', p = EInt (Z.of_nat k) :: p' -> exists x, nth_error la k = Some x /\ keep x = true) /\
  (forall k q', q = EInt (Z.of_nat k) :: q' -> exists x, nth_error lb k = Some x /\ keep x = true).
Proof.
  intros opt m S ord n c d sa sb la lb l t p q keep Em Du Fi Oo Ec Ei T F E I.
  destruct (list_keyed W ceqb veqb hashable repr a_hash a_falsy a_items opt (record_id opt m) ord Oo Em Fi n c d sa sb la lb l t p q Ei Ec E I) as [X Y].
  split.
  - intros k p' Ep. destruct (X k p' Ep) as (x & Nx & Vx). exists x. split; auto. rewrite <- (tells_void opt m S keep x d T Du); [now rewrite Vx|]. apply F. left. eapply nth_error_In, Nx.
  - intros k q' Eq. destruct (Y k q' Eq) as (x & Nx & Vx). exists x. split; auto. rewrite <- (tells_void opt m S keep x d T Du); [now rewrite Vx|]. apply F. right. eapply nth_error_In, Nx.
Qed.
End Props.

(** A dict of order lines, one of them with '' for its code and no quantity. *)
Definition sparse : options := mkOptions (fun s => s) false false false true false false None true false.
Definition stub : V := VRec 0 [(s2l "sku", t "")].
Definition i1 : V := VDC 4 [] [(EStr (s2l "k"), line "pen" 2); (EStr (s2l "e"), stub)].
Definition i2 : V := VDC 4 [] [(EStr (s2l "k"), line "pen" 3)].
Lemma plain_W2 : plain_keys W2 (fun c => c = 0).
Proof.
  intros c ->. split; [left; reflexivity|]. intros p K. cbn in K. destruct K as [K X].
  repeat (destruct K as [<-|K]; [split; [reflexivity|]; left; intros vts vt E; discriminate E|]). destruct K.
Qed.
Definition keep2 (x : V) : bool := match slot x (s2l "qty") with Some _ => true | None => false end.
Lemma tells_line s q : tells W2 (fun _ => true) (fun l => l) (fun _ _ => Err TypeErr) (fun _ => Ok tt) tt tt (fun _ => tt) (fun _ => tt) sparse 9 (fun c => c = 0) keep2 (line s q).
Proof.
  exists 0. eexists. split; [reflexivity|]. split; [reflexivity|]. split; [cbn; reflexivity|]. split; [|reflexivity]. intros _ B. inversion B as [c v F E1 E2]; subst.
  destruct (F (P "qty" None)) as [X|(d & E & _)]; [|inversion X|discriminate E]. split; [right; left; reflexivity|reflexivity].
Qed.
Lemma tells_stub : tells W2 (fun _ => true) (fun l => l) (fun _ _ => Err TypeErr) (fun _ => Ok tt) tt tt (fun _ => tt) (fun _ => tt) sparse 9 (fun c => c = 0) keep2 stub.
Proof.
  exists 0. eexists. split; [reflexivity|]. split; [reflexivity|]. split; [cbn; reflexivity|]. split; [intros E; discriminate E|]. intros B. exfalso. apply B.
  constructor. intros p [K X]. left. cbn in K. repeat (destruct K as [<-|K]; [first [discriminate X|constructor]|]). destruct K.
Qed.
Example C82_ex : o_empty_items sparse = true /\ o_duck sparse = false /\ o_filter sparse = None /\ ValModel.item W2 4 = IRec 0 /\
  (forall fa fb, orders_ok (in_order fa fb)) /\ plain_keys W2 (fun c => c = 0) /\
  (forall k x, In (k, x) (contents i1) \/ In (k, x) (contents i2) ->
     tells W2 (fun _ => true) (fun l => l) (fun _ _ => Err TypeErr) (fun _ => Ok tt) tt tt (fun _ => tt) (fun _ => tt) sparse 9 (fun c => c = 0) keep2 x) /\
  diff2 in_order sparse i1 i2 = diff2 in_order sparse (VDC 4 [] [(EStr (s2l "k"), line "pen" 2)]) i2 /\
  (exists e, diff2 in_order sparse i1 i2 = Ok [e] /\ fst (fst e) = Modified) /\
  (exists e f, diff2 in_order defaults i1 i2 = Ok [e; f] /\ fst (fst f) = Removed) /\
  (** lists: one line against a stub and the line *)
  diff2 in_order sparse (VLC 1 [] [line "pen" 2]) (VLC 1 [] [stub; line "pen" 3]) =
    Ok [(Modified, [EInt 0; EStr (s2l "qty")], [EInt 1; EStr (s2l "qty")])].
Proof.
  split; [reflexivity|]. split; [reflexivity|]. split; [reflexivity|]. split; [reflexivity|]. split; [apply in_order_ok|]. split; [apply plain_W2|].
  split. { intros k x [[E|[E|[]]]|[E|[]]]; injection E as <- <-; [apply tells_line|apply tells_stub|apply tells_line]. }
  split; [vm_compute; reflexivity|]. split; [eexists; split; vm_compute; reflexivity|]. split; [eexists; eexists; split; vm_compute; reflexivity|]. vm_compute. reflexivity.
Qed.

(** With [extraneous] the field [seen] is compared, yet a line with nothing else is left out; as is one whose quantity is an empty tuple. *)
Definition curious : options := mkOptions (fun s => s) false false false true false true None true false.
Definition busy : V := VRec 0 [(s2l "seen", t "today")].
Definition tuply : V := VRec 0 [(s2l "qty", VSeq true [])].
Theorem C82_compared_refuted : exists x y : V,
  o_empty_items curious = true /\ compared curious (XP "seen") /\ In (XP "seen") (props W2 0) /\ slot x (s2l "seen") = Some (t "today") /\
  diff2 in_order curious x (VRec 0 []) = Ok [(Removed, [EStr (s2l "seen")], [EStr (s2l "seen")])] /\
  diff2 in_order curious (VLC 1 [] [x]) (VLC 1 [] []) = Ok [] /\
  slot y (s2l "qty") = Some (VSeq true []) /\ diff2 in_order curious (VLC 1 [] [y]) (VLC 1 [] []) = Ok [].
Proof.
  exists busy, tuply. split; [reflexivity|]. split; [left; reflexivity|]. split; [right; right; now left|]. split; [reflexivity|].
  split; [vm_compute; reflexivity|]. split; [vm_compute; reflexivity|]. split; [reflexivity|]. vm_compute. reflexivity.
Qed.

Print Assumptions C82_identity.
Print Assumptions C82_dict_absent.
Print Assumptions C82_dict_alone.
Print Assumptions C82_list_unmentioned.
Print Assumptions C82_compared_refuted.
