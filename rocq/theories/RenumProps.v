(** Lists compared with [ignore_empty_items], and lists which never had the blank items: C82.  [origin] is defined in RenumSpec. *)
From Coq Require Import String List Arith NArith ZArith Bool Lia Permutation.
From Verif Require Import Prelude SelPathModel FSModel PySeq MFSModel MFSProofs ValModel EqModel EqProofs SeqDiffModel SeqDiffProofs SeqDiffProps
  FuzzyModel FuzzyProps DiffModel DiffProofs DiffSwap DiffTotal DiffExact DiffEntries DiffOnce DiffExample DiffProps DiffExactProps DuckSpec DuckProofs DuckProps
  BlankProofs ItemsSpec ItemsProofs ItemsProps RenumSpec RenumProofs.
Import ListNotations.

Section Props.
Context {A C H : Type}.
Variable W : classes A C.
Variable ceqb : C -> C -> bool.
Notation val := (val A C).
Variable veqb : val -> val -> bool.
Variable hashable : val -> bool.
Variable repr : val -> str.
Variable a_hash a_falsy : A -> bool.
Variable a_items : A -> res (list (elem * val)).
Variable sort_items : list (elem * val) -> list (elem * val).
Variable alien_atom : C -> A -> res (list (elem * val)).
Variable ahash : A -> res H.
Variables hnothing hnone : H.
Variable htext : str -> H.
Variable htuple : list H -> H.
Notation record_id opt m := (rid W sort_items alien_atom a_hash ahash hnothing hnone htext htuple m
  (Some (fun v p o => normalize_slot (A := A) (C := C) opt v p o))).
Notation diff opt m so := (diff W ceqb veqb hashable repr a_hash a_falsy a_items opt (record_id opt m) (fun _ _ => so)).
Notation diff_iter opt m so := (diff_iter W ceqb veqb hashable repr a_hash a_falsy a_items opt (record_id opt m) (fun _ _ => so)).
Notation tells := (tells W a_hash sort_items alien_atom ahash hnothing hnone htext htuple).

(** The entries are those of the lists without the blank items, in the same order, each telling where its items were in the lists
    as they are; and one comparison fails iff the other does, in the same way.  Sets are iterated in one way wherever they are built;
    the options do not ask for moves. *)
Theorem C82_list_absent : forall opt m S so n c d sa sb la lb keep,
  o_empty_items opt = true -> o_duck opt = false -> o_filter opt = None -> o_recurse opt = false -> o_moved opt = false ->
  ValModel.item W c = IRec d -> (forall p, In p (props W c) -> p_compare_as p = None) ->
  plain_keys W S -> (forall x, In x la \/ In x lb -> tells opt m S keep x) ->
  match diff_iter opt m so n (VLC c sa (filter keep la)) (VLC c sb (filter keep lb)) with
  | Ok l => diff_iter opt m so n (VLC c sa la) (VLC c sb lb) = Ok (map (entry_origin keep la lb) l)
  | Err e => diff_iter opt m so n (VLC c sa la) (VLC c sb lb) = Err e
  end.
Proof.
  intros opt m S so n c d sa sb la lb keep Em Du Fi Re Mo Ei Nc T F.
  assert (Num : forall (l : list val) k x, In (k, x) (number l) -> In x l) by (intros l k x I; unfold number in I; eapply in_combine_r, I).
  assert (K : forall l, (forall x, In x l -> tells opt m S keep x) -> kept opt (record_id opt m) d (number l) = filter (fun kv => keep (snd kv)) (number l)).
  { intros l Fl. apply (filter_tells W a_hash sort_items alien_atom ahash hnothing hnone htext htuple opt m S keep d (number l) T Du). intros k x I. eapply Fl, Num, I. }
  pose proof (lists_renumbered W ceqb veqb hashable repr a_hash a_falsy a_items opt (record_id opt m) so Fi Re keep Em Mo n c d sa sb la lb Ei Nc
    (K la (fun x I => F x (or_introl I))) (K lb (fun x I => F x (or_intror I)))) as E.
  match goal with |- match ?x with Ok _ => _ | Err _ => _ end => destruct x eqn:Z end; unfold DiffModel.diff_iter in *; rewrite E, Z; reflexivity.
Qed.

(** Where objects are does not matter to what is found in them. *)
Theorem C82_place : forall opt m so n a b fa fb, o_filter opt = None -> o_recurse opt = false ->
  match diff_iter opt m so n a b with
  | Ok l => diff opt m so n a b fa fb = Ok (map (fun e => (fst (fst e), fa ++ snd (fst e), fb ++ snd e)) l)
  | Err e => diff opt m so n a b fa fb = Err e
  end.
Proof.
  intros opt m so n a b fa fb Fi Re. unfold DiffModel.diff_iter.
  rewrite (diff_prefix W ceqb veqb hashable repr a_hash a_falsy a_items opt (record_id opt m) so Fi Re n a b fa fb).
  match goal with |- match ?x with Ok _ => _ | Err _ => _ end => destruct x end; reflexivity.
Qed.
End Props.

(** Stubs before and between the lines; one line changed, one removed, one added. *)
Definition plainly : dorders (A := _) (C := _) := in_order [] [].
Definition ra : list V := [stub; line "pen" 2; stub; line "ink" 1].
Definition rb : list V := [line "pen" 3; stub; stub; line "cap" 7].
Example C82_list_ex : o_empty_items sparse = true /\ o_duck sparse = false /\ o_filter sparse = None /\ o_recurse sparse = false /\ o_moved sparse = false /\
  ValModel.item W2 1 = IRec 0 /\ plain_keys W2 (fun c => c = 0) /\
  (forall x, In x ra \/ In x rb -> tells W2 (fun _ => true) (fun l => l) (fun _ _ => Err TypeErr) (fun _ => Ok tt) tt tt (fun _ => tt) (fun _ => tt) sparse 9 (fun c => c = 0) keep2 x) /\
  filter keep2 ra = [line "pen" 2; line "ink" 1] /\ kept_at keep2 0 ra = [1; 3] /\ kept_at keep2 0 rb = [0; 3] /\
  (exists l, diff2 (fun _ _ => plainly) sparse (VLC 1 [] (filter keep2 ra)) (VLC 1 [] (filter keep2 rb)) = Ok l /\
     diff2 (fun _ _ => plainly) sparse (VLC 1 [] ra) (VLC 1 [] rb) = Ok (map (entry_origin keep2 ra rb) l) /\
     In (Modified, [EInt 0; EStr (s2l "qty")], [EInt 0; EStr (s2l "qty")]) l /\ map (entry_origin keep2 ra rb) l <> l).
Proof.
  repeat (split; [reflexivity|]). split; [apply plain_W2|].
  split. { intros x [I|I]; cbn [ra rb In] in I; repeat (destruct I as [<-|I]; [first [apply tells_line|apply tells_stub]|]); destruct I. }
  split; [reflexivity|]. split; [reflexivity|]. split; [reflexivity|]. eexists. split; [vm_compute; reflexivity|]. split; [vm_compute; reflexivity|].
  split; [vm_compute; tauto|]. vm_compute. discriminate.
Qed.

(** With moves asked for, a blank item in front makes the others count as moved. *)
Definition roving : options := mkOptions (fun s => s) false true false true false false None true false.
Theorem C82_moved_refuted : exists la lb : list V, o_empty_items roving = true /\ filter keep2 la = filter keep2 lb /\
  diff2 (fun _ _ => plainly) roving (VLC 1 [] (filter keep2 la)) (VLC 1 [] (filter keep2 lb)) = Ok [] /\
  diff2 (fun _ _ => plainly) roving (VLC 1 [] la) (VLC 1 [] lb) = Ok [(Moved, [EInt 0], [EInt 1])].
Proof. exists [line "pen" 2], [stub; line "pen" 2]. repeat split; vm_compute; reflexivity. Qed.

Print Assumptions C82_list_absent.
Print Assumptions C82_place.
Print Assumptions C82_moved_refuted.
