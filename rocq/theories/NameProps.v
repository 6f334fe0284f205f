(** C83: names of composed types, and the informal text of records. *)
From Coq Require Import String List NArith Arith Bool Lia.
From Verif Require Import Prelude SelPathModel FSModel PySeq MFSModel ValModel EqModel NameModel NameSpec NameProofs.
Import ListNotations.
Local Open Scope list_scope.

Section Camel.
Variable other_digit : N -> bool.
Hypothesis od : forall c, other_digit c = true -> (128 <= c)%N.
Notation digit := (fun c => other_digit c = true).

(** the parts of a name are its words, which are determined *)
Theorem C83_words s : ~ In 44%N s -> words digit (name_parts other_digit s) s /\ forall ps, words digit ps s -> ps = name_parts other_digit s.
Proof.
  intros N. rewrite (parts_cut other_digit od) by exact N. split; [apply cut_words|]. intros ps W. symmetry. now apply words_unique.
Qed.

(** the merged name: the words of the new type the base lacks, in order, then the name of the base *)
Theorem C83_merge base new bs ns : ~ In 44%N base -> ~ In 44%N new -> words digit bs base -> words digit ns new ->
  exists kept, merge_names other_digit base new = concat kept ++ base
    /\ (forall w, In w kept <-> In w ns /\ ~ In w bs)
    /\ (forall (keep : str -> bool), (forall w, keep w = true <-> ~ In w bs) -> kept = filter keep ns).
Proof.
  intros Nb Nn Wb Wn. destruct (C83_words base Nb) as [_ Ub], (C83_words new Nn) as [_ Un]. unfold merge_names. rewrite <- (Ub _ Wb), <- (Un _ Wn).
  eexists. rewrite concat_app. split; [f_equal; eapply words_concat; eauto|]. split.
  - intros w. rewrite filter_In, negb_true_iff. rewrite <- (mem_spec w bs). destruct (existsb (str_eqb w) bs); intuition congruence.
  - intros keep K. apply filter_ext. intros w. specialize (K w). rewrite <- (mem_spec w bs) in K. destruct (keep w), (existsb (str_eqb w) bs); cbn; auto; intuition congruence.
Qed.

(** merging a name with itself changes nothing *)
Theorem C83_same s : ~ In 44%N s -> merge_names other_digit s s = s.
Proof.
  intros N. destruct (C83_words s N) as [W _]. destruct (C83_merge s s _ _ N N W W) as (kept & -> & K & _). destruct kept as [|w k]; [reflexivity|]. destruct (proj1 (K w) (or_introl eq_refl)). tauto.
Qed.

(** of ordinary class names the merge is an ordinary class name, its words are those kept and those of the base, and merging the same name again
    changes nothing *)
Theorem C83_again base new bs ns : class_name digit base -> class_name digit new -> words digit bs base -> words digit ns new ->
  let m := merge_names other_digit base new in
  class_name digit m
  /\ (exists kept, words digit (kept ++ bs) m /\ forall w, In w (kept ++ bs) <-> In w ns \/ In w bs)
  /\ merge_names other_digit m new = m.
Proof.
  intros (Nb & Ub & Lb) (Nn & Un & Ln) Wb Wn m. destruct (C83_merge _ _ _ _ Nb Nn Wb Wn) as (kept & Em & K & _). fold m in Em.
  assert (Sh : forall q, In q kept -> solid digit q /\ starts_upper q /\ ends_lower digit q).
  { intros q I. apply K in I as [I _]. eapply words_shape; eauto. }
  destruct (words_join other_digit kept bs base Sh Ub Wb) as [Wm Um]. rewrite <- Em in Wm, Um.
  assert (Nm : ~ In 44%N m).
  { rewrite Em. intros I. apply in_app_or in I as [I|I]; [|tauto]. apply in_concat in I as (q & Iq & I). apply Nn. apply K in Iq as [Iq _].
    rewrite <- (words_concat other_digit ns new Wn). apply in_concat. eauto. }
  assert (Lm : ends_lower digit m).
  { rewrite Em. destruct Lb as (x & a & -> & L). exists (concat kept ++ x), a. split; [now rewrite app_assoc|exact L]. }
  assert (Mem : forall w, In w (kept ++ bs) <-> In w ns \/ In w bs).
  { intros w. rewrite in_app_iff, K. destruct (in_dec (list_eq_dec N.eq_dec) w bs); tauto. }
  split; [split; auto|]. split; [eauto|].
  destruct (C83_merge m new _ _ Nm Nn Wm Wn) as (kept' & -> & K' & _). destruct kept' as [|w k]; [reflexivity|]. exfalso.
  destruct (proj1 (K' w) (or_introl eq_refl)) as [I1 I2]. apply I2, Mem. now left.
Qed.
End Camel.

Definition no_other (_ : N) : bool := false.
Example C83_ex :
  name_parts no_other (s2l "LazyV2Property") = [s2l "Lazy"; s2l "V2"; s2l "Property"]
  /\ merge_names no_other (s2l "SafeProperty") (s2l "LazyProperty") = s2l "LazySafeProperty"
  /\ merge_names no_other (s2l "LazySafeProperty") (s2l "ROLazyProperty") = s2l "ROLazyLazySafeProperty"
  /\ class_name (fun c => no_other c = true) (s2l "LazyV2Property").
Proof.
  repeat split; try reflexivity.
  - cbn. intuition discriminate.
  - exists 76%N, (s2l "azyV2Property"). split; [reflexivity|]. unfold upper. lia.
  - exists (s2l "LazyV2Propert"), 121%N. split; [reflexivity|]. left. lia.
Qed.

(** the name does not tell what was merged: different types give composed types of one name *)
Theorem C83_distinct_refuted : exists base new new' : str,
  new <> new' /\ class_name (fun c => no_other c = true) base /\ class_name (fun c => no_other c = true) new /\ class_name (fun c => no_other c = true) new'
  /\ merge_names no_other base new = merge_names no_other base new'.
Proof.
  exists (s2l "SafeProperty"), (s2l "ListProperty"), (s2l "PropertyList"). split; [discriminate|]. repeat split; try (cbn; intuition discriminate).
  - exists 83%N, (s2l "afeProperty"). split; [reflexivity|unfold upper; lia].
  - exists (s2l "SafePropert"), 121%N. split; [reflexivity|left; lia].
  - exists 76%N, (s2l "istProperty"). split; [reflexivity|unfold upper; lia].
  - exists (s2l "ListPropert"), 121%N. split; [reflexivity|left; lia].
  - exists 80%N, (s2l "ropertyList"). split; [reflexivity|unfold upper; lia].
  - exists (s2l "PropertyLis"), 116%N. split; [reflexivity|left; lia].
Qed.

Section Str.
Context {A C : Type}.
Notation val := (val A C).
Variable repr : val -> str.
Variable pk : val -> res val.

(** the text of the key: of its one part, or of the whole *)
Definition key_text (k : val) (t : str) : Prop := exists l, k = VSeq true l /\ ((exists x, l = [x] /\ t = repr x) \/ (length l <> 1 /\ t = repr k)).

(** the text is the class name and what is shown of the key *)
Theorem C83_str name v s : record_str repr pk name v = Ok s ->
  exists k t u, pk v = Ok k /\ key_text k t /\ shown_key t u /\ s = s2l "<" ++ name ++ s2l " " ++ u ++ s2l ">" /\ length s <= length name + 36.
Proof.
  unfold record_str. destruct (pk v) as [k|e]; [|discriminate]. cbn [bind]. destruct k as [| | | |[|] l| | | |] eqn:Ek; try discriminate. intros E.
  set (t := match l with [x] => repr x | _ => repr (VSeq true l) end).
  exists (VSeq true l), t, (if Nat.ltb 32 (length t) then firstn 30 t ++ s2l "..." else t). split; [reflexivity|]. split.
  { exists l. split; [reflexivity|]. destruct l as [|x [|y l]]; cbn; [right; split; [discriminate|reflexivity]|left; eauto|right; split; [discriminate|reflexivity]]. }
  assert (Sh : shown_key t (if Nat.ltb 32 (length t) then firstn 30 t ++ s2l "..." else t)).
  { destruct (Nat.ltb 32 (length t)) eqn:L.
    - apply Nat.ltb_lt in L. right. split; [exact L|]. exists (skipn 30 t). assert (L30 : length (firstn 30 t) = 30) by (rewrite firstn_length; lia).
      assert (F30 : firstn 30 (firstn 30 t ++ s2l "...") = firstn 30 t) by (rewrite firstn_app, L30, Nat.sub_diag, firstn_firstn, Nat.min_id; change (firstn 0 (s2l "...")) with (@nil N); apply app_nil_r).
      rewrite F30. split; [symmetry; apply firstn_skipn|]. split; [exact L30|].
      rewrite skipn_app, L30, Nat.sub_diag, skipn_all2 by lia. reflexivity.
    - apply Nat.ltb_ge in L. left. auto. }
  assert (Lu : length (if Nat.ltb 32 (length t) then firstn 30 t ++ s2l "..." else t) <= 33).
  { destruct (Nat.ltb 32 (length t)) eqn:L; [rewrite app_length, firstn_length; change (length (s2l "...")) with 3; lia|]. apply Nat.ltb_ge in L. lia. }
  assert (Es : s = s2l "<" ++ name ++ s2l " " ++ (if Nat.ltb 32 (length t) then firstn 30 t ++ s2l "..." else t) ++ s2l ">") by (injection E as <-; reflexivity).
  split; [exact Sh|]. split; [exact Es|]. rewrite Es. clear Sh Es E. revert Lu. generalize (if Nat.ltb 32 (length t) then firstn 30 t ++ s2l "..." else t). intros u Lu.
  rewrite !app_length. change (length (s2l "<")) with 1. change (length (s2l " ")) with 1.
  change (length (s2l ">")) with 1. lia.
Qed.

(** it fails when, and as, taking the key does *)
Theorem C83_str_fails name v e : (forall k, pk v = Ok k -> exists l, k = VSeq true l) -> (record_str repr pk name v = Err e <-> pk v = Err e).
Proof.
  intros T. unfold record_str. destruct (pk v) as [k|e']; cbn [bind]; [|split; intros E; injection E as ->; reflexivity]. destruct (T k eq_refl) as [l ->]. split; discriminate.
Qed.
End Str.

(** with the key of the package: a record has a tuple for a key *)
Section Key.
Context {A C H : Type}.
Variable W : classes A C.
Variable sort_items : list (elem * val A C) -> list (elem * val A C).
Variable alien_atom : C -> A -> res (list (elem * val A C)).
Variable a_hash : A -> bool.
Variable ahash : A -> res H.
Variables hnothing hnone : H.
Variable htext : str -> H.
Variable htuple : list H -> H.
Variable repr : val A C -> str.
Notation rid := (rid W sort_items alien_atom a_hash ahash hnothing hnone htext htuple).

Theorem C83_str_key n name c v : 
  (forall e, record_str repr (rid n None (RClass c) None) name v = Err e <-> rid n None (RClass c) None v = Err e)
  /\ (forall i, rid n None (RClass c) None v = Ok i -> exists s, record_str repr (rid n None (RClass c) None) name v = Ok s).
Proof.
  assert (T : forall k, rid n None (RClass c) None v = Ok k -> exists l, k = VSeq true l).
  { destruct n as [|n]; [discriminate|]. intros k. cbn [EqModel.rid sel_true andb].
    assert (M : forall (X : res (list (val A C))), (do ids <- X; Ok (VSeq true ids)) = Ok k -> exists l, k = VSeq true l).
    { intros [l|e]; cbn; [intros E; injection E as <-; eauto|discriminate]. }
    destruct (pkey W c); [destruct (kind W c)|]; try apply M; (destruct (match tuples v with Some l => Ok l | None => _ end); cbn [bind]; [apply M|discriminate]). }
  split; [intros e; now apply C83_str_fails|]. intros i E. unfold record_str. rewrite E. cbn [bind]. destruct (T i E) as [l ->]. eauto.
Qed.
End Key.

(** a world: 0 a person with the key "name"; 1 a list of persons; 2 a team with persons; texts stand for themselves *)
Definition pr (n : string) (vt : option (list (option nat))) : prop nat nat := @mkProp nat nat (s2l n) false vt None.
Definition W83 : classes nat nat := mkClasses
  (fun c => match c with 1 => KList | _ => KRec end)
  (fun c => match c with 0 => [pr "name" None; pr "age" None] | 2 => [pr "persons" (Some [Some 1])] | _ => [] end)
  (fun c => match c with 0 => [pr "name" None] | _ => [] end)
  (fun c => match c with 1 => IRec 0 | _ => IPlain end)
  (fun _ => None)
  (fun _ v => Ok v).
Fixpoint text83 (v : val nat nat) : str :=
  match v with
  | VText s => s2l "'" ++ s ++ s2l "'"
  | VSeq true l => s2l "(" ++ flat_map (fun x => text83 x ++ s2l ",") l ++ s2l ")"
  | _ => s2l "?"
  end.
Definition key83 (c : nat) : val nat nat -> res (val nat nat) :=
  rid (H := unit) W83 (fun l => l) (fun _ _ => Err TypeErr) (fun _ => true) (fun _ => Ok tt) tt tt (fun _ => tt) (fun _ => tt) 9 None (RClass c) None.
Definition person (n : string) (age : nat) : val nat nat := VRec 0 [(s2l "name", VText (s2l n)); (s2l "age", VAtom age)].
Example C83_ex_str :
  record_str text83 (key83 0) (s2l "Person") (person "Ann" 3) = Ok (s2l "<Person 'Ann'>")
  /\ record_str text83 (key83 0) (s2l "Person") (person "Wolfeschlegelsteinhausenbergerdorff" 3) = Ok (s2l "<Person 'Wolfeschlegelsteinhausenberge...>")
  /\ record_str text83 (key83 2) (s2l "Team") (VRec 2 [(s2l "persons", VLC 1 [] [person "Ann" 3; person "Bo" 4])]) = Ok (s2l "<Team (('Ann',),('Bo',),)>").
Proof. repeat split; reflexivity. Qed.

(** str() of a valid record can raise an error: a team of no one *)
Theorem C83_str_total_refuted : exists v, record_str text83 (key83 2) (s2l "Team") v = Err KeyHashError
  /\ v = VRec 2 [(s2l "persons", VLC 1 [] [])].
Proof. exists (VRec 2 [(s2l "persons", VLC 1 [] [])]). split; reflexivity. Qed.

(** and does not tell records with different keys apart *)
Theorem C83_str_distinct_refuted : exists v w i j s, key83 0 v = Ok i /\ key83 0 w = Ok j /\ i <> j
  /\ record_str text83 (key83 0) (s2l "Person") v = Ok s /\ record_str text83 (key83 0) (s2l "Person") w = Ok s.
Proof.
  exists (person "Wolfeschlegelsteinhausenbergerdorff" 3), (person "Wolfeschlegelsteinhausenbergerstrand" 3). do 3 eexists.
  split; [reflexivity|]. split; [reflexivity|]. split; [discriminate|]. split; reflexivity.
Qed.

Print Assumptions C83_words.
Print Assumptions C83_merge.
Print Assumptions C83_same.
Print Assumptions C83_again.
Print Assumptions C83_distinct_refuted.
Print Assumptions C83_str.
Print Assumptions C83_str_fails.
Print Assumptions C83_str_key.
Print Assumptions C83_str_total_refuted.
Print Assumptions C83_str_distinct_refuted.
