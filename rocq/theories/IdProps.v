(** C60: what the identity of a record (__pk__) tells about it. *)
From Coq Require Import String List Arith NArith ZArith Bool Lia.
From Verif Require Import Prelude SelPathModel FSModel PySeq MFSModel ValModel EqModel EqProofs HashProofs EqProps IdSpec IdProofs.
Import ListNotations.

Section C60.
Context {A C H : Type}.
Variable W : classes A C.
Variable aeqb : A -> A -> bool.
Variable ceqb : C -> C -> bool.
Variable same_item : C -> C -> bool.
Variable sort_items : list (elem * val A C) -> list (elem * val A C).
Variable alien_atom : C -> A -> res (list (elem * val A C)).
Variable a_hash : A -> bool.
Variable ahash : A -> res H.
Variables hnothing hnone : H.
Variable htext : str -> H.
Variable htuple : list H -> H.
Notation rid := (rid W sort_items alien_atom a_hash ahash hnothing hnone htext htuple).
Notation veq := (veq W aeqb ceqb same_item).

(** Without primary keys: the identities are equal exactly if the records are. *)
Theorem C60_identity T (x y i j : val A C) n m k l b b' :
  identity ceqb -> (forall c, same_item c c = true) -> coerce_wf W -> wf x -> wf y -> fits W T x -> fits W T y ->
  rid n None (RClass T) None x = Ok i -> rid m None (RClass T) None y = Ok j ->
  veq k i j = Ok b -> veq l x y = Ok b' -> b = b'.
Proof.
  intros Hc Hi CW Wx Wy Fx Fy Ei Ej Eb Eb'.
  assert (Wi : wf i) by exact (id_wf W same_item sort_items alien_atom a_hash ahash hnothing hnone htext htuple n T x i Fx Wx Ei).
  assert (Wj : wf j) by exact (id_wf W same_item sort_items alien_atom a_hash ahash hnothing hnone htext htuple m T y j Fy Wy Ej).
  apply (veq_decides W aeqb ceqb same_item Hc CW) in Eb; auto. apply (veq_decides W aeqb ceqb same_item Hc CW) in Eb'; auto.
  pose proof (id_same W aeqb same_item sort_items alien_atom a_hash ahash hnothing hnone htext htuple Hi n m T x y i j Fx Fy Ei Ej) as Q.
  destruct b, b'; intuition congruence.
Qed.

(** With a primary key: exactly if its fields are set alike and have equal values; nothing else counts. *)
Theorem C60_primary_key T (x y i j : val A C) n m :
  (forall c, same_item c c = true) -> pkey W T <> [] -> fit_key W (pkey W T) x -> fit_key W (pkey W T) y ->
  rid n None (RClass T) None x = Ok i -> rid m None (RClass T) None y = Ok j ->
  (same W aeqb same_item i j <->
   forall p, In p (pkey W T) -> opt2 (same W aeqb same_item) (slot x (p_name p)) (slot y (p_name p))).
Proof.
  intros Hi P Fx Fy Ei Ej. destruct (pkey W T) as [|p0 ps] eqn:E; [congruence|]. rewrite <- E in *.
  exact (key_same W aeqb same_item sort_items alien_atom a_hash ahash hnothing hnone htext htuple Hi n m T x y i j p0 ps E Fx Fy Ei Ej).
Qed.
End C60.

(** ** A world: 0 an Item with name and note; 1 holds an Item; 2 a sub-class of Item with size; 3, 4 a list
    and a dict of Items; 5 holds an Item or text; 6 has the primary key name; 7 a list of Items or Notes;
    8 a Note, with name and text *)
Module Ex.
Definition name := s2l "name". Definition note := s2l "note". Definition size := s2l "size".
Definition held := s2l "held". Definition text := s2l "text".
Definition P n vt := @mkProp nat nat n false vt None.
Definition W : classes nat nat :=
  mkClasses (fun c => match c with 3 | 7 => KList | 4 => KDict | _ => KRec end)
    (fun c => match c with
              | 0 => [P note None; P name (Some [None])]
              | 1 => [P held (Some [Some 0])]
              | 2 => [P note None; P name (Some [None]); P size None]
              | 5 => [P held (Some [Some 0; None])]
              | 6 => [P note None; P name (Some [None])]
              | 8 => [P name (Some [None]); P text None]
              | _ => []
              end)
    (fun c => match c with 6 => [P name (Some [None])] | _ => [] end)
    (fun c => match c with 3 | 4 => IRec 0 | 7 => ITuple | _ => IPlain end) (fun _ => None) (fun _ v => Ok v).
Definition t (s : string) : val nat nat := VText (s2l s).
Definition an_item n : val nat nat := VRec 0 [(name, t n); (note, VAtom 3)].
Notation id1 T v := (rid W (fun l => l) (fun _ _ => Err CollCoerceErr) (fun _ => true) (fun a => Ok (HA a)) HN H0 HS HT 9 None (RClass T) None v).
Notation veq1 := (veq W Nat.eqb Nat.eqb Nat.eqb 9).

Lemma item_fits n : fits W 0 (an_item n).
Proof.
  constructor; auto.
  - intros p [<-|[<-|[]]] _; discriminate.
  - intros p u vts d [<-|[<-|[]]] _ _; cbn; intros [= <-]; intros [[=]|[]].
Qed.
Lemma holder_fits n : fits W 1 (VRec 1 [(held, an_item n)]).
Proof.
  constructor; auto.
  - intros p [<-|[]] _; discriminate.
  - intros p u vts d [<-|[]] _; cbn. intros [= <-] [= <-] [[= <-]|[]]. apply item_fits.
Qed.
Lemma list_fits : fits W 3 (VLC 3 [] [an_item "a"; an_item "b"]).
Proof.
  constructor; auto; [discriminate|]. intros d u [= <-] [<-|[<-|[]]]; apply item_fits.
Qed.
End Ex.
Import Ex.

Example C60_case :
  fits W 1 (VRec 1 [(held, an_item "a")]) /\ fits W 1 (VRec 1 [(held, an_item "b")]) /\ fits W 3 (VLC 3 [] [an_item "a"; an_item "b"]) /\
  id1 1 (VRec 1 [(held, an_item "a")]) = Ok (VSeq true [VSeq true [t "a"; VAtom 3]]) /\
  id1 3 (VLC 3 [] [an_item "a"; an_item "b"]) = Ok (VSeq true [VSeq true [t "a"; VAtom 3]; VSeq true [t "b"; VAtom 3]]) /\
  coerce_wf W /\ identity Nat.eqb.
Proof.
  split; [apply holder_fits|]. split; [apply holder_fits|]. split; [apply list_fits|]. split; [reflexivity|]. split; [reflexivity|].
  split; [intros c v v' Wv [= <-]; auto|]. intros a b. apply Nat.eqb_eq.
Qed.
Example C60_key_case :
  pkey W 6 <> [] /\ fit_key W (pkey W 6) (VRec 6 [(name, t "a"); (note, VNone)]) /\
  id1 6 (VRec 6 [(name, t "a"); (note, VNone)]) = Ok (VSeq true [t "a"]).
Proof.
  split; [discriminate|]. split; [|reflexivity]. intros p [<-|[]]. split; [discriminate|].
  intros u vts d _ [= <-] [[=]|[]].
Qed.

(** Each of the conditions is needed: different records with the same identity.  A property set to None: *)
Theorem C60_none_refuted : exists (x y i : val nat nat),
  id1 0 x = Ok i /\ id1 0 y = Ok i /\ veq1 x y = Ok false /\
  x = VRec 0 [(name, t "a"); (note, VNone)] /\ y = VRec 0 [(name, t "a")].
Proof. do 3 eexists. repeat split; reflexivity. Qed.

(** a record of a sub-class of the declared class: its own properties are left out; *)
Theorem C60_subclass_refuted : exists (x y i : val nat nat),
  id1 1 x = Ok i /\ id1 1 y = Ok i /\ veq1 x y = Ok false /\
  x = VRec 1 [(held, VRec 2 [(name, t "a"); (size, VAtom 1)])] /\ y = VRec 1 [(held, VRec 2 [(name, t "a"); (size, VAtom 2)])].
Proof. do 3 eexists. repeat split; reflexivity. Qed.

(** a property declared for a record or something else: whatever is no record is only seen through the
    attributes it has not; *)
Theorem C60_union_refuted : exists (x y i : val nat nat),
  id1 5 x = Ok i /\ id1 5 y = Ok i /\ veq1 x y = Ok false /\
  x = VRec 5 [(held, t "a")] /\ y = VRec 5 [(held, t "b")] /\ i = VSeq true [VSeq true [VNone; VNone]].
Proof. do 3 eexists. repeat split; reflexivity. Qed.

(** a dict collection: the keys are left out; *)
Theorem C60_dict_refuted : exists (x y i : val nat nat),
  id1 4 x = Ok i /\ id1 4 y = Ok i /\ veq1 x y = Ok false /\
  x = VDC 4 [] [(EStr name, an_item "a")] /\ y = VDC 4 [] [(EStr note, an_item "a")].
Proof. do 3 eexists. repeat split; reflexivity. Qed.

(** items of several classes: the classes are left out; *)
Theorem C60_item_types_refuted : exists (x y i : val nat nat),
  id1 7 x = Ok i /\ id1 7 y = Ok i /\ veq1 x y = Ok false /\
  x = VLC 7 [] [VRec 0 [(name, t "a"); (note, VAtom 3)]] /\ y = VLC 7 [] [VRec 8 [(name, t "a"); (text, VAtom 3)]].
Proof. do 3 eexists. repeat split; reflexivity. Qed.

(** and, of course, what is not in the primary key. *)
Theorem C60_other_fields_refuted : exists (x y i : val nat nat),
  id1 6 x = Ok i /\ id1 6 y = Ok i /\ veq1 x y = Ok false /\
  x = VRec 6 [(name, t "a"); (note, VAtom 1)] /\ y = VRec 6 [(name, t "a"); (note, VAtom 2)].
Proof. do 3 eexists. repeat split; reflexivity. Qed.

Print Assumptions C60_identity.
Print Assumptions C60_primary_key.
Print Assumptions C60_none_refuted.
Print Assumptions C60_subclass_refuted.
Print Assumptions C60_union_refuted.
Print Assumptions C60_dict_refuted.
Print Assumptions C60_item_types_refuted.
Print Assumptions C60_other_fields_refuted.
