(** Which items a comparison with [ignore_empty_items] leaves out. *)
From Coq Require Import List Arith NArith ZArith Bool.
From Verif Require Import Prelude SelPathModel FSModel PySeq MFSModel ValModel EqModel SeqDiffModel DiffModel.
Import ListNotations.

Section Spec.
Context {A C : Type}.
Variable W : classes A C.
Notation val := (val A C).
Notation prop := (prop A C).
Variable opt : options.

(** nothing, None, '' or a tuple of nothing else *)
Inductive blank : val -> Prop :=
| blank_nothing : blank VNothing
| blank_none : blank VNone
| blank_text : blank (VText [])
| blank_tuple l : (forall x, In x l -> blank x) -> blank (VSeq true l).

(** what is found in a field: None if it is not set, text as normalised *)
Definition field (p : prop) (v : val) : val :=
  match slot v (p_name p) with
  | None => VNone
  | Some (VText s) => VText (o_text opt s)
  | Some u => u
  end.

(** the fields of the primary key or, if there are none, those which take part in comparing *)
Definition key_field (c : C) (p : prop) : Prop :=
  match pkey W c with
  | [] => In p (props W c) /\ p_extraneous p = false
  | pk => In p pk
  end.

(** every field of the key is blank, or is declared to hold a record and every field of its key is *)
Inductive blank_item : C -> val -> Prop :=
| blank_item_of c v :
    (forall p, key_field c p -> blank (field p v) \/ exists d, p_valuetype p = Some [Some d] /\ blank_item d (field p v)) -> blank_item c v.

(** Classes whose keys consist of fields without [compare_as] which hold no records, or one class of records, again such *)
Definition plain_keys (S : C -> Prop) : Prop := forall c, S c ->
  (kind W c = KRec \/ pkey W c <> []) /\
  forall p, key_field c p -> p_compare_as p = None /\
    ((forall vts vt, p_valuetype p = Some vts -> In vt vts -> vt = None) \/
     (exists d, p_valuetype p = Some [Some d] /\ S d /\ exists q, key_field d q)).

(** [p] starts at one of [ks] *)
Definition at_key (ks : elem -> Prop) (p : list elem) : Prop := match p with [] => True | k :: _ => ks k end.
End Spec.
