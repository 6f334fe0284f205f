(** What it takes for equal values to have no differences: C59. *)
From Coq Require Import List Arith NArith ZArith Bool.
From Verif Require Import Prelude SelPathModel FSModel PySeq MFSModel ValModel EqModel EqProofs SeqDiffModel SeqDiffProofs
  FuzzyModel DiffModel DiffProofs DiffSwap DiffExact DiffEntries.
Import ListNotations.

Section Spec.
Context {A C : Type}.
Variable W : classes A C.
Variable aeqb : A -> A -> bool.
Variable same_item : C -> C -> bool.
Notation val := (val A C).
Variable veqb : val -> val -> bool.
Variable a_hash : A -> bool.
Variable opt : options.
Variable record_id : rtype C -> option mfs -> val -> res val.
Notation same := (same W aeqb same_item).

(** [veqb], by which leaves are compared, holds of all values which are ==; compare_as functions
    and hash() do not tell values apart which are ==. *)
Definition respectful : Prop :=
  (forall u v, same u v -> veqb u v = true) /\
  (forall c p f o o' u v, In p (props W c) -> p_compare_as p = Some f -> same o o' -> same u v -> same (f o u) (f o' v)) /\
  (forall c f u v, item_as W c = Some f -> same u v -> same (f u) (f v)) /\
  (forall x y, aeqb x y = true -> a_hash x = a_hash y).

(** what is compared of an item of a list, a dict or an untyped collection *)
Definition item_seen (coll v : val) : val :=
  as_text opt (match class_of coll with
               | Some c => match item_as W c, v with
                           | None, _ | _, VNothing => v
                           | Some f, _ => f v
                           end
               | None => v
               end).

(** A collection with none of its own properties set; items which have a hash, unless they are
    records of a typed collection; and no two records in a dict collection with the same identity. *)
Definition orderly (v : val) : Prop :=
  (collection v -> forall c p, class_of v = Some c -> In p (props W c) -> compared opt p -> seen opt p v = None) /\
  (loose W v -> forall k u, In (k, u) (contents v) -> has_hash a_hash (item_seen v u) = true) /\
  (match v with VDC _ _ _ => strict W v | _ => False end -> forall i j x y,
     In (i, x) (identified record_id v) -> In (j, y) (identified record_id v) -> keqb veqb x y = true -> i = j).
Definition all_orderly (a : val) : Prop := forall q v, at_path W opt a q v -> orderly v.

(** Records in typed collections within [a] and [b] have the same identity if they are ==. *)
Definition alike (a b : val) : Prop := forall q r a' b' i j u v, at_path W opt a q a' -> at_path W opt b r b' ->
  same_type a' b' -> strict W a' -> In (i, u) (contents a') -> In (j, v) (contents b') ->
  same u v -> keqb veqb (identity record_id u) (identity record_id v) = true.
End Spec.
