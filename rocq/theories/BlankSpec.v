(** What a comparison with [ignore_empty_slots] sees. *)
From Coq Require Import List Arith NArith ZArith Bool.
From Verif Require Import Prelude SelPathModel FSModel PySeq MFSModel ValModel EqModel SeqDiffModel DiffModel DiffExact DuckSpec.
Import ListNotations.

Section Spec.
Context {A C : Type}.
Variable W : classes A C.
Notation val := (val A C).
Notation prop := (prop A C).
Variable opt : options.

(** Empty slots are ignored, and otherwise the defaults but for text normalisation, [extraneous], [fuzzy_match] and what is reported
    besides changes *)
Definition emptying : Prop :=
  o_empty_slots opt = true /\ o_empty_items opt = false /\ o_duck opt = false /\ o_filter opt = None /\ o_recurse opt = false.

(** None and text of which nothing is left are not seen. *)
Definition shown (v : val) : option val :=
  match v with
  | VNothing | VNone => None
  | VText s => match o_text opt s with [] => None | s => Some (VText s) end
  | _ => Some v
  end.
Definition seen_full (p : prop) (o : val) : option val :=
  match slot o (p_name p) with
  | None | Some VNothing => None
  | Some u => shown (match p_compare_as p with Some f => f o u | None => u end)
  end.
(** an item of a list or dict, or of an untyped collection *)
Definition item_shown (coll x : val) : option val :=
  match x with
  | VNothing => None
  | _ => shown (match class_of coll with
                | Some c => match item_as W c with Some f => f x | None => x end
                | None => x
                end)
  end.
Definition none_shown (v : val) : Prop := forall k x, In (k, x) (contents v) -> item_shown v x = None.

(** Nothing to be seen but, perhaps, records and collections with nothing to be seen in them *)
Inductive vacant : val -> Prop :=
| vacant_plain v : composite v -> class_of v = None -> none_shown v -> vacant v
| vacant_record v c : class_of v = Some c ->
    (forall p u, In p (props W c) -> compared opt p -> seen_full p v = Some u -> composite u) ->
    (forall p u, In p (props W c) -> compared opt p -> seen_full p v = Some u -> vacant u) ->
    (collection v -> ValModel.item W c = IPlain -> none_shown v) ->
    (collection v -> forall d k x, ValModel.item W c = IRec d -> In (k, x) (contents v) -> vacant x) ->
    vacant v.

(** lists, tuples, dicts or records and collections of the same class *)
Definition comparables (u v : val) : Prop := composite u /\ composite v /\ same_type u v.
End Spec.
