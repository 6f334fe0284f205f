(** What a comparison with [duck_type] sees. *)
From Coq Require Import List Arith NArith ZArith Bool.
From Verif Require Import Prelude SelPathModel FSModel PySeq MFSModel ValModel EqModel SeqDiffModel DiffModel DiffExact.
Import ListNotations.

Section Spec.
Context {A C : Type}.
Variable W : classes A C.
Notation val := (val A C).
Variable opt : options.
Notation seen := (seen (A := A) (C := C) opt).

(** Duck typing, and otherwise the defaults but for text normalisation, [extraneous], [fuzzy_match] and what is reported besides changes *)
Definition ducking : Prop :=
  o_empty_slots opt = false /\ o_empty_items opt = false /\ o_duck opt = true /\ o_filter opt = None /\ o_recurse opt = false.

(** lists, dicts, records and collections *)
Definition composite (v : val) : Prop := match v with VSeq _ _ | VMap _ | VRec _ _ | VLC _ _ _ | VDC _ _ _ => True | _ => False end.

(** Nothing in it but, perhaps, records and collections with nothing in them *)
Inductive hollow : val -> Prop :=
| hollow_plain v : composite v -> class_of v = None -> contents v = [] -> hollow v
| hollow_record v c : class_of v = Some c ->
    (forall p u, In p (props W c) -> compared opt p -> seen p v = Some u -> composite u) ->
    (forall p u, In p (props W c) -> compared opt p -> seen p v = Some u -> hollow u) ->
    (collection v -> ValModel.item W c = IPlain -> contents v = []) ->
    (collection v -> forall d k x, ValModel.item W c = IRec d -> In (k, x) (contents v) -> hollow x) ->
    hollow v.

(** the entries whose first path starts with the name of the property *)
Definition of_slot (p : prop A C) (l : list dentry) : list dentry :=
  filter (fun e => match snd (fst e) with EStr s :: _ => str_eqb s (p_name p) | _ => false end) l.
End Spec.
