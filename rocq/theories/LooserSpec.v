(** When one set of comparison options is looser than another (C71): specification only. *)
From Coq Require Import List Arith NArith ZArith Bool.
From Verif Require Import Prelude SelPathModel FSModel MFSModel ValModel EqModel SeqDiffModel DiffModel.
Import ListNotations.

(** Under [o2] no more is told apart than under [o1]:
    - texts that are the same for [o1] are the same for [o2];
    - what [o1] takes for an empty slot, [o2] does;
    - what [o1] does not compare, [o2] does not;
    - values of different types are never compared part by part, and [o2] does not ask for moved items. *)
Record looser (o1 o2 : options) : Prop := {
  lo_text : forall s s', o_text o1 s = o_text o1 s' -> o_text o2 s = o_text o2 s';
  lo_empty : o_empty_slots o1 = true ->
             o_empty_slots o2 = true /\ forall s, o_text o1 s = [] -> o_text o2 s = [];
  lo_extraneous : o_extraneous o2 = true -> o_extraneous o1 = true;
  lo_filter : o_filter o1 = None \/ o_filter o1 = o_filter o2;
  lo_duck : o_duck o1 = false /\ o_duck o2 = false;
  lo_moved : o_moved o2 = false
}.

Section Spec.
Context {A C : Type}.
Notation val := (val A C).
Variable W : classes A C.
Variable a_hash : A -> bool.

(** What is compared for the attribute of [v] with the value [u]; for an item [u] of [v]. *)
Definition attr_compared (v : val) (p : prop A C) (u : val) : val :=
  match p_compare_as p, u with
  | Some f, VNothing => VNothing
  | Some f, _ => f v u
  | None, _ => u
  end.
Definition item_compared (v u : val) : val :=
  match class_of v with
  | Some c => match item_as W c, u with
              | Some f, VNothing => VNothing
              | Some f, _ => f u
              | None, _ => u
              end
  | None => u
  end.

(** The items of lists, dicts, tuples and collections *)
Definition items_of (v : val) : list val :=
  match v with
  | VSeq _ l | VLC _ _ l => l
  | VMap l | VDC _ _ l => map snd l
  | _ => []
  end.

(** [nice] is a set of objects closed under attributes, whose lists and dicts have hashable items, without
    collections of records. *)
Record simple_objects (nice : val -> Prop) : Prop := {
  so_attr : forall v c p u, nice v -> class_of v = Some c -> In p (props W c) -> slot v (p_name p) = Some u ->
              nice (attr_compared v p u);
  so_item : forall v u, nice v -> In u (items_of v) -> has_hash a_hash (item_compared v u) = true;
  so_class : forall v c d, nice v -> class_of v = Some c -> ValModel.item W c <> IRec d
}.

(** == tells text, None and unset values from everything else, and is an equivalence. *)
Record sane_eq (veqb : val -> val -> bool) : Prop := {
  se_refl : forall v, veqb v v = true;
  se_sym : forall u v, veqb u v = true -> veqb v u = true;
  se_trans : forall u v w, veqb u v = true -> veqb v w = true -> veqb u w = true;
  se_text : forall s v, veqb (VText s) v = true -> v = VText s;
  se_none : forall v, veqb VNone v = true -> v = VNone;
  se_nothing : forall v, veqb VNothing v = true -> v = VNothing
}.
End Spec.
