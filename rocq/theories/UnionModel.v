(** Visiting a property declared with several types: normalize/visitor.py:692-758 (map_prop,
    map_type_union), on the visitors of [VisitModel]. *)
From Coq Require Import String List NArith ZArith Bool.
From Verif Require Import Prelude SelPathModel GenModel PickleModel AutoModel JsonModel VisitModel.
Import ListNotations.
Local Open Scope list_scope.

(** A member of the tuple: a Record class, or another class. *)
Inductive utype := URec (c : nat) | UOther (isa : pyv -> bool).

(** [except TypeError] (exc.py:82).  Neither VisitorGrokRecordError (exc.py:469-480) is one, nor what
    [VisitorUnpack] stands for: VisitorUnpackError is one (exc.py:491) but cannot be made, and an
    AttributeError comes instead (C48). *)
Definition type_error (e : exn) : bool :=
  match e with TypeErr => true | _ => is_coercion_err e end.

Section Union.
Variable W : world.
Variable apply : list elem -> option prop -> pyv -> out pyv.

(** visitor.py:726-728: the Record classes of the tuple *)
Fixpoint record_types (ts : list utype) : list nat :=
  match ts with
  | [] => []
  | URec c :: t => c :: record_types t
  | UOther _ :: t => record_types t
  end.

(** isinstance(value, value_type) (visitor.py:731) *)
Definition instance (v : pyv) (c : nat) : bool :=
  match v with PObj d _ => w_sub W d c | _ => false end.

(** the loops of visitor.py:736-743 and 745-754 *)
Fixpoint try_types (cue : list elem) (x : mapper) (cs : list nat) (mapped : pyv) : out pyv :=
  match cs with
  | [] => Val mapped
  | c :: t =>
      match snd x c cue with
      | Val m => if py_true m then Val m else try_types cue x t m
      | Exc q e => if type_error e then try_types cue x t mapped else Exc q e
      end
  end.

(** visitor.py:711-758 *)
Definition map_type_union (cue : list elem) (p : prop) (x : mapper) (ts : list utype) : out pyv :=
  let rs := record_types ts in
  match filter (instance (fst x)) rs with
  | [] =>
      let* m := try_types cue x rs PNone in
      if py_true m then Val m else apply cue (Some p) (fst x)
  | ms => try_types cue x ms PNone
  end.
End Union.
