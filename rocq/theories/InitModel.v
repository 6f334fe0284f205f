(** Initialising a property: what becomes of the arguments of a declaration, and of the defaults of
    property types made by [make_property_type] (normalize/property/__init__.py:498-564).  Which type is
    chosen is [TraitModel.declare]; here its [__init__] methods are added, each of which calls the next
    one in the method resolution order.

    Simplifications: the types for collections (property/coll.py), whose [__init__] methods replace
    arguments by others, are not modelled (see CollPropModel, C54); neither is what the arguments' values must be
    (CoerceWithoutType, LazyIsFalse, NoneMutable, signatures of functions).  [traits] is an argument of
    [declare] only: Property.__init__ accepts it and does nothing with it. *)
From Coq Require Import String List NArith Bool Arith.
Import ListNotations.
From Verif Require Import Prelude TraitModel.
Local Open Scope string_scope.
Local Open Scope list_scope.

Section Init.
Variable V : Type.
(** [looks_like_v1_none(value)] (meta.py:32-33) *)
Variable looks : V -> bool.

(** Keyword arguments; names are distinct. *)
Definition dict : Type := list (str * V).
Definition names (d : dict) : list str := map fst d.
Definition find_arg (n : str) (d : dict) : option V :=
  match find (fun a => str_eqb (fst a) n) d with Some a => Some (snd a) | None => None end.

(** The [__init__] of a class, if its body has one. *)
Inductive init_body :=
| NoInit
| Takes (ns : list str)      (* [__init__(self, n1=..., n2=..., **kwargs)]; [kwargs] is passed on:
                                LazyProperty, DiffasProperty (property/__init__.py:332-349, 474-482),
                                JsonProperty (property/json.py:38-69) *)
| TakesV1                    (* V1Property (property/__init__.py:437-452) *)
| Supplies (d : dict)        (* made by make_property_type (property/__init__.py:552-556) *)
| Last (ns : list str).      (* Property.__init__ (property/__init__.py:52-157): no [**kwargs] *)

(** property/__init__.py:553-555 *)
Definition fill (d kw : dict) : dict := kw ++ filter (fun a => negb (smem (fst a) (names kw))) d.

Definition v1_none_s := s2l "v1_none".

(** The [__init__] methods in the order of the MRO: the arguments that are taken, by name, with the
    values they are given ([None]: TypeError for an unexpected keyword argument).  Arguments that are not
    given are left out: they have the default of the method which declares them. *)
Fixpoint run (l : list init_body) (kw : dict) : option dict :=
  match l with
  | [] => match kw with [] => Some [] | _ => None end
  | NoInit :: l => run l kw
  | Takes ns :: l =>
      match run l (filter (fun a => negb (smem (fst a) ns)) kw) with
      | Some r => Some (filter (fun a => smem (fst a) ns) kw ++ r)
      | None => None
      end
  | TakesV1 :: l =>
      let rest := filter (fun a => negb (str_eqb (fst a) v1_none_s)) kw in
      match find_arg v1_none_s kw, find_arg default_s kw with
      | Some v, _ => match run l rest with Some r => Some ((v1_none_s, v) :: r) | None => None end
      | None, Some v =>
          if looks v then
            match run l (filter (fun a => negb (str_eqb (fst a) default_s)) rest) with
            | Some r => Some ((v1_none_s, v) :: r)
            | None => None
            end
          else run l rest
      | None, None => run l rest
      end
  | Supplies d :: l => run l (fill d kw)
  | Last ns :: _ => if forallb (fun a => smem (fst a) ns) kw then Some kw else None
  end.

(** What [has] sees of the arguments. *)
Definition shape (traits : option (list str)) (kw : dict) : kwargs :=
  {| kw_traits := traits; kw_args := map (fun a => (fst a, looks (snd a))) kw |}.

(** Calling a property type (type.__call__): [Raw]: the object is not an instance of the type, so
    [__init__] does not run. *)
Inductive outcome :=
| Failed (e : terr)
| Raw (u : ptype)
| Made (u : ptype) (args : dict).
Variable inits : nat -> init_body.
Definition construct (R : reg) (t : ptype) (traits : option (list str)) (kw : dict) : reg * outcome :=
  match declare R t (shape traits kw) with
  | (R, TErr e) => (R, Failed e)
  | (R, TOk (u, false)) => (R, Raw u)
  | (R, TOk (u, true)) =>
      (R, match run (map inits (p_mro u)) kw with
          | Some args => Made u args
          | None => Failed TTypeErr
          end)
  end.

(** [make_property_type(name, base_type, trait_name=..., **defaults)] (property/__init__.py:541-564): the
    argument names of the new [__init__] are [self] only. *)
Definition make_type (R : reg) (bases : list ptype) (trait : str) (traits : option (list str)) (d : dict)
  : reg * tres ptype :=
  new_type R bases {| b_trait := Some trait; b_safe := None; b_init := [s2l "self"]; b_defaults := shape traits d |}.
End Init.
Arguments NoInit {V}. Arguments Takes {V}. Arguments TakesV1 {V}. Arguments Supplies {V}. Arguments Last {V}.
Arguments Failed {V}. Arguments Raw {V}. Arguments Made {V}.
Arguments names {V}. Arguments find_arg {V}. Arguments fill {V}. Arguments run {V}. Arguments shape {V}.
Arguments construct {V}. Arguments make_type {V}.
