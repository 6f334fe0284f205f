(** Which declarations let loaded records be written and loaded again (C70): specification only. *)
From Coq Require Import String List NArith ZArith Arith Bool.
From Verif Require Import Prelude GenModel JsonModel JsonSpec JsonOutSpec.
Import ListNotations.
Local Open Scope string_scope.
Local Open Scope list_scope.

(** The attribute [x] of the property [p] is written as some [j], and [j] is read as [x] again. *)
Definition comes_back (show : Z -> str) (p : prop) (x : pyv) : Prop :=
  exists j y,
    match conv_out p with Some f => f x = Ok j | None => form show x j end /\
    match conv_in p with Some f => f j = Val y | None => y = j end /\
    settles (q_type p) y x /\
    ~ (q_required p = true /\ q_type p = TAny /\ y = PNone).

(** [y], given for a property of type [t], leaves it unset: it is not of the type and coerced to None. *)
Definition dropped (t : vtype) (y : pyv) : Prop :=
  match t with
  | TPrim isa co => isa y = false /\ co y = Val PNone /\ isa PNone = false
  | _ => False
  end.

(** A value [y] for the property, from a document or by default, is kept in a form that comes back if it
    is accepted at all; and it is not dropped if the property has a default, which would appear in its
    place the next time. *)
Definition steady_value (show : Z -> str) (p : prop) (y : pyv) : Prop :=
  (forall x, settles (q_type p) y x -> q_check p x = true ->
     ~ (q_required p = true /\ q_type p = TAny /\ y = PNone) -> comes_back show p x) /\
  (has_init p -> ~ dropped (q_type p) y).

(** A property of a JSON record class, other than unknown_json_keys, whose values survive:
    - if it is not in JSON it has no default and is not required;
    - if its type is a class, that is among the classes considered, the property has no conversions of
      its own, and its default is a record JSON can represent;
    - otherwise all values read from documents, and the default, are steady. *)
Record steady_prop (W : world) (show : Z -> str) (Good : nat -> Prop) (p : prop) : Prop := {
  sp_key : json_key p = None -> ~ has_init p;
  sp_type :
    match q_type p with
    | TCls c _ =>
        Good c /\ conv_in p = None /\ conv_out p = None /\
        (forall d, q_default p = Some (Ok d) -> fits W show c d)
    | _ =>
        (forall d, q_default p = Some (Ok d) -> steady_value show p d) /\
        (forall j y, document j -> match conv_in p with Some f => f j = Val y | None => y = j end ->
           steady_value show p y)
    end
}.

(** Items of collections: no conversions, and what a coerce function returns is kept as it is. *)
Definition steady_item (show : Z -> str) (Good : nat -> Prop) (t : vtype) : Prop :=
  match t with
  | TCls c _ => Good c
  | TAny => True
  | TPrim isa co => forall j x, document j -> (isa j = true /\ x = j) \/ (isa j = false /\ co j = Val x) ->
      exists j', form show x j' /\ settles t j' x
  end.

(** The classes [Good] are JSON classes of such properties and items, and refer only to one another. *)
Record steady (W : world) (show : Z -> str) (Good : nat -> Prop) : Prop := {
  sw_class : forall c, Good c -> json_class W c;
  sw_self : forall c, Good c -> w_sub W c c = true;
  sw_record : forall c, Good c -> w_kind W c = KJson ->
    tidy_class W c /\
    forall p, In p (w_props W c) -> q_name p <> s2l "unknown_json_keys" -> steady_prop W show Good p;
  sw_coll : forall c, Good c -> w_kind W c <> KJson ->
    (forall p, In p (w_props W c) -> ~ has_init p) /\ steady_item show Good (w_item W c)
}.
