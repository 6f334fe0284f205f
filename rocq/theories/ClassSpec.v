(** Programs that declare classes. *)
From Coq Require Import String List NArith Bool Arith.
Import ListNotations.
From Verif Require Import Prelude TraitModel MetaModel MetaProps ClassModel.
Local Open Scope list_scope.

(** One after another; the property objects [h] can be any at each time.  In between, classes may be refused. *)
Inductive program : list klass -> Prop :=
| only_object attrs : dict attrs -> program [Klass 0 [0] None attrs]
| record_class w h bases attrs pk k : program w -> incl bases w -> dict attrs ->
    new_record w h bases attrs pk = Some k -> program (k :: w)
| plain_class w bases attrs k : program w -> incl bases w -> dict attrs ->
    new_plain w bases attrs = Some k -> program (k :: w).

(** Property objects only in record classes *)
Definition only_in_records (w : list klass) : Prop :=
  forall k n p, In k w -> k_props k = None -> ~ In (n, AProp p) (k_attrs k).

(** [properties] of the class has [p] under the name [n]. *)
Definition property_of (k : klass) (n : str) (p : nat) : Prop :=
  exists ps, k_props k = Some ps /\ In (n, p) ps.

(** Names are used for properties or for other things, throughout the program. *)
Inductive tidy (for_properties : str -> Prop) : list klass -> Prop :=
| tidy_object attrs : dict attrs -> (forall n v, In (n, v) attrs -> ~ for_properties n /\ forall p, v <> AProp p) ->
    tidy for_properties [Klass 0 [0] None attrs]
| tidy_record w h bases attrs pk k : tidy for_properties w -> incl bases w -> dict attrs ->
    new_record w h bases attrs pk = Some k ->
    (forall n v, In (n, v) attrs -> for_properties n <-> exists p, v = AProp p) ->
    (forall n p e, In (n, AProp p) attrs -> po_class (h p) = None -> accessor (h p) n e -> ~ for_properties e) ->
    (forall n m p, In (n, AProp p) attrs -> In (m, AProp p) attrs -> po_class (h p) = None -> n = m) ->
    ~ for_properties [] -> (forall n, In n specials -> ~ for_properties n) -> tidy for_properties (k :: w)
| tidy_plain w bases attrs k : tidy for_properties w -> incl bases w -> dict attrs ->
    new_plain w bases attrs = Some k ->
    (forall n v, In (n, v) attrs -> ~ for_properties n /\ forall p, v <> AProp p) -> tidy for_properties (k :: w).
