(** Paths and cycles in graphs of objects. *)
From Coq Require Import List Arith Bool.
From Verif Require Import Prelude CycleModel.
Import ListNotations.

Section Paths.
Variable R : nat -> nat -> Prop.
(** From [x] by way of the objects [l] (the first is [x]) to [y] *)
Inductive by_way : nat -> list nat -> nat -> Prop :=
| here x : by_way x [] x
| step x z l y : R x z -> by_way z l y -> by_way x (x :: l) y.
(** There is a path of [n] steps from [x]. *)
Definition deep (n : nat) (x : nat) : Prop := exists l y, by_way x l y /\ length l = n.
Definition reaches (x y : nat) : Prop := exists l, by_way x l y.
(** [x] leads to an object that leads to itself. *)
Definition cyclic (x : nat) : Prop := exists y l, reaches x y /\ l <> [] /\ by_way y l y.
(** The same, through objects with [P] only *)
Definition cyclic_through (P : nat -> Prop) (x : nat) : Prop :=
  exists y l, reaches x y /\ l <> [] /\ by_way y l y /\ forall z, In z l -> P z.
End Paths.

Section Graphs.
Context {A : Type}.
Variable classes : nat -> cls.
Variable heap : list (node A).

(** [x] refers to [y] by an item, or by a property with [P]. *)
Inductive refers (P : cls -> prop -> Prop) (x y : nat) : Prop :=
| by_slot c slots p : nth_error heap x = Some (Rec c slots) -> In p (c_props (classes c)) -> P (classes c) p ->
    slot slots (p_name p) = Some (VR y) -> refers P x y
| by_item c items : nth_error heap x = Some (Lst c items) -> In (VR y) items -> refers P x y
| by_key c items k : nth_error heap x = Some (Dct c items) -> In (k, VR y) items -> refers P x y.

Definition any_prop (c : cls) (p : prop) : Prop := True.
Definition json_prop (extraneous : bool) (c : cls) (p : prop) : Prop := (extraneous = true \/ p_extraneous p = false) /\ p_json p = true.
Definition key_prop (c : cls) (p : prop) : Prop :=
  (c_key c = [] /\ p_extraneous p = false) \/ (c_key c <> [] /\ In (p_name p) (c_key c)).
Definition compared_prop (c : cls) (p : prop) : Prop := p_extraneous p = false.

Definition no_dict (x : nat) : Prop := forall c items, nth_error heap x <> Some (Dct c items).

(** Keys of a dict are different. *)
Definition dicts_ok : Prop := forall x c items, nth_error heap x = Some (Dct c items) -> NoDup (map fst items).

(** Corresponding objects are different objects with corresponding parts (a copy, say). *)
Section Twins.
Variable atom_eq : A -> A -> bool.
Variable T : nat -> nat -> Prop.
Inductive vtwin : val A -> val A -> Prop :=
| tw_atom a b : atom_eq a b = true -> vtwin (VA a) (VA b)
| tw_ref x y : T x y -> vtwin (VR x) (VR y).
Inductive otwin : option (val A) -> option (val A) -> Prop :=
| tw_none : otwin None None
| tw_some v w : vtwin v w -> otwin (Some v) (Some w).
Inductive twin_nodes : node A -> node A -> Prop :=
| tw_rec c s t : (forall k, otwin (slot s k) (slot t k)) -> twin_nodes (Rec c s) (Rec c t)
| tw_lst c l m : Forall2 vtwin l m -> twin_nodes (Lst c l) (Lst c m)
| tw_dct c l m : length l = length m -> (forall k, otwin (slot l k) (slot m k)) -> twin_nodes (Dct c l) (Dct c m).
Definition twins : Prop := forall x y, T x y ->
  x <> y /\ exists a b, nth_error heap x = Some a /\ nth_error heap y = Some b /\ twin_nodes a b.
End Twins.
End Graphs.
