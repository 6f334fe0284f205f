(** What an object leads to, and where a class takes values from a document as they are. *)
From Coq Require Import String List Arith Bool.
From Verif Require Import Prelude AliasModel.
Import ListNotations.

Section Spec.
Context {A C : Type}.
Notation val := (val A).
Notation heap := (heap A C).

(** the values in an object *)
Definition inside (x : cell A C) : list val :=
  match x with
  | DList l | OList _ l => l
  | DDict l | ORec _ l | ODict _ l => map snd l
  end.
(** [leads h v j]: from the value [v] one gets to the object [j] *)
Inductive leads (h : heap) : val -> nat -> Prop :=
| leads_here j : leads h (Ref j) j
| leads_in i x w j : nth_error h i = Some x -> In w (inside x) -> leads h w j -> leads h (Ref i) j.

(** every reference is to an object *)
Definition sound (h : heap) : Prop := forall i x j, nth_error h i = Some x -> In (Ref j) (inside x) -> j < length h.
Definition sound_val (h : heap) (v : val) : Prop := forall j, v = Ref j -> j < length h.

Variable W : C -> kind C.
Variable isinst : C -> C -> bool.
(** an object which is an instance of [d] already *)
Definition is_a (h : heap) (x : val) (d : C) : Prop :=
  exists i c, x = Ref i /\ isinst c d = true /\ ((exists l, nth_error h i = Some (ORec c l)) \/ (exists l, nth_error h i = Some (OList c l)) \/ (exists l, nth_error h i = Some (ODict c l))).
(** [verbatim h c v x]: in the document [v], as seen by the class [c], [x] is the value of a property without a record type, an item of a
    collection without a record type, or an item which is a record of the right type already *)
Inductive verbatim (h : heap) : C -> val -> val -> Prop :=
| v_untyped c i ps l p k x : W c = KRec ps -> nth_error h i = Some (DDict l) -> In p ps -> p_json p = Some k -> p_type p = None -> get k l = Some x ->
    verbatim h c (Ref i) x
| v_typed c i ps l p k x d y : W c = KRec ps -> nth_error h i = Some (DDict l) -> In p ps -> p_json p = Some k -> p_type p = Some d -> get k l = Some x ->
    verbatim h d x y -> verbatim h c (Ref i) y
| v_items c i x y k : W c = k -> nth_error h i = Some y -> (k = KList None /\ (exists l, y = DList l)) \/ (k = KDict None /\ (exists l, y = DDict l)) ->
    In x (inside y) -> verbatim h c (Ref i) x
| v_done c i x y d k : W c = k -> nth_error h i = Some y -> (k = KList (Some d) /\ (exists l, y = DList l)) \/ (k = KDict (Some d) /\ (exists l, y = DDict l)) ->
    In x (inside y) -> is_a h x d -> verbatim h c (Ref i) x
| v_item c i x y z d k : W c = k -> nth_error h i = Some y -> (k = KList (Some d) /\ (exists l, y = DList l)) \/ (k = KDict (Some d) /\ (exists l, y = DDict l)) ->
    In x (inside y) -> ~ is_a h x d -> verbatim h d x z -> verbatim h c (Ref i) z.

(** nothing is taken as it is, wherever one looks: every property and every item has a record type *)
Definition typed_class (good : C -> Prop) (c : C) : Prop :=
  match W c with
  | KRec ps => forall p, In p ps -> p_json p <> None -> exists d, p_type p = Some d /\ good d
  | KList it | KDict it => exists d, it = Some d /\ good d
  end.
End Spec.
