(** Values for which an identity is computed in as many steps as there is to see. *)
From Coq Require Import List Arith NArith ZArith Bool.
From Verif Require Import Prelude SelPathModel FSModel PySeq MFSModel ValModel.
Import ListNotations.

Section Spec.
Context {A C : Type}.
Variable W : classes A C.
Notation val := (val A C).
Notation prop := (prop A C).

(** The number of objects in a value. *)
Fixpoint size (v : val) : nat :=
  match v with
  | VNothing | VNone | VText _ | VAtom _ => 1
  | VSeq _ l => S (list_sum (map size l))
  | VMap l => S (list_sum (map (fun kv => size (snd kv)) l))
  | VRec _ sl => S (list_sum (map (fun kv => size (snd kv)) sl))
  | VLC _ sl l => S (list_sum (map (fun kv => size (snd kv)) sl) + list_sum (map size l))
  | VDC _ sl l => S (list_sum (map (fun kv => size (snd kv)) sl) + list_sum (map (fun kv => size (snd kv)) l))
  end.

(** No records and no collections of the library in it. *)
Inductive simple : val -> Prop :=
| si_nothing : simple VNothing
| si_none : simple VNone
| si_text s : simple (VText s)
| si_atom a : simple (VAtom a)
| si_seq b l : (forall x, In x l -> simple x) -> simple (VSeq b l)
| si_map l : (forall k x, In (k, x) l -> simple x) -> simple (VMap l).

(** The properties by which a record of this class is identified. *)
Definition identifies (c : C) (p : prop) : Prop :=
  match pkey W c with [] => In p (props W c) /\ p_extraneous p = false | ps => In p ps end.
(** No two of them have the same name. *)
Definition distinct_names (c : C) : Prop :=
  NoDup (map p_name (match pkey W c with [] => props W c | ps => ps end)).

(** [d] is the only record class declared for the property, declared once. *)
Definition only_class (p : prop) (d : C) : Prop :=
  exists l m, p_valuetype p = Some (l ++ Some d :: m) /\ forall x, In x (l ++ m) -> x = None.
Definition no_class (p : prop) : Prop := forall vts d, p_valuetype p = Some vts -> ~ In (Some d) vts.

(** What is declared for properties and items: at most one class of records, and where none is declared, there are
    no records.  Classes have at least one property which counts. *)
Inductive plainly : C -> val -> Prop :=
| pl_record c v : kind W c = KRec \/ pkey W c <> [] -> (exists p, identifies c p) -> distinct_names c ->
    (forall p u, identifies c p -> slot v (p_name p) = Some u -> u <> VNone ->
       no_class p /\ simple u \/ exists d, only_class p d /\ plainly d u) ->
    plainly c v
| pl_items c v l d : kind W c = KList \/ kind W c = KDict -> pkey W c = [] -> item W c = IRec d -> tuples v = Some l ->
    (forall k x, In (k, x) l -> plainly d x) ->
    plainly c v
| pl_simple_items c v l : kind W c = KList \/ kind W c = KDict -> pkey W c = [] -> (forall d, item W c <> IRec d) -> tuples v = Some l ->
    (forall k x, In (k, x) l -> simple x) ->
    plainly c v.
End Spec.
