(** What one would say of typed dicts without thinking of references: each has entries of its own. *)
From Coq Require Import List Arith Bool.
From Verif Require Import Prelude OwnModel OwnSpec MapOwnModel.
Import ListNotations.

Section Spec.
Context {K V : Type}.
Variable keqb : K -> K -> bool.
Variable fits : V -> bool.
Variable coerce : V -> option V.
Notation coerced := (coerced fits coerce).

(** The object a method is called on, or the dict the program changes *)
Definition mtarget (x : mop K V) : option nat :=
  match x with
  | MChange o _ | Put o _ _ | Drop o _ | Clear o | Popitem o | Update o _ => Some o
  | _ => None
  end.
Definition mshallow (s : mstore K V) (x : mop K V) : Prop := exists o r, x = MCopied o /\ nth_error (mobjs s) o = Some (Declared, r).
(** Of the pairs with one key, the last counts. *)
Definition last_of (l : list (K * V)) (k : K) (v : V) : Prop := exists a b, l = a ++ (k, v) :: b /\ ~ In k (map fst b).
Definition typed (s : mstore K V) (o : nat) : Prop := exists k r, nth_error (mobjs s) o = Some (k, r) /\ k <> Plain.

(** A value which update cannot take *)
Definition refused (v : V) : Prop := (fits v = false /\ coerce v = None) \/ exists u, coerced v u /\ fits u = false /\ coerce u = None.

(** What update takes from its argument: the entries, be it a dict or a typed dict *)
Inductive mgives (s : mstore K V) : msource K V -> list (K * V) -> Prop :=
| mg_pairs l : mgives s (Pairs l) l
| mg_object o d : mcontents s o = Some d -> mgives s (MObject o) d.
(** The new entries of the object called upon, whose entries are [d] *)
Definition malters (s : mstore K V) (x : mop K V) (d d' : dict) : Prop :=
  match x with
  | MChange _ l => forall k v, In (k, v) d' <-> last_of l k v
  | Put _ k0 v0 => exists w, coerced v0 w /\ forall k v, In (k, v) d' <-> (k = k0 /\ v = w) \/ (k <> k0 /\ In (k, v) d)
  | Drop _ k0 => In k0 (map fst d) /\ forall k v, In (k, v) d' <-> k <> k0 /\ In (k, v) d
  | Clear _ => d' = []
  | Popitem _ => exists p, d = d' ++ [p]
  | Update _ src => exists l, mgives s src l /\
      forall k w, In (k, w) d' <-> (exists v u, last_of l k v /\ coerced v u /\ coerced u w) \/ (~ In k (map fst l) /\ In (k, w) d)
  | _ => False
  end.
(** The entries of the object made *)
Definition mmakes (s : mstore K V) (x : mop K V) (d : dict) : Prop :=
  match x with
  | Dct l => forall k v, In (k, v) d <-> last_of l k v
  | MMake _ src =>
      (exists p, src = MObject p /\ typed s p /\ d = []) \/
      (exists l, mgives s src l /\ (forall p, src = MObject p -> ~ typed s p) /\ forall k w, In (k, w) d <-> exists v, last_of l k v /\ coerced v w)
  | MPickled o | MCopied o => exists l, mcontents s o = Some l /\ (d = l \/ forall k w, In (k, w) d <-> exists v, In (k, v) l /\ coerced v w)
  | _ => False
  end.

(** What programs without copies of declared typed dicts lead to; and what any programs lead to *)
Inductive mreachable : mstore K V -> Prop :=
| mr_start : mreachable (MStore [] [])
| mr_step s x s' out : mreachable s -> ~ mshallow s x -> mstep keqb fits coerce s x = (s', out) -> mreachable s'.
Inductive mleads : mstore K V -> Prop :=
| ml_start : mleads (MStore [] [])
| ml_step s x s' out : mleads s -> mstep keqb fits coerce s x = (s', out) -> mleads s'.
End Spec.
