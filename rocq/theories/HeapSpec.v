(** Specification of paths through shared objects (C57). *)
From Coq Require Import List Arith NArith ZArith Bool.
From Verif Require Import Prelude SelPathModel FSModel PySeq HeapModel.
Import ListNotations.

(** A place within an object: an attribute, a position counted from the start, a key. *)
Inductive key := KAttr (n : str) | KPos (i : nat) | KKey (s : elem).

Section Spec.
Context {A C : Type}.
Notation val := (val A).
Notation cell := (cell A C).
Notation heap := (heap A C).
Variable a_str : A -> bool.
Variable a_indexable : A -> bool.
Variable a_item : A -> elem -> res A.
Variable a_attr : A -> str -> option A.
Variable unset : C -> str -> option A.

(** the first value under a key *)
Inductive binds {K : Type} : list (K * val) -> K -> val -> Prop :=
| b_here k v t : binds ((k, v) :: t) k v
| b_later k' v' t k v : k' <> k -> binds t k v -> binds ((k', v') :: t) k v.

(** [v] is at the place [k] of the object *)
Inductive at_place : cell -> key -> val -> Prop :=
| at_attr c sl n v : binds sl n v -> at_place (HRec c sl) (KAttr n) v
| at_pos c xs i v : nth_error xs i = Some v -> at_place (HList c xs) (KPos i) v
| at_key c kvs s v : binds kvs s v -> at_place (HDict c kvs) (KKey s) v.

(** the selector [s] means the place [k] of the object *)
Inductive means : cell -> elem -> key -> Prop :=
| m_attr c sl n : means (HRec c sl) (EStr n) (KAttr n)
| m_pos c xs i : (i < length xs)%nat -> means (HList c xs) (EInt (Z.of_nat i)) (KPos i)
| m_end c xs i : (i < length xs)%nat -> means (HList c xs) (EInt (Z.of_nat i - Z.of_nat (length xs))) (KPos i)
| m_key c kvs s : s <> ENone -> means (HDict c kvs) s (KKey s).

(** one step from an immutable value to a part of it *)
Inductive part : A -> elem -> A -> Prop :=
| p_item a s b : a_str a = false -> a_indexable a = true \/ (exists i, s = EInt i) -> s <> ENone ->
    a_item a s = Ok b -> part a s b
| p_attr a n b : a_str a = true \/ a_indexable a = false -> a_attr a n = Some b -> part a (EStr n) b.

(** The path [p] leads from [v] to [w], past the places [tr] of objects.  A class attribute is at the
    place of the attribute of that name, as setting the attribute hides it. *)
Inductive leads (h : heap) : val -> list elem -> list (nat * key) -> val -> Prop :=
| L_end v : leads h v [] [] v
| L_object n c s k w p tr u : nth_error h n = Some c -> means c s k -> at_place c k w ->
    leads h w p tr u -> leads h (VR n) (s :: p) ((n, k) :: tr) u
| L_class n c sl m a p tr u : nth_error h n = Some (HRec c sl) -> (forall x, ~ binds sl m x) ->
    unset c m = Some a -> leads h (VA a) p tr u ->
    leads h (VR n) (EStr m :: p) ((n, KAttr m) :: tr) u
| L_value a s b p tr u : part a s b -> leads h (VA b) p tr u -> leads h (VA a) (s :: p) tr u.

(** [c'] is [c] with [v] put at the place [k] *)
Definition same_sort (c c' : cell) : Prop :=
  match c, c' with
  | HRec a _, HRec b _ => a = b
  | HList a xs, HList b ys => a = b /\ length xs = length ys
  | HDict a _, HDict b _ => a = b
  | _, _ => False
  end.
Definition put_at (c : cell) (k : key) (v : val) (c' : cell) : Prop :=
  same_sort c c' /\ at_place c' k v /\ forall k' w, k' <> k -> (at_place c' k' w <-> at_place c k' w).
(** [c'] is [c] with the place [k] removed; the later items of a list move up *)
Definition removed (c : cell) (k : key) (c' : cell) : Prop :=
  match c, c' with
  | HRec a _, HRec b _ | HDict a _, HDict b _ =>
      a = b /\ (forall w, ~ at_place c' k w) /\ forall k' w, k' <> k -> (at_place c' k' w <-> at_place c k' w)
  | HList a xs, HList b ys => a = b /\ exists i, k = KPos i /\ (i < length xs)%nat /\
      ys = firstn i xs ++ skipn (S i) xs
  | _, _ => False
  end.

(** [h'] is [h] but for the object [n], which is now [c'], and new objects *)
Definition changed (h : heap) (n : nat) (c' : cell) (h' : heap) : Prop :=
  (length h <= length h')%nat /\ (n < length h)%nat /\ nth_error h' n = Some c' /\
  forall m, (m < length h)%nat -> m <> n -> nth_error h' m = nth_error h m.
(** nothing of [h] is changed *)
Definition kept (h h' : heap) : Prop := exists new, h' = h ++ new.
End Spec.
