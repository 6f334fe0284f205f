(** What one would say of collections without thinking of lists: each has contents of its own. *)
From Coq Require Import List Arith Bool.
From Verif Require Import Prelude OwnModel.
Import ListNotations.

Section Spec.
Context {V : Type}.
Variable fits : V -> bool.
Variable coerce : V -> option V.

Definition coerced (x y : V) : Prop := (fits x = true /\ y = x) \/ (fits x = false /\ coerce x = Some y).
Definition all_coerced (l m : list V) : Prop := Forall2 coerced l m.
(** The object a method is called on, or the list the program changes *)
Definition target (x : op V) : option nat :=
  match x with
  | Change o _ | Append o _ | Extend o _ | Assign o _ _ _ | Delete o _ _ | Reverse o => Some o
  | _ => None
  end.
(** copy.copy of a collection whose class was declared *)
Definition shallow (s : store V) (x : op V) : Prop := exists o r, x = Copied o /\ nth_error (objs s) o = Some (Declared, r).

(** The items of the source *)
Inductive gives (s : store V) : source V -> list V -> Prop :=
| g_items l : gives s (Items l) l
| g_object o l : contents s o = Some l -> gives s (Object o) l.
(** The new contents of the object called upon, whose contents are [l] *)
Inductive alters (s : store V) : op V -> list V -> list V -> Prop :=
| a_change o l m : alters s (Change o m) l m
| a_append o v w l : coerced v w -> alters s (Append o v) l (l ++ [w])
| a_extend o x l m m' : gives s x m -> all_coerced m m' -> alters s (Extend o x) l (l ++ m')
| a_assign o lo hi x l a b c m m' : gives s x m -> all_coerced m m' -> l = a ++ b ++ c ->
    length a = Nat.min lo (length l) -> length (a ++ b) = Nat.min (Nat.max lo hi) (length l) -> alters s (Assign o lo hi x) l (a ++ m' ++ c)
| a_delete o lo hi l a b c : l = a ++ b ++ c ->
    length a = Nat.min lo (length l) -> length (a ++ b) = Nat.min (Nat.max lo hi) (length l) -> alters s (Delete o lo hi) l (a ++ c)
| a_reverse o l : alters s (Reverse o) l (rev l).
(** The contents of the object made *)
Inductive makes (s : store V) : op V -> list V -> Prop :=
| m_lst l : makes s (Lst l) l
| m_make k x l m : gives s x l -> all_coerced l m -> makes s (Make k x) m
| m_plus o x l m m' n : contents s o = Some l -> gives s x m -> (all_coerced m m' \/ m' = m) -> all_coerced (l ++ m') n -> makes s (Plus o x) n
| m_slice o lo hi l a b c : contents s o = Some l -> l = a ++ b ++ c -> length a = Nat.min lo (length l) ->
    length (a ++ b) = Nat.min (Nat.max lo hi) (length l) -> makes s (Slice o lo hi) b
| m_pickled o l m : contents s o = Some l -> (all_coerced l m \/ m = l) -> makes s (Pickled o) m
| m_copied o l m : contents s o = Some l -> (all_coerced l m \/ m = l) -> makes s (Copied o) m.

(** What programs without such copies lead to *)
Inductive reachable : store V -> Prop :=
| r_start : reachable (Store [] [])
| r_step n s x s' out : reachable s -> ~ shallow s x -> step fits coerce n s x = (s', out) -> reachable s'.
End Spec.
