(** Field selectors as values: construction, comparison, algebra.
    Models normalize/selector.py:54-111, 361-481. *)
From Coq Require Import List Arith NArith ZArith Bool Lia.
From Verif Require Import Prelude SelPathModel.
Import ListNotations.

(** ** Construction (selector.py:54-83) *)

(** What an iterable given to the constructor may contain: a proper element, or some
    other object of which only the truth value matters (selector.py:70-79). *)
Inductive raw : Type :=
| Good (e : elem)
| Bad (truthy : bool).

Definition raw_bad_true (r : raw) : bool :=
  match r with Bad b => b | Good _ => false end.

(** [if any(e for e in expr_selectors if not (isinstance ...))] tests the *truth value*
    of the offending elements — selector.py:70-81. *)
Definition fs_init (expr : list raw) : res (list raw) :=
  if existsb raw_bad_true expr then Err ValueErr else Ok expr.

(** ** Comparison *)

(** [self.selectors == other.selectors] — selector.py:361-368 *)
Fixpoint fs_eqb (a b : list elem) : bool :=
  match a, b with
  | [], [] => true
  | x :: a', y :: b' => elem_eqb x y && fs_eqb a' b'
  | _, _ => false
  end.

(** [str < str]: by code points *)
Fixpoint str_ltb (a b : str) : bool :=
  match a, b with
  | _, [] => false
  | [], _ :: _ => true
  | x :: a', y :: b' => if N.eqb x y then str_ltb a' b' else N.ltb x y
  end.

(** The loop body of [__lt__] once the elements differ — selector.py:391-402.
    [None < None] cannot be reached because equal elements [continue]. *)
Definition elem_lt (x y : elem) : res bool :=
  match x, y with
  | EStr s, EStr t => Ok (str_ltb s t)
  | EInt i, EInt j => Ok (Z.ltb i j)
  | _, _ => Err TypeErr
  end.

(** [FieldSelector.__lt__] — selector.py:381-406; the loop over the common length
    followed by the length comparison. *)
Fixpoint fs_lt (a b : list elem) : res bool :=
  match a, b with
  | x :: a', y :: b' => if elem_eqb x y then fs_lt a' b' else elem_lt x y
  | _, _ => Ok (Nat.ltb (length a) (length b))
  end.

(** [functools.total_ordering] derives these from [__lt__] and [__eq__]/[__ne__]
    (selector.py:41): [__gt__ = not lt and self != other], [__le__ = lt or self == other],
    [__ge__ = not lt]. *)
Definition fs_gt (a b : list elem) : res bool :=
  do l <- fs_lt a b; Ok (negb l && negb (fs_eqb a b)).
Definition fs_le (a b : list elem) : res bool :=
  do l <- fs_lt a b; Ok (l || fs_eqb a b).
Definition fs_ge (a b : list elem) : res bool :=
  do l <- fs_lt a b; Ok (negb l).

(** ** Algebra, with the aliasing that Python lists have *)

(** Each FieldSelector owns one list object; an object is represented by the index of
    its [selectors] list in the heap. *)
Definition heap := list (list elem).
Definition ref := nat.

Definition contents (h : heap) (r : ref) : list elem := nth r h [].

Definition alloc (h : heap) (l : list elem) : heap * ref := (h ++ [l], length h).

Definition write (h : heap) (r : ref) (l : list elem) : heap :=
  firstn r h ++ l :: skipn (S r) h.

(** [FieldSelector(fs)]: copies by slicing — selector.py:66-83 *)
Definition fs_copy (h : heap) (r : ref) : heap * ref := alloc h (contents h r).

(** [extend]: [self.selectors.extend(other.selectors)]; returns self — selector.py:106-112 *)
Definition fs_extend (h : heap) (r other : ref) : heap * ref :=
  (write h r (contents h r ++ contents h other), r).

(** [add_property], [add_index], [add_full_collection] — selector.py:85-104 *)
Definition fs_append (h : heap) (r : ref) (e : elem) : heap := write h r (contents h r ++ [e]).

(** What may stand on the right of [+] — selector.py:417-439.  A FieldSelector has no
    [__iter__], so it is not a [collections.abc.Iterable] and reaches the third branch. *)
Inductive addarg : Type :=
| AddElem (e : elem)            (* a str or an int; [None] goes to AddOther *)
| AddList (l : list elem)       (* any other iterable of valid elements *)
| AddFS (r : ref)
| AddOther.

Definition fs_add (h : heap) (a : ref) (arg : addarg) : res (heap * ref) :=
  match arg with
  | AddElem (EStr s) => Ok (alloc h (contents h a ++ [EStr s]))
  | AddElem (EInt i) => Ok (alloc h (contents h a ++ [EInt i]))
  | AddElem ENone => Err TypeErr
  | AddList l => Ok (alloc h (contents h a ++ l))
  | AddFS b => let (h1, r) := fs_copy h a in Ok (fs_extend h1 r b)
  | AddOther => Err TypeErr
  end.

(** Python slice bounds for a sequence of length [n], step 1 *)
Definition clamp (n : nat) (i : Z) : nat :=
  let z := if Z.ltb i 0 then Z.add i (Z.of_nat n) else i in
  if Z.ltb z 0 then O else Nat.min (Z.to_nat z) n.

Definition py_slice {A} (l : list A) (lo hi : option Z) : list A :=
  let n := length l in
  let a := match lo with Some i => clamp n i | None => O end in
  let b := match hi with Some i => clamp n i | None => n end in
  firstn (b - a) (skipn a l).

(** [fs[lo:hi]] — selector.py:445-457 *)
Definition fs_slice (h : heap) (r : ref) (lo hi : option Z) : heap * ref :=
  alloc h (py_slice (contents h r) lo hi).

(** [seq[i]] *)
Definition py_index {A} (l : list A) (i : Z) : res A :=
  let z := if Z.ltb i 0 then Z.add i (Z.of_nat (length l)) else i in
  if Z.ltb z 0 then Err IndexErr
  else match nth_error l (Z.to_nat z) with Some x => Ok x | None => Err IndexErr end.

(** [startswith] with a FieldSelector, list or tuple — selector.py:474-479: [all] stops at
    the first inequality; running off the end of [self.selectors] raises. *)
Fixpoint fs_startswith (key a : list elem) : res bool :=
  match key with
  | [] => Ok true
  | k :: key' =>
      match a with
      | [] => Err IndexErr
      | x :: a' => if elem_eqb k x then fs_startswith key' a' else Ok false
      end
  end.

(** [startswith] with a bare key — selector.py:480-481 *)
Definition fs_startswith_elem (k : elem) (a : list elem) : res bool :=
  match a with [] => Err IndexErr | x :: _ => Ok (elem_eqb x k) end.
