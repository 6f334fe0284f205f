(** List collections as Python objects which have a list [_values]: which operations of normalize/coll.py give it away, and
    what happens if the argument of an operation is the collection itself.  ListModel (C22) has contents only.
    Collection.__init__ (coll.py:101-102), ListCollection (304-427: tuples_to_coll, coll_to_tuples, append, extend, insert, reverse,
    __setitem__, __add__), KeyedCollection.__getitem__ and __delitem__ (193-200), _Generic.__reduce__ (470-472), Record.__getstate__
    and __setstate__ (normalize/record/__init__.py:75-83) as used by copy and pickle.
    Simplifications: all collections have one item type; items are not changed and compared by nobody; slices have step 1 and bounds
    counted from the beginning; nobody but these methods touches [_values]. *)
From Coq Require Import List Arith Bool.
From Verif Require Import Prelude.
Import ListNotations.

Section Own.
Context {V : Type}.
Variable fits : V -> bool.              (* isinstance(v, itemtype) *)
Variable coerce : V -> option V.        (* coerceitem; None: it raises *)

(** Declared: a class statement; Generic: list_of; Plain: a Python list of the program *)
Inductive kind := Declared | Generic | Plain.
(** Objects with a reference to their list; the contents of the lists *)
Record store := Store { objs : list (kind * nat); lists : list (list V) }.
Definition contents (s : store) (o : nat) : option (list V) :=
  match nth_error (objs s) o with Some (_, r) => nth_error (lists s) r | None => None end.

(** coerce_value, 134-149 *)
Definition coerce_value (v : V) : option V := if fits v then Some v else coerce v.
Fixpoint coerce_all (l : list V) : option (list V) :=
  match l with
  | [] => Some []
  | v :: l => match coerce_value v, coerce_all l with Some w, Some m => Some (w :: m) | _, _ => None end
  end.
Fixpoint set_nth {X} (r : nat) (x : X) (l : list X) : list X :=
  match l, r with
  | [], _ => []
  | _ :: t, 0 => x :: t
  | y :: t, S r => y :: set_nth r x t
  end.

(** Something to iterate over: items, or an object *)
Inductive source := Items (l : list V) | Object (o : nat).
Inductive op :=
| Lst (l : list V)                           (* a Python list *)
| Change (o : nat) (l : list V)              (* the program changes its own Python list, to [l] *)
| Make (k : kind) (x : source)               (* cls(x) *)
| Append (o : nat) (v : V)
| Extend (o : nat) (x : source)
| Assign (o lo hi : nat) (x : source)        (* o[lo:hi] = x; o.insert(lo, x) is o[lo:lo] = x *)
| Delete (o lo hi : nat)                     (* del o[lo:hi] *)
| Reverse (o : nat)
| Plus (o : nat) (x : source)                (* o + x, x a list or a collection *)
| Slice (o lo hi : nat)                      (* o[lo:hi] *)
| Pickled (o : nat)                          (* pickle.loads(pickle.dumps(o)), copy.deepcopy(o) *)
| Copied (o : nat).                          (* copy.copy(o) *)
(** Made: a new object; Endless: not done within the number of steps given; Nonsense: no such object, or not that kind *)
Inductive outcome := Done | Made (o : nat) | Raises | Endless | Nonsense.

Definition new (s : store) (k : kind) (l : list V) : store * outcome :=
  (Store (objs s ++ [(k, length (lists s))]) (lists s ++ [l]), Made (length (objs s))).
Definition construct (s : store) (k : kind) (l : list V) : store * outcome :=
  match coerce_all l with Some l => new s k l | None => (s, Raises) end.
Definition store_list (s : store) (r : nat) (l : list V) : store := Store (objs s) (set_nth r l (lists s)).
Definition items (s : store) (x : source) : option (list V) :=
  match x with Items l => Some l | Object o => contents s o end.

(** Line 351, [self._values.extend(self.coerce_value(item) for item in iterable)]: the list takes what the generator gives,
    one by one, and the generator takes the next item of its source (list [q], from position [p]) when it is asked.  What was
    taken before an exception stays. *)
Fixpoint extend_from (n : nat) (s : store) (r q p : nat) : store * outcome :=
  match n with
  | 0 => (s, Endless)
  | S n =>
      match nth_error (nth q (lists s) []) p with
      | None => (s, Done)
      | Some v =>
          match coerce_value v with
          | Some w => extend_from n (store_list s r (nth r (lists s) [] ++ [w])) r q (S p)
          | None => (s, Raises)
          end
      end
  end.
Fixpoint extend_items (s : store) (r : nat) (l : list V) : store * outcome :=
  match l with
  | [] => (s, Done)
  | v :: l =>
      match coerce_value v with
      | Some w => extend_items (store_list s r (nth r (lists s) [] ++ [w])) r l
      | None => (s, Raises)
      end
  end.
(** A collection of the program *)
Definition with_coll (s : store) (o : nat) (f : kind -> nat -> list V -> store * outcome) : store * outcome :=
  match nth_error (objs s) o with
  | Some (Plain, _) | None => (s, Nonsense)
  | Some (k, r) => match nth_error (lists s) r with Some l => f k r l | None => (s, Nonsense) end
  end.
Definition with_items (s : store) (x : source) (f : list V -> store * outcome) : store * outcome :=
  match items s x with Some l => f l | None => (s, Nonsense) end.
Definition replace (lo hi : nat) (m l : list V) : list V := firstn lo l ++ m ++ skipn (Nat.max lo hi) l.

Definition step (n : nat) (s : store) (x : op) : store * outcome :=
  match x with
  | Lst l => new s Plain l
  | Change o l =>
      match nth_error (objs s) o with
      | Some (Plain, r) => (store_list s r l, Done)
      | _ => (s, Nonsense)
      end
  | Make Plain _ => (s, Nonsense)
  | Make k src => with_items s src (construct s k)                                       (* 101, 304-307, 318-338 *)
  | Append o v => with_coll s o (fun _ r l =>                                            (* 345 *)
      match coerce_value v with Some w => (store_list s r (l ++ [w]), Done) | None => (s, Raises) end)
  | Extend o src => with_coll s o (fun _ r _ =>
      match src with
      | Items l => extend_items s r l
      | Object p => match nth_error (objs s) p with Some (_, q) => extend_from n s r q 0 | None => (s, Nonsense) end
      end)
  (** list slice assignment makes a list of the generator before it begins (400) *)
  | Assign o lo hi src => with_coll s o (fun _ r l => with_items s src (fun m =>
      match coerce_all m with Some m => (store_list s r (replace lo hi m l), Done) | None => (s, Raises) end))
  | Delete o lo hi => with_coll s o (fun _ r l => (store_list s r (replace lo hi [] l), Done))   (* 199-200 *)
  | Reverse o => with_coll s o (fun _ r l => (store_list s r (rev l), Done))                     (* 393 *)
  (** 423-427: a list is made a collection first *)
  | Plus o src => with_coll s o (fun k _ l => with_items s src (fun m =>
      let coll := match src with Items _ => false | Object p => match nth_error (objs s) p with Some (Plain, _) => false | _ => true end end in
      match (if coll then Some m else coerce_all m) with Some m => construct s k (l ++ m) | None => (s, Raises) end))
  | Slice o lo hi => with_coll s o (fun _ _ l => new s Plain (firstn (hi - lo) (skipn lo l)))    (* 193-194 *)
  (** record/__init__.py:75-83, with a copy of the list; or coll.py:470-472, the constructor *)
  | Pickled o =>
      match nth_error (objs s) o, contents s o with
      | Some (Generic, _), Some l => construct s Generic l
      | Some (k, _), Some l => new s k l
      | _, _ => (s, Nonsense)
      end
  (** the same with the list itself *)
  | Copied o =>
      match nth_error (objs s) o, contents s o with
      | Some (Generic, _), Some l => construct s Generic l
      | Some (Plain, _), Some l => new s Plain l
      | Some (Declared, r), Some _ => (Store (objs s ++ [(Declared, r)]) (lists s), Made (length (objs s)))
      | _, _ => (s, Nonsense)
      end
  end.
Fixpoint run (n : nat) (s : store) (prog : list op) : store * list outcome :=
  match prog with
  | [] => (s, [])
  | x :: prog => let (s1, r) := step n s x in let (s2, rs) := run n s1 prog in (s2, r :: rs)
  end.
End Own.
Arguments store : clear implicits.
Arguments op : clear implicits.
Arguments source : clear implicits.
