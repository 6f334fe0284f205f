(** Records with lazy properties being looked at: normalize/property/__init__.py:280-287, 358-369,
    390-397, 424-431 ([__get__]), record/__init__.py:118-133 ([__eq__]), identity.py:22-112,
    visitor.py:642-675.

    Objects refer to each other, so the state holds all of them.  The value of a slot is an atom or
    another record (collections are not represented).  A lazy default is a program that reads slots of
    any objects it can reach, and computes; it changes nothing else, and gives the same for the same
    values. *)
From Coq Require Import List Bool Arith.
From Verif Require Import Prelude.
Import ListNotations.
Local Open Scope list_scope.

Inductive value := Atom (a : nat) | Ref (o : nat).

(** Code that reads properties of objects and depends on nothing else: the default of a lazy
    property, or anything that looks at records.  After a read it goes on with the value, or the
    exception that was raised. *)
Inductive prog (A : Type) : Type :=
| Return (a : A)
| Throw (e : exn)
| Read (o : nat) (name : str) (go_on : res value -> prog A).
Arguments Return {A}. Arguments Throw {A}. Arguments Read {A}.

(** The instance dicts of all objects. *)
Definition state := nat -> str -> option value.
Definition store (s : state) (o : nat) (n : str) (v : value) : state :=
  fun o' n' => if Nat.eqb o' o && str_eqb n' n then Some v else s o' n'.

Section Look.
(** The class of each object; for the lazy properties of a class their default method (a constant
    or a function without arguments is one that ignores the object; property/__init__.py:248-257) and
    [type_safe_value] (202-245). *)
Variable class_of : nat -> nat.
Variable lazy : nat -> str -> option (nat -> prog value).
Variable convert : nat -> str -> value -> res value.

(** Running code, given how properties are read. *)
Fixpoint run {A} (get : state -> nat -> str -> option (res value * state)) (p : prog A) (s : state)
  : option (res A * state) :=
  match p with
  | Return a => Some (Ok a, s)
  | Throw e => Some (Err e, s)
  | Read o n k =>
      match get s o n with
      | Some (r, s1) => run get (k r) s1
      | None => None
      end
  end.

(** [__get__] of all kinds of properties: the value in the instance dict; else AttributeError
    (property/__init__.py:280-287), or for lazy ones the default, which is stored (358-369).  [None]:
    the defaults need each other more than [fuel] deep (RecursionError, if ever so much). *)
Fixpoint get (fuel : nat) (s : state) (o : nat) (n : str) : option (res value * state) :=
  match fuel with
  | 0 => None
  | S f =>
      match s o n with
      | Some v => Some (Ok v, s)
      | None =>
          match lazy (class_of o) n with
          | None => Some (Err AttrErr, s)
          | Some d =>
              match run (get f) (d o) s with
              | None => None
              | Some (Err e, s1) => Some (Err e, s1)
              | Some (Ok v, s1) =>
                  match convert (class_of o) n v with
                  | Err e => Some (Err e, s1)
                  | Ok v' => Some (Ok v', store s1 o n v')
                  end
              end
          end
      end
  end.

(** Looking at objects. *)
Definition look {A} (fuel : nat) (p : prog A) (s : state) : option (res A * state) := run (get fuel) p s.

(** ** What the library does to look at records *)
(** The properties of a class, in the order of the dict [properties] (with whether they are
    extraneous), and the names of the primary key, or of [_sorted_properties] if there is none. *)
Variable props : nat -> list (str * bool).
Variable key : nat -> list str.

(** [getattr(obj, name, default)] *)
Definition read_or {A} (o : nat) (n : str) (go_on : option value -> prog A) : prog A :=
  Read o n (fun r => match r with
                     | Ok v => go_on (Some v)
                     | Err e => if is_attr_err e then go_on None else Throw e
                     end).

(** [Record.__eq__] (record/__init__.py:118-133); [depth]: how deep records are nested (RecursionError
    beyond). *)
Section Each.
Variable eq : nat -> nat -> (bool -> prog bool) -> prog bool.
Fixpoint eq_props (ns : list (str * bool)) (a b : nat) (go_on : bool -> prog bool) : prog bool :=
  match ns with
  | [] => go_on true
  | (n, extraneous) :: ns =>
      if extraneous then eq_props ns a b go_on
      else
        read_or a n (fun x =>
        read_or b n (fun y =>
          match x, y with
          | None, None => eq_props ns a b go_on
          | Some (Atom i), Some (Atom j) => if Nat.eqb i j then eq_props ns a b go_on else go_on false
          | Some (Ref i), Some (Ref j) =>
              eq i j (fun r => if r then eq_props ns a b go_on else go_on false)
          | _, _ => go_on false
          end))
  end.
End Each.
Fixpoint eq_prog (depth : nat) (a b : nat) (go_on : bool -> prog bool) : prog bool :=
  match depth with
  | 0 => Throw RecursionErr
  | S d =>
      if Nat.eqb (class_of a) (class_of b)
      then eq_props (eq_prog d) (props (class_of a)) a b go_on
      else go_on false
  end.
Definition record_eq (depth a b : nat) : prog bool := eq_prog depth a b (fun r => Return r).

(** [record_id] (identity.py:72-112) for records, of which [__hash__] and [__pk__] are made: the values
    of the key, nested records by their own keys (their properties are declared with the class of
    records they hold, which has properties). *)
Inductive ident := IdNone | IdAtom (a : nat) | IdTuple (l : list ident).
Section EachKey.
Variable id : nat -> (ident -> prog ident) -> prog ident.
Fixpoint id_props (ns : list str) (o : nat) (acc : list ident) (go_on : ident -> prog ident) : prog ident :=
  match ns with
  | [] => go_on (IdTuple (rev acc))
  | n :: ns =>
      read_or o n (fun x =>
        match x with
        | None => id_props ns o (IdNone :: acc) go_on
        | Some (Atom i) => id_props ns o (IdAtom i :: acc) go_on
        | Some (Ref i) => id i (fun r => id_props ns o (r :: acc) go_on)
        end)
  end.
End EachKey.
Fixpoint id_prog (depth : nat) (o : nat) (go_on : ident -> prog ident) : prog ident :=
  match depth with
  | 0 => Throw RecursionErr
  | S d => id_props (id_prog d) (key (class_of o)) o [] go_on
  end.
Definition record_id (depth o : nat) : prog ident := id_prog depth o (fun r => Return r).

(** [VisitorPattern.visit] (visitor.py:642-675, default hooks), as JSON output does: the slots that
    are not empty, by name. *)
Inductive tree := Leaf (a : nat) | Tree (l : list (str * tree)).
Section EachSlot.
Variable visit : nat -> (tree -> prog tree) -> prog tree.
Fixpoint visit_props (ns : list (str * bool)) (o : nat) (acc : list (str * tree)) (go_on : tree -> prog tree)
  : prog tree :=
  match ns with
  | [] => go_on (Tree (rev acc))
  | (n, extraneous) :: ns =>
      if extraneous then visit_props ns o acc go_on
      else
        read_or o n (fun x =>
          match x with
          | None => visit_props ns o acc go_on
          | Some (Atom i) => visit_props ns o ((n, Leaf i) :: acc) go_on
          | Some (Ref i) => visit i (fun r => visit_props ns o ((n, r) :: acc) go_on)
          end)
  end.
End EachSlot.
Fixpoint visit_prog (depth : nat) (o : nat) (go_on : tree -> prog tree) : prog tree :=
  match depth with
  | 0 => Throw RecursionErr
  | S d => visit_props (visit_prog d) (props (class_of o)) o [] go_on
  end.
Definition output (depth o : nat) : prog tree := visit_prog depth o (fun r => Return r).

(** [Record.__repr__] (record/__init__.py:103-116) looks into the instance dict itself: the slots it
    shows, with their values. *)
Definition shown (s : state) (o : nat) : list (str * value) :=
  flat_map (fun q => match s o (fst q) with Some v => [(fst q, v)] | None => [] end) (props (class_of o)).
End Look.
