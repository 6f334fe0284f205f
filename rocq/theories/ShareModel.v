(** Field selectors as Python objects which have lists: normalize/selector.py:54-118, 361-379, 413-457, and what
    Python's copy and pickle do with them.  [FSModel] takes it for granted that each selector has a list for itself; here an
    object has a reference to its list.
    Simplifications: nobody but these methods touches the attribute [selectors]; the truth value of an element does not
    change; slices have step 1; exceptions do not end a program. *)
From Coq Require Import List Arith NArith ZArith Bool.
From Verif Require Import Prelude SelPathModel FSModel.
Import ListNotations.

(** Objects are numbered as they come into being.  [s_attr]: which list is the attribute [selectors] of each object;
    [s_lists]: the contents of the lists. *)
Record store := Store { s_attr : list nat; s_lists : list (list raw) }.
Definition empty_store : store := Store [] [].
Definition ref_of (s : store) (o : nat) : option nat := nth_error (s_attr s) o.
Definition list_of (s : store) (o : nat) : option (list raw) :=
  match ref_of s o with Some r => nth_error (s_lists s) r | None => None end.

(** A new object with a new list. *)
Definition make (s : store) (l : list raw) : store * res (option nat) :=
  (Store (s_attr s ++ [length (s_lists s)]) (s_lists s ++ [l]), Ok (Some (length (s_attr s)))).
(** [cls(l)] for a list or other iterable (selector.py:64-83): [list(expr)] and [[:]] make new lists. *)
Definition construct (s : store) (l : list raw) : store * res (option nat) :=
  match fs_init l with Ok l => make s l | Err e => (s, Err e) end.

Fixpoint set_nth (r : nat) (l : list raw) (ls : list (list raw)) : list (list raw) :=
  match ls, r with
  | [], _ => []
  | _ :: t, 0 => l :: t
  | x :: t, S r => x :: set_nth r l t
  end.
(** [o.selectors.extend(l)], in place *)
Definition grow (s : store) (o : nat) (l : list raw) : store * res (option nat) :=
  match ref_of s o with
  | Some r => (Store (s_attr s) (set_nth r (nth r (s_lists s) [] ++ l) (s_lists s)), Ok None)
  | None => (s, Err (OtherErr 0))
  end.

(** The right hand side of [+] (selector.py:429-439): str or int; another iterable; a FieldSelector; anything else *)
Inductive summand := One (e : elem) | Many (l : list raw) | Sel (o : nat) | Alien.

Inductive op :=
| New (l : list raw)                        (* FieldSelector(l) *)
| From (o : nat)                            (* FieldSelector(o) *)
| AddProperty (o : nat) (x : raw)
| AddIndex (o : nat) (x : raw)
| AddFull (o : nat)
| Extend (o p : nat)
| Plus (o : nat) (x : summand)
| Slice (o : nat) (lo hi : option Z)
| Pickled (o : nat)                         (* pickle.loads(pickle.dumps(o)), copy.deepcopy(o) *)
| Copied (o : nat).                         (* copy.copy(o) *)

(** OtherErr 0: there is no such object, the program is ill-formed. *)
Definition with_list (s : store) (o : nat) (k : list raw -> store * res (option nat)) : store * res (option nat) :=
  match list_of s o with Some l => k l | None => (s, Err (OtherErr 0)) end.

Definition step (s : store) (x : op) : store * res (option nat) :=
  match x with
  | New l => construct s l
  | From o => with_list s o (construct s)                                 (* 66-83 *)
  | AddProperty o v =>                                                    (* 85-92 *)
      match v with Good (EStr _) => grow s o [v] | _ => (s, Err ValueErr) end
  | AddIndex o v =>                                                       (* 94-99 *)
      match v with Good (EInt _) => grow s o [v] | _ => (s, Err ValueErr) end
  | AddFull o => grow s o [Good ENone]                                    (* 101-104 *)
  | Extend o p => with_list s p (fun l => grow s o l)                     (* 106-112 *)
  | Plus o a =>                                                           (* 417-439 *)
      with_list s o (fun l =>
        match a with
        | One ENone | Alien => (s, Err TypeErr)
        | One e => construct s (l ++ [Good e])
        | Many m => construct s (l ++ m)
        | Sel p =>
            with_list s p (fun _ =>
              match construct s l with
              | (s1, Ok (Some n)) =>
                  match list_of s1 p with
                  | Some m => (fst (grow s1 n m), Ok (Some n))
                  | None => (s, Err (OtherErr 0))
                  end
              | r => r
              end)
        end)
  | Slice o lo hi => with_list s o (fun l => construct s (py_slice l lo hi))  (* 445-457 *)
  (** 114-118 and object.__reduce_ex__: the constructor is not called; the new object gets the attributes of the old one,
      with pickle and deepcopy copies of them, with copy.copy themselves. *)
  | Pickled o => with_list s o (make s)
  | Copied o =>
      match ref_of s o with
      | Some r => (Store (s_attr s ++ [r]) (s_lists s), Ok (Some (length (s_attr s))))
      | None => (s, Err (OtherErr 0))
      end
  end.

Fixpoint run (s : store) (prog : list op) : store * list (res (option nat)) :=
  match prog with
  | [] => (s, [])
  | x :: prog => let (s1, r) := step s x in let (s2, rs) := run s1 prog in (s2, r :: rs)
  end.

(** [o == x] (361-368) and [o != x] (373-379); [None]: [x] is not a FieldSelector.  Elements which are no
    proper ones are left to the parameter. *)
Section Equal.
Variable same_bad : raw -> raw -> bool.
Definition raw_eqb (a b : raw) : bool :=
  match a, b with Good x, Good y => elem_eqb x y | _, _ => same_bad a b end.
Fixpoint raws_eqb (a b : list raw) : bool :=
  match a, b with
  | [], [] => true
  | x :: a, y :: b => raw_eqb x y && raws_eqb a b
  | _, _ => false
  end.
Definition equal (s : store) (o : nat) (x : option nat) : res bool :=
  match list_of s o, x with
  | Some l, Some p => match list_of s p with Some m => Ok (raws_eqb l m) | None => Err (OtherErr 0) end
  | Some _, None => Err TypeErr
  | None, _ => Err (OtherErr 0)
  end.
Definition not_equal (s : store) (o : nat) (x : option nat) : res bool :=
  match list_of s o, x with
  | Some l, Some p => match list_of s p with Some m => Ok (negb (raws_eqb l m)) | None => Err (OtherErr 0) end
  | Some _, None => Err AttrErr
  | None, _ => Err (OtherErr 0)
  end.
(** [o in members] for a set or the keys of a dict: the first entry with the same hash which is the same object or equal.
    The hash (370-371) is that of the object, different for different objects. *)
Definition hash (o : nat) : nat := o.
Definition in_set (s : store) (o : nat) (members : list nat) : bool :=
  existsb (fun m => Nat.eqb (hash m) (hash o) &&
                    (Nat.eqb m o || match equal s o (Some m) with Ok b => b | Err _ => false end)) members.
End Equal.
