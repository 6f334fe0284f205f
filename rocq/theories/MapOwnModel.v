(** Dict collections as Python objects which have a dict [_values]: which operations of normalize/coll.py give it away, and what
    update does if its argument is the collection itself or shares the dict.  CollModel (C23) has contents only.
    Collection.__init__ (coll.py:101-103), KeyedCollection.__setitem__ and __delitem__ (196-200), DictCollection (203-281:
    tuples_to_coll, coll_to_tuples, clear, pop, popitem, update), _Generic.__reduce__ (470-472), Record.__getstate__ and __setstate__
    (normalize/record/__init__.py:75-83) as used by copy and pickle.
    Simplifications: all collections have one item type; values are not changed; keys are hashable and compare like their identity;
    no keyword arguments of update (they come last, as pairs: 280-281); nobody but these methods touches [_values]. *)
From Coq Require Import List Arith Bool.
From Verif Require Import Prelude OwnModel.
Import ListNotations.

Section MapOwn.
Context {K V : Type}.
Variable keqb : K -> K -> bool.
Variable fits : V -> bool.              (* isinstance(v, itemtype) *)
Variable coerce : V -> option V.        (* coerceitem; None: it raises *)

(** Python dicts, in the order of insertion *)
Definition dict := list (K * V).
Fixpoint get (k : K) (d : dict) : option V :=
  match d with [] => None | (j, v) :: d => if keqb k j then Some v else get k d end.
Fixpoint put (k : K) (v : V) (d : dict) : dict :=
  match d with [] => [(k, v)] | (j, u) :: d => if keqb k j then (j, v) :: d else (j, u) :: put k v d end.
Definition drop (k : K) (d : dict) : dict := filter (fun p => negb (keqb k (fst p))) d.
Definition dict_of (l : list (K * V)) : dict := fold_left (fun d p => put (fst p) (snd p) d) l [].

(** Objects with a reference to their dict; the contents of the dicts.  The kinds are those of OwnModel: Declared, a class
    statement; Generic, dict_of; Plain, a Python dict of the program *)
Record mstore := MStore { mobjs : list (kind * nat); dicts : list dict }.
Definition mcontents (s : mstore) (o : nat) : option dict :=
  match nth_error (mobjs s) o with Some (_, r) => nth_error (dicts s) r | None => None end.

(** coerce_tuples, 151-158 *)
Fixpoint coerce_pairs (l : list (K * V)) : option (list (K * V)) :=
  match l with
  | [] => Some []
  | (k, v) :: l => match coerce_value fits coerce v, coerce_pairs l with Some w, Some m => Some ((k, w) :: m) | _, _ => None end
  end.
(** update calls coerce_value, and then __setitem__ calls it again (272-281, 196-197) *)
Definition coerce_twice (v : V) : option V :=
  match coerce_value fits coerce v with Some w => coerce_value fits coerce w | None => None end.

(** Pairs: an iterator of pairs; MObject: a dict or a collection *)
Inductive msource := Pairs (l : list (K * V)) | MObject (o : nat).
Inductive mop :=
| Dct (l : list (K * V))                     (* a Python dict *)
| MChange (o : nat) (l : list (K * V))       (* the program changes its own Python dict *)
| MMake (k : kind) (x : msource)             (* cls(x) *)
| Put (o : nat) (k : K) (v : V)              (* o[k] = v *)
| Drop (o : nat) (k : K)                     (* del o[k], o.pop(k) *)
| Clear (o : nat)
| Popitem (o : nat)
| Update (o : nat) (x : msource)
| MPickled (o : nat)                         (* pickle.loads(pickle.dumps(o)), copy.deepcopy(o) *)
| MCopied (o : nat).                         (* copy.copy(o) *)

Definition mnew (s : mstore) (k : kind) (d : dict) : mstore * outcome :=
  (MStore (mobjs s ++ [(k, length (dicts s))]) (dicts s ++ [d]), Made (length (mobjs s))).
(** 101, 211-215 *)
Definition mconstruct (s : mstore) (k : kind) (l : list (K * V)) : mstore * outcome :=
  match coerce_pairs l with Some l => mnew s k (dict_of l) | None => (s, Raises) end.
Definition store_dict (s : mstore) (r : nat) (d : dict) : mstore := MStore (mobjs s) (set_nth r d (dicts s)).

(** 277-279, for an iterator of pairs; what was written before an exception stays *)
Fixpoint update_pairs (s : mstore) (r : nat) (l : list (K * V)) : mstore * outcome :=
  match l with
  | [] => (s, Done)
  | (k, v) :: l =>
      match coerce_twice v with
      | Some w => update_pairs (store_dict s r (put k w (nth r (dicts s) []))) r l
      | None => (s, Raises)
      end
  end.
(** 274-276: a list of the keys is made first; the values are read from the dict [q] as it is by then *)
Fixpoint update_from (s : mstore) (r q : nat) (ks : list K) : mstore * outcome :=
  match ks with
  | [] => (s, Done)
  | k :: ks =>
      match get k (nth q (dicts s) []) with
      | Some v =>
          match coerce_twice v with
          | Some w => update_from (store_dict s r (put k w (nth r (dicts s) []))) r q ks
          | None => (s, Raises)
          end
      | None => (s, Raises)
      end
  end.
Definition with_map (s : mstore) (o : nat) (f : kind -> nat -> dict -> mstore * outcome) : mstore * outcome :=
  match nth_error (mobjs s) o with
  | Some (Plain, _) | None => (s, Nonsense)
  | Some (k, r) => match nth_error (dicts s) r with Some d => f k r d | None => (s, Nonsense) end
  end.
(** coll_to_tuples, 218-240: a DictCollection is neither a Mapping nor a Sequence nor an iterator: nothing is taken from it *)
Definition tuples (s : mstore) (x : msource) : option (list (K * V)) :=
  match x with
  | Pairs l => Some l
  | MObject p =>
      match nth_error (mobjs s) p with
      | Some (Plain, r) => nth_error (dicts s) r
      | Some _ => Some []
      | None => None
      end
  end.

Definition mstep (s : mstore) (x : mop) : mstore * outcome :=
  match x with
  | Dct l => mnew s Plain (dict_of l)
  | MChange o l =>
      match nth_error (mobjs s) o with
      | Some (Plain, r) => (store_dict s r (dict_of l), Done)
      | _ => (s, Nonsense)
      end
  | MMake Plain _ => (s, Nonsense)
  | MMake k src => match tuples s src with Some l => mconstruct s k l | None => (s, Nonsense) end
  | Put o k v => with_map s o (fun _ r d =>                                              (* 196-197 *)
      match coerce_value fits coerce v with Some w => (store_dict s r (put k w d), Done) | None => (s, Raises) end)
  | Drop o k => with_map s o (fun _ r d =>                                               (* 199-200, 266-267 *)
      match get k d with Some _ => (store_dict s r (drop k d), Done) | None => (s, Raises) end)
  | Clear o => with_map s o (fun _ r _ => (store_dict s r [], Done))                     (* 251-252 *)
  | Popitem o => with_map s o (fun _ r d =>                                              (* 269-270 *)
      match d with [] => (s, Raises) | _ => (store_dict s r (removelast d), Done) end)
  | Update o src => with_map s o (fun _ r _ =>                                           (* 272-281 *)
      match src with
      | Pairs l => update_pairs s r l
      | MObject p =>
          match nth_error (mobjs s) p with
          | Some (_, q) => update_from s r q (map fst (nth q (dicts s) []))
          | None => (s, Nonsense)
          end
      end)
  (** record/__init__.py:75-83, with a copy of the dict; or coll.py:470-472, the constructor *)
  | MPickled o =>
      match nth_error (mobjs s) o, mcontents s o with
      | Some (Generic, _), Some d => mconstruct s Generic d
      | Some (k, _), Some d => mnew s k d
      | _, _ => (s, Nonsense)
      end
  (** the same with the dict itself *)
  | MCopied o =>
      match nth_error (mobjs s) o, mcontents s o with
      | Some (Generic, _), Some d => mconstruct s Generic d
      | Some (Plain, _), Some d => mnew s Plain d
      | Some (Declared, r), Some _ => (MStore (mobjs s ++ [(Declared, r)]) (dicts s), Made (length (mobjs s)))
      | _, _ => (s, Nonsense)
      end
  end.
Fixpoint mrun (s : mstore) (prog : list mop) : mstore * list outcome :=
  match prog with
  | [] => (s, [])
  | x :: prog => let (s1, r) := mstep s x in let (s2, rs) := mrun s1 prog in (s2, r :: rs)
  end.
End MapOwn.
Arguments mstore : clear implicits.
Arguments mop : clear implicits.
Arguments msource : clear implicits.
