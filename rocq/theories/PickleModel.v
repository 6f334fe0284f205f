(** Pickling of records and collections: normalize/record/__init__.py:69-83
    (__getnewargs__, __getstate__, __setstate__) and normalize/coll.py:454-472
    (_GenericPickler, _Generic.__reduce__), coll.py:86-104 (Collection.__init__). *)
From Coq Require Import String List NArith Arith Bool.
From Verif Require Import Prelude GenModel.
Import ListNotations.
Local Open Scope string_scope.
Local Open Scope list_scope.

(** [[f(x) for x in l]], stopping at the first exception. *)
Section Mapm.
Context {A B : Type}.
Variable f : A -> res B.
Fixpoint mapm (l : list A) : res (list B) :=
  match l with
  | [] => Ok []
  | x :: t => do y <- f x; do ys <- mapm t; Ok (y :: ys)
  end.
End Mapm.

(** [s.startswith(p)], giving the rest. *)
Fixpoint strip_prefix (p s : str) : option str :=
  match p, s with
  | [], _ => Some s
  | a :: p', b :: s' => if N.eqb a b then strip_prefix p' s' else None
  | _ :: _, [] => None
  end.

(** [s.replace(old, new)]: every non-overlapping occurrence, from the left; [fuel] at least the
    length of [s]; [old] not empty. *)
Fixpoint replace (fuel : nat) (old new s : str) : str :=
  match fuel with
  | 0 => s
  | S n =>
      match strip_prefix old s with
      | Some rest => new ++ replace n old new rest
      | None => match s with [] => [] | a :: t => a :: replace n old new t end
      end
  end.

(** coll.py:461-463, _GenericPickler.__call__: keys written by Python 2. *)
Definition load_key (k : gkey) : gkey :=
  match strip_prefix (s2l "__builtin__") (snd k) with
  | Some _ => (fst k, replace (length (snd k)) (s2l "__builtin__") (s2l "builtins") (snd k))
  | None => k
  end.

Section Pickle.
(** Values pickle handles by itself: numbers, strings, functions by name, … *)
Variable A : Type.

(** Values.  A record or collection is its class and the entries of its [__dict__]; the items of a
    collection are the entry "_values" (coll.py:101).  (Trees only: shared and cyclic references,
    which pickle keeps with its memo, are not modelled.) *)
Inductive pval :=
| PAtom (a : A)
| PList (l : list pval)
| PDict (l : list (A * pval))
| PObj (c : nat) (slots : list (str * pval)).

(** The pickle: an object by class name and state, or a generic collection by the call
    [_GenericPickler(key)(values)]; [KBad] stands for a pickle that could not be written because
    [self._values] raises AttributeError. *)
Inductive pickled :=
| KAtom (a : A)
| KList (l : list pickled)
| KDict (l : list (A * pickled))
| KObj (c : nat) (state : list (str * pickled))
| KGen (key : gkey) (values : pickled)
| KBad.

Definition values_slot : str := s2l "_values".

(** [type(self).generic_key] (coll.py:472): set on generic types (coll.py:498), inherited by their
    subclasses; None for classes without it, which are not [_Generic]. *)
Variable generic_key : nat -> option gkey.

(** pickle.dumps: for generic collections [_Generic.__reduce__] (coll.py:470-472); for other records
    the default protocol with [__getnewargs__] and [__getstate__] (record/__init__.py:69-78). *)
Fixpoint dumps (v : pval) : pickled :=
  match v with
  | PAtom a => KAtom a
  | PList l => KList (map dumps l)
  | PDict l => KDict (map (fun kv => (fst kv, dumps (snd kv))) l)
  | PObj c sl =>
      let st := map (fun kv => (fst kv, dumps (snd kv))) sl in
      match generic_key c with
      | None => KObj c st
      | Some k =>
          match find_name values_slot st with
          | Some vs => KGen k vs
          | None => KBad
          end
      end
  end.

(** The loading process: GENERIC_TYPES and what its collection classes do.
    [p_list d]: whether class [d] is a ListCollection (otherwise a DictCollection);
    [p_isa d v]: isinstance(v, d.itemtype); [p_coerce d v]: what coercing another item gives
    (coll.py:134-150); [p_eager d]: the properties initialised by the constructor when not passed
    (record/__init__.py:63-67), with the default or the exception of each. *)
Record process := {
  p_types : gkey -> option nat;
  p_list : nat -> bool;
  p_isa : nat -> pval -> bool;
  p_coerce : nat -> pval -> res pval;
  p_eager : nat -> list (str * res pval)
}.

Variable P : process.

(** coll.py:134-150 coerce_value *)
Definition coerce_value (d : nat) (v : pval) : res pval :=
  if p_isa P d v then Ok v else p_coerce P d v.

(** coll.py:297-338 and 203-234, tuples_to_coll(coll_to_tuples(values)), for the underlying list of a
    list collection and dict of a dict collection (other arguments not modelled). *)
Definition to_values (d : nat) (v : pval) : res pval :=
  match p_list P d, v with
  | true, PList l => do l' <- mapm (coerce_value d) l; Ok (PList l')
  | false, PDict l =>
      do l' <- mapm (fun kv => do x <- coerce_value d (snd kv); Ok (fst kv, x)) l; Ok (PDict l')
  | _, _ => Err CollCoerceErr
  end.

(** coll.py:86-104 then record/__init__.py:32-67: cls(values=v). *)
Definition construct (d : nat) (v : pval) : res pval :=
  do vs <- to_values d v;
  do extra <- mapm (fun kr : str * res pval => do x <- snd kr; Ok (fst kr, x)) (p_eager P d);
  Ok (PObj d ((values_slot, vs) :: extra)).

(** pickle.loads: a record is made by [cls.__new__] (no [__init__]) and [__setstate__]
    (record/__init__.py:80-83), a generic collection by _GenericPickler.__call__ (coll.py:461-464). *)
Fixpoint loads (p : pickled) : res pval :=
  match p with
  | KAtom a => Ok (PAtom a)
  | KList l => do l' <- mapm loads l; Ok (PList l')
  | KDict l => do l' <- mapm (fun kv => do x <- loads (snd kv); Ok (fst kv, x)) l; Ok (PDict l')
  | KObj c st => do l' <- mapm (fun kv => do x <- loads (snd kv); Ok (fst kv, x)) st; Ok (PObj c l')
  | KGen k vs =>
      do v <- loads vs;
      match p_types P (load_key k) with
      | Some d => construct d v
      | None => Err KeyErr
      end
  | KBad => Err AttrErr
  end.
End Pickle.

Arguments PAtom {A} a.
Arguments PList {A} l.
Arguments PDict {A} l.
Arguments PObj {A} c slots.
Arguments KAtom {A} a.
Arguments KList {A} l.
Arguments KDict {A} l.
Arguments KObj {A} c state.
Arguments KGen {A} key values.
Arguments KBad {A}.
Arguments p_types {A} p.
Arguments p_list {A} p.
Arguments p_isa {A} p.
Arguments p_coerce {A} p.
Arguments p_eager {A} p.
Arguments dumps {A} generic_key v.
Arguments loads {A} P p.
Arguments construct {A} P d v.
Arguments to_values {A} P d v.
Arguments coerce_value {A} P d v.
