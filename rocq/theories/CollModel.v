(** Model of typed collections: normalize/coll.py.

    A collection is its [_values] (a Python list or dict); the extra attributes of a
    collection are those of a record (PropModel) and untouched by these operations.
    The item type test is a function of the item; the item coercion may read and change the
    world and may raise.  Coercions that change the collection itself while it is being
    updated are not modelled. *)
From Coq Require Import List Arith NArith ZArith Bool Lia Permutation.
From Verif Require Import Prelude FSModel PySeq.
Import ListNotations.

Section Coll.
Context {V K W : Type}.
Variable isitem : V -> bool.                    (* isinstance(v, cls.itemtype) *)
Variable coerceitem : V -> W -> res V * W.      (* cls.coerceitem *)

(** Collection.coerce_value (coll.py:135-149) *)
Definition coerce_value (v : V) (w : W) : res V * W :=
  if isitem v then (Ok v, w)
  else match coerceitem v w with
       | (Ok v', w') => (Ok v', w')
       | (Err _, w') => (Err CollItemCoerceErr, w')
       end.

(** An iterable argument: not iterable at all, or the items it yields followed by the
    exception its iterator raises, if any. *)
Inductive iterable : Type :=
| NotIter
| Items (xs : list V) (stop : option exn).

(** Consuming the generator [(coerce_value(x) for x in it)]: the coerced items before the
    first failure, and the failure. *)
Fixpoint coerce_items (xs : list V) (stop : option exn) (w : W) : list V * option exn * W :=
  match xs with
  | [] => ([], stop, w)
  | x :: t =>
      match coerce_value x w with
      | (Err e, w') => ([], Some e, w')
      | (Ok y, w') => let '(ys, e, w'') := coerce_items t stop w' in (y :: ys, e, w'')
      end
  end.

(** What a collection may be constructed from, as far as coll_to_tuples distinguishes
    (coll.py:218-240, 310-340).  [SMapping] holds the items in iteration order;
    [SIterator] an object with [__next__], whose items may be pairs. *)
Inductive source : Type :=
| SStr
| SMapping (items : list (K * V))
| SSequence (xs : list V)
| SIterator (xs : list V) (stop : option exn)
| SIterable (xs : list V) (stop : option exn)   (* has __iter__ only, e.g. a set *)
| SFalsy                                        (* None, 0, ... *)
| SOther.

(** ** ListCollection *)

Variable sort_keys : list K -> list K.          (* sorted(keys) *)
Variable keqb : K -> K -> bool.

(** ListCollection.coll_to_tuples (coll.py:310-340); the keys are dropped by tuples_to_coll.
    [coll[k]] for the keys of a mapping. *)
Definition list_source (s : source) : res (list V * option exn) :=
  match s with
  | SStr => Err CollCoerceErr
  | SMapping items =>
      Ok (flat_map (fun k => match dict_get keqb items k with Some v => [v] | None => [] end)
                   (sort_keys (map fst items)), None)
  | SSequence xs => Ok (xs, None)
  | SIterator xs e | SIterable xs e => Ok (xs, e)
  | SFalsy => Ok ([], None)
  | SOther => Err CollCoerceErr
  end.

(** Collection.__init__ (coll.py:86-104) with ListCollection.tuples_to_coll (305-307) *)
Definition list_new (s : source) (w : W) : res (list V) * W :=
  match list_source s with
  | Err e => (Err e, w)
  | Ok (xs, stop) =>
      match coerce_items xs stop w with
      | (ys, None, w') => (Ok ys, w')
      | (_, Some e, w') => (Err e, w')
      end
  end.

Inductive result : Type := RUnit | RVal (v : V) | RList (l : list V) | RNat (n : nat) | RBool (b : bool).

Inductive lop : Type :=
| LAppend (x : V)
| LExtend (it : iterable)
| LInsert (i : Z) (x : V)
| LPop (i : Z)
| LRemove (x : V)
| LReverse
| LSort
| LSetItem (i : Z) (x : V)
| LSetSlice (s : slice) (it : iterable)
| LDelItem (i : Z)
| LDelSlice (s : slice)
| LGetItem (i : Z)
| LGetSlice (s : slice)
| LIndex (x : V) (i : Z) (j : option Z)
| LCount (x : V)
| LContains (x : V)
| LLen.

Variable eqv : V -> V -> bool.           (* y == x *)
Variable iter_of : V -> iterable.        (* iter(x) *)
Variable fmt_fails : V -> bool.          (* "%r" % x raises TypeError: x a tuple, not of length 1 *)
Variable sorter : list V -> list V * option exn.   (* list.sort, with its key function *)

Definition lst : Type := list V * W.

(** [self._values[slice] = generator] (coll.py:398-400): CPython makes a list of the
    generator first, so a failure leaves the list alone. *)
Definition set_slice (s : slice) (it : iterable) (st : lst) : res result * lst :=
  let (l, w) := st in
  match it with
  | NotIter => (Err TypeErr, st)
  | Items xs stop =>
      match coerce_items xs stop w with
      | (_, Some e, w') => (Err e, (l, w'))
      | (ys, None, w') =>
          match seq_setslice l s ys with
          | Ok l' => (Ok RUnit, (l', w'))
          | Err e => (Err e, (l, w'))
          end
      end
  end.

(** the [for k in range(i, j)] loop of index (coll.py:368-371); [n] bounds its length *)
Fixpoint index_loop (n : nat) (l : list V) (x : V) (k : Z) (j : Z) : res nat :=
  match n with
  | O => Err (if fmt_fails x then TypeErr else ValueErr)
  | S n' =>
      if (k <? j)%Z then
        match seq_get l k with
        | Err e => Err e
        | Ok y => if eqv y x then Ok (Z.to_nat k) else index_loop n' l x (k + 1)%Z j
        end
      else Err (if fmt_fails x then TypeErr else ValueErr)
  end.

(** ListCollection.index (coll.py:356-371) *)
Definition coll_index (l : list V) (x : V) (i : Z) (j : option Z) : res nat :=
  let n := Z.of_nat (length l) in
  let i' := if (i <? 0)%Z then (let i1 := (i + n)%Z in if (i1 <? 0)%Z then 0%Z else i1) else i in
  let j' := match j with
            | None => n
            | Some j => if (j <? 0)%Z then (let j1 := (j + n)%Z in if (j1 <? 0)%Z then 0%Z else j1) else j
            end in
  index_loop (Z.to_nat (j' - i')) l x i' j'.

(** The methods of ListCollection: append (342-345), extend (347-351), count (353-354),
    index (356-371), insert (373-378), pop (380-387), remove (389-390), reverse (392-393),
    sort (395-396), __setitem__ (398-402, 196-197), __delitem__ (199-200), __getitem__
    (193-194), __contains__ (112-113), __len__ (130-132). *)
Definition list_exec (o : lop) (st : lst) : res result * lst :=
  let (l, w) := st in
  match o with
  | LAppend x =>
      match coerce_value x w with
      | (Ok y, w') => (Ok RUnit, (l ++ [y], w'))
      | (Err e, w') => (Err e, (l, w'))
      end
  | LExtend NotIter => (Err TypeErr, st)
  | LExtend (Items xs stop) =>
      match coerce_items xs stop w with
      | (ys, None, w') => (Ok RUnit, (l ++ ys, w'))
      | (ys, Some e, w') => (Err e, (l ++ ys, w'))
      end
  | LInsert i x =>
      let i1 := if (i <? 0)%Z then (i + Z.of_nat (length l))%Z else i in
      let i2 := if (i1 <? 0)%Z then 0%Z else i1 in
      set_slice (mkSlice (Some i2) (Some i2) None) (iter_of x) st
  | LPop i =>
      let i1 := if (i <? 0)%Z
                then (let i0 := (i + Z.of_nat (length l))%Z in if (i0 <? 0)%Z then 0%Z else i0)
                else i in
      match seq_get l i1 with
      | Err e => (Err e, st)
      | Ok x => match seq_del l i1 with
                | Err e => (Err e, st)
                | Ok l' => (Ok (RVal x), (l', w))
                end
      end
  | LRemove x =>
      match coll_index l x 0 None with
      | Err e => (Err e, st)
      | Ok k => match seq_del l (Z.of_nat k) with
                | Err e => (Err e, st)
                | Ok l' => (Ok RUnit, (l', w))
                end
      end
  | LReverse => (Ok RUnit, (rev l, w))
  | LSort => let (l', e) := sorter l in
             (match e with None => Ok RUnit | Some e => Err e end, (l', w))
  | LSetItem i x =>
      match coerce_value x w with
      | (Err e, w') => (Err e, (l, w'))
      | (Ok y, w') => match seq_set l i y with
                      | Err e => (Err e, (l, w'))
                      | Ok l' => (Ok RUnit, (l', w'))
                      end
      end
  | LSetSlice s it => set_slice s it st
  | LDelItem i => match seq_del l i with Err e => (Err e, st) | Ok l' => (Ok RUnit, (l', w)) end
  | LDelSlice s => match seq_delslice l s with Err e => (Err e, st) | Ok l' => (Ok RUnit, (l', w)) end
  | LGetItem i => match seq_get l i with Err e => (Err e, st) | Ok x => (Ok (RVal x), st) end
  | LGetSlice s => match seq_getslice l s with Err e => (Err e, st) | Ok x => (Ok (RList x), st) end
  | LIndex x i j => match coll_index l x i j with Err e => (Err e, st) | Ok k => (Ok (RNat k), st) end
  | LCount x => (Ok (RNat (seq_count eqv l x)), st)
  | LContains x =>
      match coerce_value x w with
      | (Err e, w') => (Err e, (l, w'))
      | (Ok y, w') => (Ok (RBool (seq_contains eqv l y)), (l, w'))
      end
  | LLen => (Ok (RNat (length l)), st)
  end.

Fixpoint list_run (os : list lop) (st : lst) : list (res result) * lst :=
  match os with
  | [] => ([], st)
  | o :: t => let (r, st1) := list_exec o st in
              let (rs, st2) := list_run t st1 in (r :: rs, st2)
  end.

(** ListCollection.__add__ (coll.py:423-427).  [other] is the other operand: a collection of
    the same type, a plain list (converted first), or something without [_values]. *)
Inductive addend : Type := AColl (l : list V) | APlain (l : list V) | AAlien.
Definition list_add (l : list V) (o : addend) (w : W) : res (list V) * W :=
  let cat l2 w := list_new (SSequence (l ++ l2)) w in
  match o with
  | AColl l2 => cat l2 w
  | APlain xs => match list_new (SSequence xs) w with
                 | (Ok l2, w') => cat l2 w'
                 | (Err e, w') => (Err e, w')
                 end
  | AAlien => (Err AttrErr, w)
  end.

(** ** DictCollection *)

Variable key_of_nat : nat -> K.                  (* an int as a key *)
Variable as_pair : V -> option (K * V).          (* a tuple of length two *)

Fixpoint number {A} (i : nat) (xs : list A) : list (nat * A) :=
  match xs with [] => [] | x :: t => (i, x) :: number (S i) t end.

(** DictCollection.coll_to_tuples (coll.py:218-240): anything else (None in particular, but
    also a set) yields nothing. *)
Definition dict_source (s : source) : res (list (K * V) * option exn) :=
  match s with
  | SStr => Err CollCoerceErr
  | SMapping items => Ok (items, None)
  | SSequence xs => Ok (map (fun ix => (key_of_nat (fst ix), snd ix)) (number 0 xs), None)
  | SIterator xs e =>
      Ok (map (fun ix => match as_pair (snd ix) with
                         | Some kv => kv
                         | None => (key_of_nat (fst ix), snd ix)
                         end) (number 0 xs), e)
  | SIterable _ _ | SFalsy | SOther => Ok ([], None)
  end.

Fixpoint coerce_pairs (xs : list (K * V)) (stop : option exn) (w : W)
  : list (K * V) * option exn * W :=
  match xs with
  | [] => ([], stop, w)
  | (k, x) :: t =>
      match coerce_value x w with
      | (Err e, w') => ([], Some e, w')
      | (Ok y, w') => let '(ys, e, w'') := coerce_pairs t stop w' in ((k, y) :: ys, e, w'')
      end
  end.

(** Collection.__init__ with DictCollection.tuples_to_coll (coll.py:212-215) *)
Definition dict_new (s : source) (w : W) : res (list (K * V)) * W :=
  match dict_source s with
  | Err e => (Err e, w)
  | Ok (xs, stop) =>
      match coerce_pairs xs stop w with
      | (ys, None, w') => (Ok (fold_left (fun d kv => dict_set keqb d (fst kv) (snd kv)) ys []), w')
      | (_, Some e, w') => (Err e, w')
      end
  end.

(** The argument of update (coll.py:272-281): an object with a [keys] method, an iterable of
    things that are pairs ([Some]) or cannot be unpacked, or None. *)
Inductive updsource : Type :=
| UNone
| UMapping (items : list (K * V))
| UPairs (xs : list (res (K * V))) (stop : option exn)
| UNotIter.

Inductive dop : Type :=
| DSet (k : K) (x : V)
| DDel (k : K)
| DGet (k : K)
| DPop (k : K)
| DPopitem
| DClear
| DUpdate (u : updsource) (kw : list (K * V))
| DContains (k : K)
| DLen
| DKeys
| DValues.

Inductive dresult : Type := DRUnit | DRVal (v : V) | DRItem (k : K) (v : V) | DRBool (b : bool)
  | DRNat (n : nat) | DRKeys (l : list K) | DRVals (l : list V).

Definition dst : Type := list (K * V) * W.

(** [self[k] = x] (coll.py:196-197) *)
Definition dict_setitem (k : K) (x : V) (st : dst) : res unit * dst :=
  let (d, w) := st in
  match coerce_value x w with
  | (Ok y, w') => (Ok tt, (dict_set keqb d k y, w'))
  | (Err e, w') => (Err e, (d, w'))
  end.

(** [self[k] = self.coerce_value(x)]: coerced here and again in __setitem__ *)
Definition dict_coerce_setitem (k : K) (x : V) (st : dst) : res unit * dst :=
  let (d, w) := st in
  match coerce_value x w with
  | (Ok y, w') => dict_setitem k y (d, w')
  | (Err e, w') => (Err e, (d, w'))
  end.

Fixpoint dict_setall (xs : list (res (K * V))) (stop : option exn) (st : dst) : res unit * dst :=
  match xs with
  | [] => (match stop with None => Ok tt | Some e => Err e end, st)
  | Err e :: _ => (Err e, st)
  | Ok (k, x) :: t =>
      match dict_coerce_setitem k x st with
      | (Ok _, st') => dict_setall t stop st'
      | (Err e, st') => (Err e, st')
      end
  end.

(** DictCollection.update (coll.py:272-281) *)
Definition dict_update (u : updsource) (kw : list (K * V)) (st : dst) : res unit * dst :=
  let first :=
    match u with
    | UNone => (Ok tt, st)
    | UMapping items => dict_setall (map Ok items) None st
    | UPairs xs stop => dict_setall xs stop st
    | UNotIter => (Err TypeErr, st)
    end in
  match first with
  | (Err e, st') => (Err e, st')
  | (Ok _, st') => dict_setall (map Ok kw) None st'
  end.

Definition unit_res (r : res unit * dst) : res dresult * dst :=
  match r with (Ok _, st) => (Ok DRUnit, st) | (Err e, st) => (Err e, st) end.

(** The methods of DictCollection (coll.py:192-201, 242-294) *)
Definition dict_exec (o : dop) (st : dst) : res dresult * dst :=
  let (d, w) := st in
  match o with
  | DSet k x => unit_res (dict_setitem k x st)
  | DDel k => match dict_get keqb d k with
              | Some _ => (Ok DRUnit, (dict_del keqb d k, w))
              | None => (Err KeyErr, st)
              end
  | DGet k => match dict_get keqb d k with Some v => (Ok (DRVal v), st) | None => (Err KeyErr, st) end
  | DPop k => match dict_get keqb d k with
              | Some v => (Ok (DRVal v), (dict_del keqb d k, w))
              | None => (Err KeyErr, st)
              end
  | DPopitem => match rev d with
                | [] => (Err KeyErr, st)
                | (k, v) :: t => (Ok (DRItem k v), (rev t, w))
                end
  | DClear => (Ok DRUnit, ([], w))
  | DUpdate u kw => unit_res (dict_update u kw st)
  | DContains k => (Ok (DRBool (match dict_get keqb d k with Some _ => true | None => false end)), st)
  | DLen => (Ok (DRNat (length d)), st)
  | DKeys => (Ok (DRKeys (map fst d)), st)
  | DValues => (Ok (DRVals (map snd d)), st)
  end.

Fixpoint dict_run (os : list dop) (st : dst) : list (res dresult) * dst :=
  match os with
  | [] => ([], st)
  | o :: t => let (r, st1) := dict_exec o st in
              let (rs, st2) := dict_run t st1 in (r :: rs, st2)
  end.

End Coll.
