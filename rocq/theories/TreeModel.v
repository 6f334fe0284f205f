(** Field selectors applied to objects: get, get_or_none, put, post, delete.
    Models normalize/selector.py:32-39 and 120-359 over trees of records, lists and dicts. *)
From Coq Require Import List Arith NArith ZArith Bool Lia.
From Verif Require Import Prelude SelPathModel FSModel PySeq.
Import ListNotations.

Section Tree.
(** Immutable Python values (None, str, int, tuples and methods of such ...). *)
Context {A : Type}.
(** Record and collection classes. *)
Context {C : Type}.
(** What [valuetype] and [itemtype] may be: anything callable. *)
Context {T : Type}.

(** Python objects.  Simplifications: the object is a tree (no object is reachable on two
    ways, so that changing a child through a reference is replacing it in its parent);
    immutable values hold only immutable values.  [None] as the class of a list or dict is a
    builtin one, [Some c] a ListCollection/DictCollection.  [slots] are the attributes that
    are set.  Extra properties of collections are left out: every selector step on a
    collection is a subscript, because _try_index is true for it. *)
Inductive obj : Type :=
| OAtom (a : A)
| ORec (c : C) (slots : list (str * obj))
| OList (c : option C) (xs : list obj)
| ODict (c : option C) (kvs : list (elem * obj)).

(** ** What the classes and the immutable values do: arbitrary functions *)

Variable a_none : A.                       (* the value None *)
Variable a_key : elem -> A.                (* a dict key as a value *)
Variable a_str : A -> bool.                (* isinstance(a, str) *)
Variable a_indexable : A -> bool.          (* getattr(a, "__getitem__", False) *)
Variable a_item : A -> elem -> res A.      (* a[s] *)
Variable a_attr : A -> str -> option A.    (* getattr(a, n); AttributeError *)
Variable a_iter : A -> res (list A).       (* list(iter(a)) *)
Variable a_len : A -> Z.                   (* len(a) *)

(** What reading attribute [n] gives if its slot is not set: a class attribute or method, or
    None for a v1 property; [None]: AttributeError.  Simplification: reading has no effect,
    so lazy properties are left out. *)
Variable unset : C -> str -> option A.
(** [setattr]: the value stored, or the exception (property/__init__.py:400-471; see
    PropModel.setattr). *)
Variable store : C -> str -> obj -> res obj.
(** [delattr] of an attribute which is set ([true]) or not *)
Variable erase : C -> str -> bool -> option exn.
(** [Collection.coerce_value] (coll.py:134-150; see CollModel.coerce_value) *)
Variable istore : C -> obj -> res obj.
(** [type(record).itemtype] *)
Variable itemtype : C -> res T.
(** [type(record).properties[selector].valuetype]: KeyError without such a property,
    FieldSelectorException without a type (selector.py:285-290) *)
Variable valuetype : C -> str -> res T.
(** calling a type without arguments or with one keyword argument *)
Variable call : T -> option (str * obj) -> res obj.

Definition str_atom (o : obj) : bool := match o with OAtom a => a_str a | _ => false end.
Definition has_getitem (o : obj) : bool :=
  match o with OAtom a => a_indexable a | ORec _ _ => false | _ => true end.

(** _try_index (selector.py:32-39) *)
Definition try_index (o : obj) (s : elem) : bool :=
  if str_atom o then false
  else match s with EInt _ => true | _ => has_getitem o end.

(** [record[selector]].  Dict keys are compared as selector elements (an int key never
    equals a string key). *)
Definition item (o : obj) (s : elem) : res obj :=
  match o with
  | OAtom a => match a_item a s with Ok b => Ok (OAtom b) | Err e => Err e end
  | ORec _ _ => Err TypeErr
  | OList _ xs => match s with EInt i => seq_get xs i | _ => Err TypeErr end
  | ODict _ kvs => match dict_get elem_eqb kvs s with Some x => Ok x | None => Err KeyErr end
  end.

(** [getattr(record, selector)]; an attribute name that is not a string is a TypeError.
    Never asked of a collection. *)
Definition attr (o : obj) (s : elem) : res obj :=
  match s with
  | EStr n =>
      match o with
      | OAtom a => match a_attr a n with Some b => Ok (OAtom b) | None => Err AttrErr end
      | ORec c sl =>
          match dict_get str_eqb sl n with
          | Some x => Ok x
          | None => match unset c n with Some b => Ok (OAtom b) | None => Err AttrErr end
          end
      | _ => Err AttrErr
      end
  | _ => Err TypeErr
  end.

(** [for r in record]: a dict, also a DictCollection (coll.py:106-110), yields its keys. *)
Definition iter (o : obj) : res (list obj) :=
  match o with
  | OAtom a => match a_iter a with Ok l => Ok (map OAtom l) | Err e => Err e end
  | ORec _ _ => Err TypeErr
  | OList _ xs => Ok xs
  | ODict _ kvs => Ok (map (fun kv => OAtom (a_key (fst kv))) kvs)
  end.

(** ** get (selector.py:120-182) *)

(** The variable all_exc: None, an exception, or False. *)
Inductive allexc : Type := XNone | XExc (e : exn) | XFalse.
Definition note_exc (x : allexc) (e : exn) : allexc :=
  match x with XNone => XExc e | _ => x end.

(** The loop over the items (selector.py:146-160): the values collected and all_exc, or the
    exception that escapes. *)
Fixpoint gather (f : obj -> res obj) (xs : list obj) (x : allexc) : res (list obj * allexc) :=
  match xs with
  | [] => Ok ([], x)
  | r :: t =>
      match f r with
      | Ok v => do (vs, x') <- gather f t XFalse; Ok (v :: vs, x')
      | Err e => if is_fs_exc e
                 then do (vs, x') <- gather f t (note_exc x e); Ok (OAtom a_none :: vs, x')
                 else Err e
      end
  end.

(** One step that is not a wildcard (selector.py:161-170, and 333-341 in delete). *)
Definition step (o : obj) (s : elem) : res obj :=
  if try_index o s then
    match item o s with
    | Ok x => Ok x
    | Err IndexErr => Err FSKeyErr
    | Err e => Err e
    end
  else
    match attr o s with
    | Ok x => Ok x
    | Err e => if is_attr_err e then Err FSAttrErr else Err e
    end.

Fixpoint get (p : list elem) (o : obj) : res obj :=
  match p with
  | [] => Ok o
  | ENone :: t =>
      do xs <- iter o;
      do (vs, x) <- gather (get t) xs XNone;
      match x with XExc e => Err e | _ => Ok (OList None vs) end
  | s :: t => do x <- step o s; get t x
  end.

(** get_or_none (selector.py:172-182) *)
Definition get_or_none (p : list elem) (o : obj) : res obj :=
  match get p o with
  | Ok v => Ok v
  | Err e => if is_fs_exc e then Ok (OAtom a_none) else Err e
  end.

(** ** put (selector.py:184-237) *)

(** The child at [s] was changed in place to [x]. *)
Definition replace (o : obj) (s : elem) (x : obj) : obj :=
  match o, s with
  | OList c xs, EInt i => match seq_set xs i x with Ok ys => OList c ys | Err _ => o end
  | ODict c kvs, _ => ODict c (dict_set elem_eqb kvs s x)
  | ORec c sl, EStr n =>
      match dict_get str_eqb sl n with Some _ => ORec c (dict_set str_eqb sl n x) | None => o end
  | _, _ => o
  end.

Definition coll_store (c : option C) (v : obj) : res obj :=
  match c with Some c => istore c v | None => Ok v end.

Fixpoint store_all (c : option C) (vs : list obj) : res (list obj) :=
  match vs with
  | [] => Ok []
  | v :: t => do v' <- coll_store c v; do t' <- store_all c t; Ok (v' :: t')
  end.

(** [record[selector] = value] (coll.py:196-197, 398-402 for the collections: the value is
    coerced before the subscript is looked at) *)
Definition item_set (o : obj) (s : elem) (v : obj) : res obj :=
  match o with
  | OAtom _ | ORec _ _ => Err TypeErr
  | OList c xs =>
      do v' <- coll_store c v;
      match s with EInt i => do ys <- seq_set xs i v'; Ok (OList c ys) | _ => Err TypeErr end
  | ODict c kvs => do v' <- coll_store c v; Ok (ODict c (dict_set elem_eqb kvs s v'))
  end.

(** [record[:] = value] *)
Definition slice_set (o : obj) (v : obj) : res obj :=
  match o with
  | OAtom _ | ORec _ _ => Err TypeErr
  | OList c _ => do vs <- iter v; do vs' <- store_all c vs; Ok (OList c vs')
  | ODict c _ => do _ <- coll_store c v; Err TypeErr
  end.

(** [setattr(record, selector, value)] *)
Definition attr_set (o : obj) (s : elem) (v : obj) : res obj :=
  match s, o with
  | EStr n, ORec c sl => do v' <- store c n v; Ok (ORec c (dict_set str_eqb sl n v'))
  | EStr _, _ => Err AttrErr
  | _, _ => Err TypeErr
  end.

(** selector.py:194-211 *)
Definition put_last (s : elem) (v : obj) (o : obj) : option exn * obj :=
  match s with
  | ENone => match slice_set o v with Ok o' => (None, o') | Err e => (Some e, o) end
  | _ =>
      if try_index o s then
        match item_set o s v with
        | Ok o' => (None, o')
        | Err e => (Some (if is_lookup_err e then FSErr else e), o)
        end
      else
        match attr_set o s v with
        | Ok o' => (None, o')
        | Err e => (Some (if is_attr_err e then FSErr else e), o)
        end
  end.

(** selector.py:220-236 *)
Definition put_step (o : obj) (s : elem) : res obj :=
  if try_index o s then
    match item o s with Err IndexErr => Err FSErr | r => r end
  else
    match attr o s with Err e => if is_attr_err e then Err FSErr else Err e | r => r end.

(** [for x in record: sub_selector.put(x, value)]: stops at the first exception *)
Fixpoint each (f : obj -> option exn * obj) (xs : list obj) : option exn * list obj :=
  match xs with
  | [] => (None, [])
  | x :: t =>
      match f x with
      | (Some e, x') => (Some e, x' :: t)
      | (None, x') => let (e, t') := each f t in (e, x' :: t')
      end
  end.

Fixpoint put (p : list elem) (v : obj) (o : obj) : option exn * obj :=
  match p with
  | [] => (Some IndexErr, o)
  | s :: t =>
      match t with
      | [] => put_last s v o
      | _ :: _ =>
          match s with
          | ENone =>
              match o with
              | OList c xs => let (e, xs') := each (put t v) xs in (e, OList c xs')
              | _ => match iter o with
                     | Err e => (Some e, o)
                     | Ok ks => (fst (each (put t v) ks), o)
                     end
              end
          | _ =>
              match put_step o s with
              | Err e => (Some e, o)
              | Ok x => let (e, x') := put t v x in (e, replace o s x')
              end
          end
      end
  end.

(** ** delete (selector.py:303-359) *)

Definition item_del (o : obj) (s : elem) : res obj :=
  match o with
  | OAtom _ | ORec _ _ => Err TypeErr
  | OList c xs =>
      match s with EInt i => do ys <- seq_del xs i; Ok (OList c ys) | _ => Err TypeErr end
  | ODict c kvs =>
      match dict_get elem_eqb kvs s with
      | Some _ => Ok (ODict c (dict_del elem_eqb kvs s))
      | None => Err KeyErr
      end
  end.

(** selector.py:344-350: [clear()] or [record[:] = ()] *)
Definition clear (o : obj) : res obj :=
  match o with
  | OAtom _ | ORec _ _ => Err TypeErr
  | OList c _ => Ok (OList c [])
  | ODict c _ => Ok (ODict c [])
  end.

(** [delattr(record, to_delete)] *)
Definition attr_del (o : obj) (s : elem) : res obj :=
  match s, o with
  | EStr n, ORec c sl =>
      let here := match dict_get str_eqb sl n with Some _ => true | None => false end in
      match erase c n here with
      | Some e => Err e
      | None => Ok (ORec c (dict_del str_eqb sl n))
      end
  | EStr _, _ => Err AttrErr
  | _, _ => Err TypeErr
  end.

(** selector.py:342-359 *)
Definition del_last (s : elem) (o : obj) : option exn * obj :=
  let done (r : res obj) := match r with Ok o' => (None, o') | Err e => (Some e, o) end in
  if try_index o s then
    match s with ENone => done (clear o) | _ => done (item_del o s) end
  else
    match attr o s with
    | Ok _ => done (attr_del o s)
    | Err e => if is_attr_err e then (None, o) else (Some e, o)
    end.

(** The loop over the items (selector.py:321-330): the exception that escapes, or all_exc;
    the items afterwards. *)
Fixpoint sweep (f : obj -> option exn * obj) (xs : list obj) (x : allexc)
  : res allexc * list obj :=
  match xs with
  | [] => (Ok x, [])
  | r :: t =>
      match f r with
      | (None, r') => let (o, t') := sweep f t XFalse in (o, r' :: t')
      | (Some e, r') =>
          if is_fs_exc e then let (o, t') := sweep f t (note_exc x e) in (o, r' :: t')
          else (Err e, r' :: t)
      end
  end.

Definition swept (r : res allexc) : option exn :=
  match r with Err e => Some e | Ok (XExc e) => Some e | Ok _ => None end.

Fixpoint delete (p : list elem) (o : obj) : option exn * obj :=
  match p with
  | [] => (Some IndexErr, o)
  | s :: t =>
      match t with
      | [] => del_last s o
      | _ :: _ =>
          match s with
          | ENone =>
              match o with
              | OList c xs =>
                  let (r, xs') := sweep (delete t) xs XNone in (swept r, OList c xs')
              | _ => match iter o with
                     | Err e => (Some e, o)
                     | Ok ks => (swept (fst (sweep (delete t) ks XNone)), o)
                     end
              end
          | _ =>
              match step o s with
              | Err e => (Some e, o)
              | Ok x => let (e, x') := delete t x in (e, replace o s x')
              end
          end
      end
  end.

(** ** post (selector.py:239-301) *)

(** [type( ** kwarg)]: keyword names must be strings *)
Definition make (ty : T) (kw : option (elem * obj)) : res obj :=
  match kw with
  | None => call ty None
  | Some (EStr n, v) => call ty (Some (n, v))
  | Some (_, _) => Err TypeErr
  end.

(** The new item of a collection; a builtin list or dict has no itemtype. *)
Definition new_item (c : option C) (kw : option (elem * obj)) : res obj :=
  match c with
  | None => Err AttrErr
  | Some c => do ty <- itemtype c; do x <- make ty kw; istore c x
  end.

(** What one pass of the loop does to [record] (selector.py:265-296). *)
Inductive vivify : Type :=
| VStop (e : exn)            (* raises; [record] as it was *)
| VThere (x : obj)           (* already there; go on with it *)
| VMade (o' : obj) (x : obj) (* [record] is now [o'], go on with its new child [x] *)
| VStay (o' : obj).          (* [record] is now [o'], go on with [o'] itself *)

Definition viv (o : obj) (s : elem) (kw : option (elem * obj)) : vivify :=
  if try_index o s then
    match item o s with
    | Ok x => VThere x
    | Err IndexErr =>
        match s with
        | EInt i =>
            match o with
            | OList c xs =>
                if (Z.of_nat (length xs) =? i)%Z then
                  match new_item c kw with
                  | Ok x => VMade (OList c (xs ++ [x])) x
                  | Err e => VStop e
                  end
                else VStop ValueErr
            | OAtom a => VStop (if (a_len a =? i)%Z then AttrErr else ValueErr)
            | _ => VStop IndexErr
            end
        | _ => VStop IndexErr
        end
    | Err e =>
        if is_key_err e then
          match o with
          | ODict c kvs =>
              match new_item c kw with
              | Ok x => VStay (ODict c (dict_set elem_eqb kvs s x))
              | Err e => VStop e
              end
          | _ => VStop AttrErr
          end
        else VStop e
    end
  else
    match attr o s with
    | Ok x => VThere x
    | Err e =>
        if is_attr_err e then
          match o, s with
          | ORec c sl, EStr n =>
              match valuetype c n with
              | Err e => VStop e
              | Ok ty =>
                  match make ty kw with
                  | Err e => VStop e
                  | Ok x =>
                      match store c n x with
                      | Err e => VStop e
                      | Ok x' => VMade (ORec c (dict_set str_eqb sl n x')) x'
                      end
                  end
              end
          | _, _ => VStop AttrErr
          end
        else VStop e
    end.

(** [post] returns the number of values set, or raises; and the object afterwards.
    [put_final] is set only in the last pass of the loop, where kwarg is not empty. *)
Fixpoint post (p : list elem) (v : obj) (o : obj) : res nat * obj :=
  match p with
  | [] => (Err IndexErr, o)
  | s :: t =>
      match t with
      | [] => match put_last s v o with
              | (None, o') => (Ok 1, o')
              | (Some e, o') => (Err e, o')
              end
      | last :: u =>
          match s with
          | ENone =>
              match iter o with
              | Err e => (Err e, o)
              | Ok [] => (Ok 0, o)
              | Ok (_ :: _) => (Err TypeErr, o)
              end
          | _ =>
              let kw := match u, last with [], ENone => None | [], _ => Some (last, v) | _, _ => None end in
              let put_final := match kw with Some _ => true | None => false end in
              match viv o s kw with
              | VStop e => (Err e, o)
              | VThere x => let (r, x') := post t v x in (r, replace o s x')
              | VMade o' x =>
                  if put_final then (Ok 1, o')
                  else let (r, x') := post t v x in (r, replace o' s x')
              | VStay o' => if put_final then (Ok 1, o') else post t v o'
              end
          end
      end
  end.

End Tree.

Arguments obj : clear implicits.
