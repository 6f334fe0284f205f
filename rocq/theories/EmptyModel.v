(** Empty placeholders: normalize/empty.py:6-144.

    Classes are numbers; [class : nat -> cinfo] says what the code asks them.  Placeholder
    objects are numbers too (positions in the store), so that "the same object" is equality
    of numbers.

    Simplifications:
    - everything in a type tuple is a class or the builtin [any];
    - attribute names which EmptyVal itself has ([_typetuple], [_attrs], [_member_type],
      [_typelist], [_exc] and those every object has) do not come to [__getattr__]; they
      are left out;
    - the text of the exceptions, [__repr__] and [__str__]. *)
From Coq Require Import String List NArith Bool Arith.
From Verif Require Import Prelude PropModel.
Import ListNotations.

(** An element of a tuple of types, and a type hint: one of them, or a tuple. *)
Inductive ty := Any | Cls (c : nat).
Inductive hint := One (t : ty) | Many (l : list ty).

(** What is asked of a class:
    [c_attr n]: [getattr(type_, n, None)] (65): [None]; otherwise [getattr(_, "valuetype",
    False) or any] of what it gave (81), [HNone] standing for a false value type;
    [c_own n]: [n in type_.__dict__] (67, 101, 116; the value under "__call__" is true);
    [c_mro]: the classes its methods come from;
    [c_item]: not a Collection, or its [itemtype] (113-115), which may raise (coll.py:65). *)
Record cinfo := { c_attr : str -> option (option hint); c_own : str -> bool; c_mro : list nat;
                  c_item : option (res hint) }.

(** The key of EMPTY_VALS, also [_typetuple] of the object: [any] or a tuple of classes. *)
Inductive key := KAny | KTup (l : list nat).

Fixpoint tup_eqb (a b : list nat) : bool :=
  match a, b with
  | [], [] => true
  | x :: a, y :: b => Nat.eqb x y && tup_eqb a b
  | _, _ => false
  end.
Definition key_eqb (a b : key) : bool :=
  match a, b with KAny, KAny => true | KTup a, KTup b => tup_eqb a b | _, _ => false end.

(** An EmptyVal (54-57). *)
Record eval := { e_key : key; e_attrs : list (str * nat); e_member : option nat }.
(** The objects, and EMPTY_VALS (6). *)
Record estate := { objs : list eval; vals : list (key * nat) }.
Definition empty0 : estate := {| objs := []; vals := [] |}.

Fixpoint kget (k : key) (l : list (key * nat)) : option nat :=
  match l with [] => None | (k', i) :: l => if key_eqb k k' then Some i else kget k l end.

(** [typetuple] (11-13) *)
Fixpoint classes (l : list ty) : option (list nat) :=
  match l with
  | [] => Some []
  | Any :: _ => None
  | Cls c :: l => match classes l with Some r => Some (c :: r) | None => None end
  end.
Definition key_of (h : hint) : key :=
  match classes (match h with Many l => l | One t => [t] end) with Some l => KTup l | None => KAny end.

(** placeholder (9-16) *)
Definition placeholder (h : hint) (s : estate) : nat * estate :=
  let k := key_of h in
  match kget k (vals s) with
  | Some i => (i, s)
  | None =>
      let i := length (objs s) in
      (i, {| objs := objs s ++ [{| e_key := k; e_attrs := []; e_member := None |}];
             vals := vals s ++ [(k, i)] |})
  end.

Definition ty_eqb (a b : ty) : bool :=
  match a, b with Any, Any => true | Cls a, Cls b => Nat.eqb a b | _, _ => false end.
(** itertypes (19-32) *)
Fixpoint it_tuple (l seen : list ty) : list ty * list ty :=
  match l with
  | [] => ([], seen)
  | t :: l => if existsb (ty_eqb t) seen then it_tuple l seen
              else let (r, s) := it_tuple l (t :: seen) in (t :: r, s)
  end.
Fixpoint it_types (l : list hint) (seen : list ty) : list ty :=
  match l with
  | [] => []
  | Many ts :: l => let (r, s) := it_tuple ts seen in r ++ it_types l s
  | One t :: l => if existsb (ty_eqb t) seen then it_types l seen else t :: it_types l (t :: seen)
  end.
Definition itertypes (l : list hint) : list ty := it_types l [].

Inductive eerr := ENoSuchAttribute | ENotCallable | ENotSubscriptable | EBadAssignment | EUser (e : exn) | ENoObj.
Inductive eres := EOk (i : nat) | EErr (e : eerr).

Fixpoint upd_nth (i : nat) (x : eval) (l : list eval) : list eval :=
  match l, i with
  | [], _ => []
  | _ :: l, O => x :: l
  | y :: l, S i => y :: upd_nth i x l
  end.
Fixpoint aget (n : str) (l : list (str * nat)) : option nat :=
  match l with [] => None | (m, i) :: l => if str_eqb n m then Some i else aget n l end.

Section Empty.
Variable class : nat -> cinfo.

(** [attrs_found] (63-70), each element already as its type hint (81) *)
Definition attrs_found (l : list nat) (n : str) : list hint :=
  flat_map (fun c => match c_attr (class c) n with
                     | None => if c_own (class c) (s2l "__getattr__") then [One Any] else []
                     | Some None => [One Any]
                     | Some (Some h) => [h]
                     end) l.

(** EmptyVal.__getattr__ (59-86) *)
Definition get_attr (i : nat) (n : str) (s : estate) : eres * estate :=
  match nth_error (objs s) i with
  | None => (EErr ENoObj, s)
  | Some o =>
      match e_key o with
      | KAny => (EOk i, s)
      | KTup l =>
          match aget n (e_attrs o) with
          | Some j => (EOk j, s)
          | None =>
              match attrs_found l n with
              | [] => (EErr ENoSuchAttribute, s)
              | found =>
                  let (j, s1) := placeholder (Many (itertypes found)) s in
                  (EOk j, {| objs := upd_nth i {| e_key := e_key o; e_attrs := e_attrs o ++ [(n, j)]; e_member := e_member o |} (objs s1);
                             vals := vals s1 |})
              end
          end
      end
  end.

(** [coll_types] (111-117) *)
Fixpoint coll_types (l : list nat) : eerr + list hint :=
  match l with
  | [] => inr []
  | c :: l =>
      match c_item (class c) with
      | Some (Err e) => inl (EUser e)
      | Some (Ok h) => match coll_types l with inl e => inl e | inr r => inr (h :: r) end
      | None => if c_own (class c) (s2l "__getitem__")
                then match coll_types l with inl e => inl e | inr r => inr (One Any :: r) end
                else coll_types l
      end
  end.

(** EmptyVal.__getitem__ (105-125); an index is a slice or something else. *)
Inductive index := Slice | Index (k : nat).
Definition get_item (i : nat) (ix : index) (s : estate) : eres * estate :=
  match nth_error (objs s) i with
  | None => (EErr ENoObj, s)
  | Some o =>
      match e_key o with
      | KAny => (EOk i, s)
      | KTup l =>
          match ix with
          | Slice => (EOk i, s)
          | Index _ =>
              match e_member o with
              | Some j => (EOk j, s)
              | None =>
                  match coll_types l with
                  | inl e => (EErr e, s)
                  | inr [] => (EErr ENotSubscriptable, s)
                  | inr found =>
                      let (j, s1) := placeholder (Many (itertypes found)) s in
                      (EOk j, {| objs := upd_nth i {| e_key := e_key o; e_attrs := e_attrs o; e_member := Some j |} (objs s1);
                                 vals := vals s1 |})
                  end
              end
          end
      end
  end.

(** EmptyVal.__call__ (97-103) *)
Definition call (i : nat) (s : estate) : eres * estate :=
  match nth_error (objs s) i with
  | None => (EErr ENoObj, s)
  | Some o =>
      match e_key o with
      | KAny => (EOk i, s)
      | KTup l =>
          if existsb (fun c => c_own (class c) (s2l "__call__")) l
          then let (j, s1) := placeholder (One Any) s in (EOk j, s1)
          else (EErr ENotCallable, s)
      end
  end.

(** EmptyVal.__setattr__ (88-92): the three fields can be assigned.  What is assigned to
    [_member_type] here is another placeholder. *)
Inductive assign := AMember (j : nat) | AName (n : str) | AItem (ix : index).
Definition set_ (i : nat) (a : assign) (s : estate) : eres * estate :=
  match nth_error (objs s) i with
  | None => (EErr ENoObj, s)
  | Some o =>
      match a with
      | AMember j => (EOk i, {| objs := upd_nth i {| e_key := e_key o; e_attrs := e_attrs o; e_member := Some j |} (objs s); vals := vals s |})
      | AName _ | AItem _ => (EErr EBadAssignment, s)
      end
  end.

(** What a program can do with placeholders, short of assigning to their fields. *)
Inductive eop := Ask (h : hint) | Attr (i : nat) (n : str) | Item (i : nat) (ix : index) | Call (i : nat)
               | Set_ (i : nat) (n : str) | SetItem (i : nat) (ix : index).
Definition estep (o : eop) (s : estate) : eres * estate :=
  match o with
  | Ask h => let (i, s1) := placeholder h s in (EOk i, s1)
  | Attr i n => get_attr i n s
  | Item i ix => get_item i ix s
  | Call i => call i s
  | Set_ i n => set_ i (AName n) s
  | SetItem i ix => set_ i (AItem ix) s
  end.
Fixpoint ehist (os : list eop) (s : estate) : estate :=
  match os with [] => s | o :: os => ehist os (snd (estep o s)) end.
End Empty.

(** EmptyAuxProp (property/__init__.py:311-321): the accessor [x0] of the attribute [x]
    (called [n]) with the value type [h] ([None]: false, so [any]).  [prop.__get__(obj)] is
    taken to be [obj.n]: [__get__] finds a set slot in [__dict__] as attribute access does
    (280-287). *)
Inductive aux_val (A : Type) := AVal (v : pval A) | AEmpty (i : nat).
Arguments AVal {A}. Arguments AEmpty {A}.
Definition aux_get {A W} (C : cls A W) (fuel : nat) (n : str) (h : option hint) (st : state A W) (s : estate)
    : res (aux_val A) * state A W * estate :=
  match getattr A W C fuel n st with
  | (Ok v, st1) => (Ok (AVal v), st1, s)
  | (Err e, st1) =>
      if is_attr_err e
      then let (i, s1) := placeholder (match h with Some h => h | None => One Any end) s in (Ok (AEmpty i), st1, s1)
      else (Err e, st1, s)
  end.
