(** Generic collection types, named after their item type and kept in a global table:
    normalize/coll.py:451-511 (GENERIC_TYPES, _make_generic, list_of, dict_of). *)
From Coq Require Import String List NArith Arith Bool.
From Verif Require Import Prelude.
Import ListNotations.
Local Open Scope string_scope.
Local Open Scope list_scope.

(** A Python class usable as item type: its identity, [__module__] and [__name__].
    (Two class objects are the same exactly when the whole entry is the same; [__name__]
    and [__module__] are not reassigned.) *)
Record ty := { t_id : nat; t_mod : str; t_name : str }.

(** The container class passed as [coll]: identity, [__name__], the attribute [suffix] if it
    has one (coll.py:208 "Map", 301 "List"; Collection itself has none) and whether it is a
    subclass of Collection (coll.py:489). *)
Record cls := { c_id : nat; c_name : str; c_suffix : option str; c_is_coll : bool }.

(** Key of GENERIC_TYPES, coll.py:490: [(coll.__name__, "%s.%s" % (of.__module__, of.__name__))]. *)
Definition gkey : Type := (str * str)%type.
Definition key_for (of : ty) (c : cls) : gkey :=
  (c_name c, t_mod of ++ s2l "." ++ t_name of).
Definition gkey_eqb (a b : gkey) : bool :=
  str_eqb (fst a) (fst b) && str_eqb (snd a) (snd b).

(** A generic type, coll.py:497-499: a class with bases (coll, _Generic) and attributes
    [itemtype] and [generic_key]. *)
Record gtype := { g_ty : ty; g_coll : cls; g_item : ty; g_key : gkey }.

(** The interpreter state concerned: GENERIC_TYPES (coll.py:451), sys.modules with the
    attributes of every module (objects by identity), and a supply of fresh identities. *)
Record state := {
  st_types : list (gkey * gtype);
  st_mods : list (str * list (str * nat));
  st_next : nat
}.

Fixpoint find_type (k : gkey) (l : list (gkey * gtype)) : option gtype :=
  match l with
  | [] => None
  | (k', g) :: t => if gkey_eqb k k' then Some g else find_type k t
  end.

Fixpoint find_name {A} (n : str) (l : list (str * A)) : option A :=
  match l with
  | [] => None
  | (n', a) :: t => if str_eqb n n' then Some a else find_name n t
  end.

(** [setattr(mod, name, x)] on a module known to be in sys.modules. *)
Fixpoint set_attr (m n : str) (x : nat) (l : list (str * list (str * nat)))
  : list (str * list (str * nat)) :=
  match l with
  | [] => []
  | (m', ns) :: t =>
      if str_eqb m m' then (m', (n, x) :: ns) :: t else (m', ns) :: set_attr m n x t
  end.

(** exc.PropertyNotUnique, exc.py:354 *)
Definition NotUnique : exn := OtherErr 60.

(** [type(generic_name, (coll, _Generic), …)], coll.py:497: the class body is executed by
    RecordMeta.__new__ (record/meta.py:27, 94), so Python sets the new class's [__module__] from
    the globals of that function, not from the item type's module. *)
Definition meta_mod : str := s2l "normalize.record.meta".
Definition new_type (of : ty) (c : cls) (suffix : str) (id : nat) : gtype :=
  {| g_ty := {| t_id := id; t_mod := meta_mod; t_name := t_name of ++ suffix |};
     g_coll := c; g_item := of; g_key := key_for of c |}.

Definition ty_eqb (a b : ty) : bool :=
  Nat.eqb (t_id a) (t_id b) && str_eqb (t_mod a) (t_mod b) && str_eqb (t_name a) (t_name b).

(** coll.py:475-503.  Line by line: the assertion; the lookup by key and comparison of the item
    types; the name (AttributeError when [coll] has no suffix); registration of the new type;
    [sys.modules\[of.__module__\]] (KeyError when absent, after registration); setattr when the
    name is free. *)
Definition make_generic (of : ty) (c : cls) (st : state) : state * res gtype :=
  if negb (c_is_coll c) then (st, Err AssertErr) else
  let k := key_for of c in
  match find_type k (st_types st) with
  | Some g => if ty_eqb (g_item g) of then (st, Ok g) else (st, Err NotUnique)
  | None =>
      match c_suffix c with
      | None => (st, Err AttrErr)
      | Some sfx =>
          let g := new_type of c sfx (st_next st) in
          let st1 := {| st_types := (k, g) :: st_types st;
                        st_mods := st_mods st;
                        st_next := S (st_next st) |} in
          match find_name (t_mod of) (st_mods st) with
          | None => (st1, Err KeyErr)
          | Some ns =>
              match find_name (t_name of ++ sfx) ns with
              | Some _ => (st1, Ok g)
              | None =>
                  ({| st_types := st_types st1;
                      st_mods := set_attr (t_mod of) (t_name of ++ sfx) (t_id (g_ty g))
                                          (st_mods st);
                      st_next := st_next st1 |}, Ok g)
              end
          end
      end
  end.

(** coll.py:297-301 and 203-208 *)
Definition ListColl : cls :=
  {| c_id := 0; c_name := s2l "ListCollection"; c_suffix := Some (s2l "List"); c_is_coll := true |}.
Definition DictColl : cls :=
  {| c_id := 1; c_name := s2l "DictCollection"; c_suffix := Some (s2l "Map"); c_is_coll := true |}.
(** coll.py:506-511 *)
Definition list_of (of : ty) := make_generic of ListColl.
Definition dict_of (of : ty) := make_generic of DictColl.

(** What may happen in a program: requests (also through ListProperty and DictProperty,
    property/coll.py:58), and anything at all happening to sys.modules and the modules. *)
Inductive event :=
| Request (of : ty) (c : cls)
| Modules (m : list (str * list (str * nat)))
| OtherObjects (n : nat). (* n objects created elsewhere *)

(** One answered request. *)
Definition answer : Type := (ty * cls * res gtype)%type.

Fixpoint run (evs : list event) (st : state) : state * list answer :=
  match evs with
  | [] => (st, [])
  | Request of c :: t =>
      let (st1, r) := make_generic of c st in
      let (st2, tr) := run t st1 in (st2, (of, c, r) :: tr)
  | Modules m :: t =>
      run t {| st_types := st_types st; st_mods := m; st_next := st_next st |}
  | OtherObjects n :: t =>
      run t {| st_types := st_types st; st_mods := st_mods st; st_next := n + st_next st |}
  end.

(** GENERIC_TYPES = dict() (coll.py:451); modules and identities as found. *)
Definition start (m : list (str * list (str * nat))) (n : nat) : state :=
  {| st_types := []; st_mods := m; st_next := n |}.
