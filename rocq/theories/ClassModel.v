(** Classes of records and their attributes: what Python finds when an attribute of a class is looked up, next to
    what the library has in [properties].  Each class is declared by RecordMeta.__new__ ([MetaModel.declare_type],
    normalize/record/meta.py:27-99) or is a plain Python class (a mixin); the order of its bases' classes is Python's
    C3 linearisation ([TraitModel.c3_merge]).

    Simplifications: class attributes are not assigned or deleted after the class statement; a plain class has no
    attribute called [properties]; the metaclass of a class
    with a record class among its bases is RecordMeta (it is inherited), that of any other is [type]. *)
From Coq Require Import String List NArith Bool Arith.
Import ListNotations.
From Verif Require Import Prelude TraitModel MetaModel.
Local Open Scope list_scope.

(** [k_props]: the attribute [properties]; [None]: not a record class, it has none.  [k_attrs]: the class's
    own [__dict__]. *)
Record klass := Klass { k_id : nat; k_mro : list nat; k_props : option (list (str * nat)); k_attrs : list (str * attr) }.

(** All classes, newest first; number 0 is [object]. *)
Notation classes := (list klass).
Definition class_no (w : classes) (i : nat) : option klass := find (fun k => Nat.eqb (k_id k) i) w.

(** The method resolution order of a new class ([type.__new__], called in meta.py:94). *)
Definition linearise (self : nat) (bases : list klass) : option (list nat) :=
  let ls := map k_mro bases ++ [map k_id bases] in
  match c3_merge (S (length (concat ls))) ls with Some l => Some (self :: l) | None => None end.

(** What meta.py:84-92 puts into the class besides the body and the accessors. *)
Definition specials : list str := map s2l ["primary_key"; "properties"; "_sorted_properties"; "eager_properties"]%string.

Definition is_record (k : klass) : bool := match k_props k with Some _ => true | None => false end.

(** A class statement for a record class.  [h]: the property objects at that time.  [None]: an exception. *)
Definition new_record (w : classes) (h : nat -> pobj) (bases : list klass) (attrs : list (str * attr)) (pk : list pk_elem)
  : option klass :=
  match declare_type h (length w) (map k_props bases) attrs pk with
  | (_, MErr _) => None
  | (_, MOk c) =>
      match linearise (length w) bases with
      | None => None
      | Some mro => Some (Klass (length w) mro (Some (c_props c)) (dupdate (c_attrs c) (map (fun n => (n, AOther)) specials)))
      end
  end.
(** A class statement for any other class. *)
Definition new_plain (w : classes) (bases : list klass) (attrs : list (str * attr)) : option klass :=
  if existsb is_record bases then None
  else match linearise (length w) bases with
       | None => None
       | Some mro => Some (Klass (length w) mro None attrs)
       end.

(** _PyType_Lookup: the first class of the MRO that has the name in its [__dict__]. *)
Definition own (w : classes) (n : str) (i : nat) : option attr :=
  match class_no w i with Some k => dget n (k_attrs k) | None => None end.
Definition lookup_attr (w : classes) (k : klass) (n : str) : option attr := firstm (own w n) (k_mro k).
