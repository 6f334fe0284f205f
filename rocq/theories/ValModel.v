(** Values as the comparing, hashing and converting parts of the library see them. *)
From Coq Require Import List NArith ZArith Bool Lia.
From Verif Require Import Prelude SelPathModel FSModel PySeq MFSModel.
Import ListNotations.

(** Exceptions not listed in Prelude: exc.py:177-182, 258-271. *)
Definition IdentityCrisis : exn := OtherErr 1.
Definition KeyHashError : exn := OtherErr 2.
Definition CollItemTypeUnsupported : exn := OtherErr 3.

Section Val.
(** [A]: opaque values (numbers, dates, sets, ...); [C]: Record classes. *)
Context {A C : Type}.

(** Simplifications: an object is a tree; the slots of a record or collection are the
    attributes that can be read, with the values read (defaults and lazy values included);
    keys of dicts are text or ints. *)
Inductive val : Type :=
| VNothing                                   (* diff._nothing *)
| VNone
| VText (s : str)
| VAtom (a : A)
| VSeq (tup : bool) (l : list val)           (* tuple or list *)
| VMap (l : list (elem * val))               (* dict, in order of insertion *)
| VRec (c : C) (sl : list (str * val))       (* a Record which is not a Collection *)
| VLC (c : C) (sl : list (str * val)) (l : list val)            (* ListCollection *)
| VDC (c : C) (sl : list (str * val)) (l : list (elem * val)).  (* DictCollection *)

(** A property, as far as comparing is concerned (property/__init__.py:54-157):
    [valuetype] a type or a tuple of types, each a Record class or not;
    [compare_as] as a function of the object and the value (property/__init__.py:474-495,
    diff.py:274-282). *)
Record prop : Type := mkProp {
  p_name : str;
  p_extraneous : bool;
  p_valuetype : option (list (option C));
  p_compare_as : option (val -> val -> val)
}.

Inductive ckind : Type := KRec | KList | KDict.
(** [itemtype] of a collection class: a tuple, a Record class, another class. *)
Inductive itype : Type := ITuple | IRec (c : C) | IPlain.

(** What the metaclass and the class statement provide (record/meta.py:27-99,
    coll.py:63-84): the kind of class; [properties] in order of definition; [primary_key];
    [itemtype]; [compare_item_as], if any; [coerce_value] (coll.py:134-150). *)
Record classes : Type := mkClasses {
  kind : C -> ckind;
  props : C -> list prop;
  pkey : C -> list prop;
  item : C -> itype;
  item_as : C -> option (val -> val);
  coerce : C -> val -> res val
}.

(** Induction for the nested type *)
Section Ind.
Variable P : val -> Prop.
Hypothesis HNothing : P VNothing.
Hypothesis HNone : P VNone.
Hypothesis HText : forall s, P (VText s).
Hypothesis HAtom : forall a, P (VAtom a).
Hypothesis HSeq : forall b l, Forall P l -> P (VSeq b l).
Hypothesis HMap : forall l, Forall (fun kv => P (snd kv)) l -> P (VMap l).
Hypothesis HRec : forall c sl, Forall (fun kv => P (snd kv)) sl -> P (VRec c sl).
Hypothesis HLC : forall c sl l, Forall (fun kv => P (snd kv)) sl -> Forall P l -> P (VLC c sl l).
Hypothesis HDC : forall c sl l, Forall (fun kv => P (snd kv)) sl -> Forall (fun kv => P (snd kv)) l -> P (VDC c sl l).

Fixpoint val_ind' (v : val) : P v :=
  let list_ind := (fix go (l : list val) : Forall P l :=
      match l with [] => Forall_nil _ | x :: t => Forall_cons _ (val_ind' x) (go t) end) in
  let pair_ind := fun K => (fix go (l : list (K * val)) : Forall (fun kv => P (snd kv)) l :=
      match l with [] => Forall_nil _ | x :: t => Forall_cons _ (val_ind' (snd x)) (go t) end) in
  match v with
  | VNothing => HNothing
  | VNone => HNone
  | VText s => HText s
  | VAtom a => HAtom a
  | VSeq b l => HSeq b l (list_ind l)
  | VMap l => HMap l (pair_ind elem l)
  | VRec c sl => HRec c sl (pair_ind str sl)
  | VLC c sl l => HLC c sl l (pair_ind str sl) (list_ind l)
  | VDC c sl l => HDC c sl l (pair_ind str sl) (pair_ind elem l)
  end.
End Ind.

(** [type(v)] where it is a Record class *)
Definition class_of (v : val) : option C :=
  match v with VRec c _ | VLC c _ _ | VDC c _ _ => Some c | _ => None end.

(** [getattr(v, name, default)] for the name of a property.  Simplification: builtin values
    have no attributes of that name. *)
Definition slot (v : val) (n : str) : option val :=
  match v with
  | VRec _ sl | VLC _ sl _ | VDC _ sl _ => dict_get str_eqb sl n
  | _ => None
  end.

Definition number {X} (l : list X) : list (elem * X) :=
  combine (map (fun n => EInt (Z.of_nat n)) (seq 0 (length l))) l.

(** The bodies of collections as pairs of key and value: [itertuples()] (coll.py:242, 404-411) *)
Definition tuples (v : val) : option (list (elem * val)) :=
  match v with
  | VLC _ _ l => Some (number l)
  | VDC _ _ l => Some l
  | _ => None
  end.

End Val.
Arguments val : clear implicits.
Arguments prop : clear implicits.
Arguments itype : clear implicits.
Arguments classes : clear implicits.
