(** Records and collections which refer to each other in any way: how deep printing, marshalling out, hashing and comparing
    go.  Record.__repr__ (normalize/record/__init__.py:103-117), ListCollection.__repr__ and DictCollection.__repr__
    (normalize/coll.py:283-290, 415-421), to_json (normalize/record/json.py:192-264), record_id (normalize/identity.py:23-112)
    as called by Record.__hash__, Record.__eq__ (record/__init__.py:119-132) and Collection.__eq__ (coll.py:115-124).
    The result is None if the depth [n] does not suffice: Python raises RecursionError then (each level takes a fixed
    number of its frames).
    Simplifications: properties are typed, not lazy and without conversions of their own; all functions take the properties in the order of
    declaration (some sort them); collections have no properties besides their items, dicts are RecordDicts, and collections
    in keys are not empty (that is KeyHashError, C25); values that are no records or collections are atoms. *)
From Coq Require Import List Arith Bool.
From Verif Require Import Prelude.
Import ListNotations.

Section Cycle.
Context {A : Type}.
Variable atom_eq : A -> A -> bool.

Inductive val := VA (a : A) | VR (r : nat).
Record prop := Prp { p_name : nat; p_extraneous : bool; p_json : bool (* json_name is not None *) }.
Record cls := Cls { c_props : list prop; c_key : list nat (* primary_key *) }.
Inductive node :=
| Rec (c : nat) (slots : list (nat * val))
| Lst (c : nat) (items : list val)
| Dct (c : nat) (items : list (nat * val)).
Variable classes : nat -> cls.
Variable heap : list node.

Fixpoint slot (l : list (nat * val)) (k : nat) : option val :=
  match l with
  | [] => None
  | (j, v) :: l => if Nat.eqb j k then Some v else slot l k
  end.
(** The set slots among the properties [ps] *)
Fixpoint set_slots (ps : list prop) (slots : list (nat * val)) : list (nat * val) :=
  match ps with
  | [] => []
  | p :: ps => match slot slots (p_name p) with Some v => (p_name p, v) :: set_slots ps slots | None => set_slots ps slots end
  end.
Definition number (l : list val) : list (nat * val) := combine (seq 0 (length l)) l.
(** What is looked at in an object, given the properties which are. *)
Definition parts (sel : cls -> list prop) (x : node) : list (nat * val) :=
  match x with
  | Rec c slots => set_slots (sel (classes c)) slots
  | Lst _ items => number items
  | Dct _ items => items
  end.
(** Record.__repr__, record/__init__.py:112-117: all properties *)
Definition all_props (c : cls) : list prop := c_props c.
(** to_json, record/json.py:228-240 *)
Definition json_props (extraneous : bool) (c : cls) : list prop :=
  filter (fun p => (extraneous || negb (p_extraneous p)) && p_json p) (c_props c).
(** record_id, identity.py:68-75: the key, or all which are not extraneous *)
Definition key_props (c : cls) : list prop :=
  match c_key c with
  | [] => filter (fun p => negb (p_extraneous p)) (c_props c)
  | ks => filter (fun p => existsb (Nat.eqb (p_name p)) ks) (c_props c)
  end.
(** Record.__eq__, record/__init__.py:127 *)
Definition eq_props (c : cls) : list prop := filter (fun p => negb (p_extraneous p)) (c_props c).

(** Text, document or tuple, for nested objects *)
Inductive tree := TA (a : A) | TN (c : nat) (l : list (nat * tree)) | TDots | TBad.
Definition class_of (x : node) : nat := match x with Rec c _ | Lst c _ | Dct c _ => c end.
Fixpoint each (f : val -> option tree) (l : list (nat * val)) : option (list (nat * tree)) :=
  match l with
  | [] => Some []
  | (k, v) :: l =>
      match f v with
      | Some t => match each f l with Some ts => Some ((k, t) :: ts) | None => None end
      | None => None
      end
  end.
(** to_json, and record_id: nothing is remembered of the objects which are being done. *)
Fixpoint walk (sel : cls -> list prop) (n : nat) (v : val) : option tree :=
  match v with
  | VA a => Some (TA a)
  | VR r =>
      match n with
      | 0 => None
      | S n =>
          match nth_error heap r with
          | None => Some TBad
          | Some x => option_map (TN (class_of x)) (each (walk sel n) (parts sel x))
          end
      end
  end.
(** How many objects it is called for, counting each call: nothing is remembered of the objects done either *)
Fixpoint calls (sel : cls -> list prop) (n : nat) (v : val) : nat :=
  match v with
  | VA _ => 0
  | VR r =>
      match n with
      | 0 => 1
      | S n =>
          match nth_error heap r with
          | None => 1
          | Some x => 1 + list_sum (map (fun kv => calls sel n (snd kv)) (parts sel x))
          end
      end
  end.
Definition json_of (extraneous : bool) (n : nat) (r : nat) : option tree := walk (json_props extraneous) n (VR r).
Definition id_of (n : nat) (r : nat) : option tree := walk key_props n (VR r).

(** repr: Python's dict.__repr__ (called by DictCollection.__repr__, coll.py:287) prints dots for a dict that is being printed; records and
    ListCollections (which call repr of each item, 419) know no such thing. *)
Fixpoint print (n : nat) (within : list nat) (v : val) : option tree :=
  match v with
  | VA a => Some (TA a)
  | VR r =>
      match n with
      | 0 => None
      | S n =>
          match nth_error heap r with
          | None => Some TBad
          | Some (Dct c items) =>
              if existsb (Nat.eqb r) within then Some TDots
              else option_map (TN c) (each (print n (r :: within)) items)
          | Some x => option_map (TN (class_of x)) (each (print n within) (parts all_props x))
          end
      end
  end.
Definition repr_of (n : nat) (r : nat) : option tree := print n [] (VR r).

(** [==] of the values of the properties [ps]: the first difference ends the loop (record/__init__.py:126-132) *)
Fixpoint slots_eq (eq : val -> val -> option bool) (ps : list prop) (s t : list (nat * val)) : option bool :=
  match ps with
  | [] => Some true
  | p :: ps =>
      match slot s (p_name p), slot t (p_name p) with
      | None, None => slots_eq eq ps s t
      | Some v, Some w =>
          match eq v w with
          | Some true => slots_eq eq ps s t
          | x => x
          end
      | _, _ => Some false
      end
  end.
(** Items of a list or dict: Python takes an object as equal to itself without asking (PyObject_RichCompareBool). *)
Definition same (v w : val) : bool := match v, w with VR r, VR q => Nat.eqb r q | _, _ => false end.
Fixpoint items_eq (eq : val -> val -> option bool) (l m : list val) : option bool :=
  match l, m with
  | [], [] => Some true
  | v :: l, w :: m =>
      if same v w then items_eq eq l m
      else match eq v w with
           | Some true => items_eq eq l m
           | x => x
           end
  | _, _ => Some false
  end.
(** dict: of each item of the one in order, the item of that key in the other *)
Fixpoint dict_eq (eq : val -> val -> option bool) (l m : list (nat * val)) : option bool :=
  match l with
  | [] => Some true
  | (k, v) :: l =>
      match slot m k with
      | None => Some false
      | Some w =>
          if same v w then dict_eq eq l m
          else match eq v w with
               | Some true => dict_eq eq l m
               | x => x
               end
      end
  end.
Fixpoint equal (n : nat) (v w : val) : option bool :=
  match v, w with
  | VA a, VA b => Some (atom_eq a b)
  | VR r, VR q =>
      match n with
      | 0 => None
      | S n =>
          match nth_error heap r, nth_error heap q with
          | Some (Rec c s), Some (Rec d t) => if Nat.eqb c d then slots_eq (equal n) (eq_props (classes c)) s t else Some false
          | Some (Lst c l), Some (Lst d m) =>
              if Nat.eqb c d && Nat.eqb (length l) (length m) then items_eq (equal n) l m else Some false
          | Some (Dct c l), Some (Dct d m) =>
              if Nat.eqb c d && Nat.eqb (length l) (length m) then dict_eq (equal n) l m else Some false
          | _, _ => Some false
          end
      end
  | _, _ => Some false
  end.
End Cycle.
Arguments val : clear implicits.
Arguments node : clear implicits.
Arguments tree : clear implicits.
