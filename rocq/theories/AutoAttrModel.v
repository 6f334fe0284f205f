(** Model of attribute access to AutoJsonRecord: normalize/record/json.py:585-602, on top of the
    attributes of [PropModel]. *)
From Coq Require Import String List NArith Bool.
From Verif Require Import Prelude PropModel.
Import ListNotations.
Local Open Scope list_scope.

Section AutoAttr.
Variable A W : Type.
Notation V := (pval A).
Notation state := (state A W).
Variable C : cls A W.                       (* type(self).properties *)
Variable class_attr : str -> option V.      (* other attributes of the class: methods etc. *)
Variable as_dict : V -> option (list (str * V)).   (* a dict, as the value of unknown_json_keys *)
Variable fuel : nat.

Definition unknown : str := s2l "unknown_json_keys".
Definition declared (n : str) : bool :=
  match find A W n C with Some _ => true | None => false end.

Fixpoint assoc (n : str) (d : list (str * V)) : option V :=
  match d with
  | [] => None
  | (m, v) :: t => if str_eqb m n then Some v else assoc n t
  end.

(** object.__getattribute__: properties and the instance's [__dict__] as in [PropModel], else
    the other attributes of the class (none of them data descriptors) *)
Definition plain_getattr (n : str) (st : state) : res V * state :=
  match find A W n C, slots A W st n, class_attr n with
  | None, None, Some v => (Ok v, st)
  | _, _, _ => getattr A W C fuel n st
  end.

(** reading a declared property: on AttributeError Python calls __getattr__ (json.py:585-587),
    which asks the property again *)
Definition read_declared (n : str) (st : state) : res V * state :=
  match plain_getattr n st with
  | (Err e, st1) => if is_attr_err e then getattr A W C fuel n st1 else (Err e, st1)
  | r => r
  end.

(** [self.unknown_json_keys[attr]] (json.py:589, 595) *)
Definition lookup_unknown (n : str) (st : state) : res V * state :=
  match read_declared unknown st with
  | (Ok d, st1) =>
      (match as_dict d with
       | Some kv => match assoc n kv with Some v => Ok v | None => Err KeyErr end
       | None => Err TypeErr
       end, st1)
  | r => r
  end.

(** [self.n] with AutoJsonRecord.__getattr__ (json.py:585-589) *)
Definition auto_getattr (n : str) (st : state) : res V * state :=
  if declared n then read_declared n st
  else match plain_getattr n st with
       | (Err e, st1) => if is_attr_err e then lookup_unknown n st1 else (Err e, st1)
       | r => r
       end.

(** [self.n = v]: AutoJsonRecord.__setattr__ (json.py:591-595).  The property's [__set__] is
    called without the value: TypeError; a property without [__set__]: AttributeError.
    An undeclared name is only looked up. *)
Definition auto_setattr (n : str) (v : V) (st : state) : res unit * state :=
  match find A W n C with
  | Some p => (Err (match p_set A W p with Unsafe => AttrErr | _ => TypeErr end), st)
  | None =>
      match lookup_unknown n st with
      | (Ok _, st1) => (Ok tt, st1)
      | (Err e, st1) => (Err e, st1)
      end
  end.

(** [del self.n]: AutoJsonRecord.__delattr__ (json.py:597-601) takes a second argument that
    Python does not pass: TypeError. *)
Definition auto_delattr (n : str) (st : state) : res unit * state := (Err TypeErr, st).

(** [hasattr(self, n)]: only AttributeError means no *)
Definition auto_hasattr (n : str) (st : state) : res bool :=
  match fst (auto_getattr n st) with
  | Ok _ => Ok true
  | Err e => if is_attr_err e then Ok false else Err e
  end.

Inductive act := ASet (n : str) (v : V) | ADel (n : str).
Fixpoint acts (l : list act) (st : state) : list (res unit) * state :=
  match l with
  | [] => ([], st)
  | a :: t =>
      let (r, st1) := match a with ASet n v => auto_setattr n v st | ADel n => auto_delattr n st end in
      let (rs, st2) := acts t st1 in (r :: rs, st2)
  end.
End AutoAttr.
