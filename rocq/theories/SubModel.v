(** Subtypes: normalize/subtype.py:20-100, and their use as the type of a property
    (normalize/property/__init__.py:146-150).

    Simplifications:
    - types other than subtypes are arbitrary tests of values; [of] must be a type, so
      exc.SubtypeOfWhat (subtype.py:42-43) does not come up;
    - the construction of a common metaclass (47-51) has no influence on the result;
    - no value is an immediate instance of the subtype itself: for those Python's
      [isinstance] answers True without asking [__instancecheck__].  Calling the subtype
      never makes one;
    - predicates are functions of the value that may raise. *)
From Coq Require Import List NArith Bool.
From Verif Require Import Prelude PropModel.
Import ListNotations.

Section Sub.
Variable A : Type.
Variable W : Type.
Notation V := (pval A).

(** [subtype(name, of, where, coerce)] (subtype.py:41, 75-80); a coercion function may
    itself be a subtype, hence [cres]. *)
Inductive styp : Type :=
| SBase (isa : V -> bool)
| SSub (of : styp) (where_ : V -> res bool) (coerce : option (V -> W -> cres A * W)).

(** [__instancecheck__] (subtype.py:27-34): any exception means no. *)
Fixpoint inst (t : styp) (v : V) : bool :=
  match t with
  | SBase isa => isa v
  | SSub of where_ _ =>
      if inst of v then match where_ v with Ok b => b | Err _ => false end else false
  end.

(** [__new__] of the new class (subtype.py:55-73), for the subtype of [of] by [where_] and
    [coerce]. *)
Definition sub_call (of : styp) (where_ : V -> res bool) (coerce : option (V -> W -> cres A * W))
    (v : V) (w : W) : cres A * W :=
  let S := SSub of where_ coerce in
  if inst S v then (CRet v, w)
  else match coerce with
       | Some c =>
           match c v w with
           | (CRet r, w') => if inst S r then (CRet r, w') else (CSubtype r, w')
           | other => other
           end
       | None => (CRaise SubtypeNoCoerce, w)
       end.

(** [Property(isa=S, coerce=c, ...)]: [self.coerce = coerce or isa]
    (property/__init__.py:149). *)
Definition sub_prop (of : styp) (where_ : V -> res bool) (coerce : option (V -> W -> cres A * W))
    (own : option (V -> W -> cres A * W)) (lazy required : bool) (set : setter)
    (check : option (V -> res bool)) (dflt : deflt A W) (v1 : V) (eqv1 : V -> bool) : prop A W :=
  mkProp _ _ lazy set required (Some (inst (SSub of where_ coerce)))
    (match own with Some c => c | None => sub_call of where_ coerce end) check dflt v1 eqv1.
End Sub.
