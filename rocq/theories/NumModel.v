(** Model of the numeric and text property types: normalize/property/types.py:52-102 and
    124-132, as types and coercions of the properties of [PropModel].

    Floats are the IEEE 754 binary64 numbers of the standard library ([SpecFloat]).
    [float(text)], [str(float)] and what other objects answer to [int()], [float()] and
    [str()] are parameters. *)
From Coq Require Import String List NArith ZArith Bool Lia.
From Coq Require Import SpecFloat.
From Verif Require Import Prelude SelPathModel PropModel.
Import ListNotations.

Definition OverflowErr : exn := OtherErr 61.   (* builtin OverflowError *)

Section Num.
Variable O : Type.                         (* objects of all other classes *)
Variable o_integral : O -> bool.           (* isinstance(o, numbers.Integral) *)
Variable o_number : O -> bool.             (* isinstance(o, numbers.Number) *)
Variable o_int : O -> res Z.               (* int(o) *)
Variable o_float : O -> res spec_float.    (* float(o) *)
Variable o_str : O -> res str.             (* str(o) *)
Variable udec : N -> option N.             (* decimal digits outside ASCII *)
Variable uspace : N -> bool.               (* white space outside ASCII *)
Variable lim : option N.                   (* sys.get_int_max_str_digits(); None: no limit *)
Variable ftext : str -> option spec_float. (* float(text); None: ValueError *)
Variable fstr : spec_float -> str.         (* str(float) *)

(** The values.  Simplification: of the sub-classes of int, float and str only bool. *)
Inductive num : Type :=
| VInt (z : Z)
| VBool (b : bool)
| VFloat (f : spec_float)
| VStr (s : str)
| VObj (o : O).

(** ** What Python's [int()] does with text (CPython's PyLong_FromUnicodeObject) *)

(** non-ASCII white space and decimal digits are read as ASCII ones, anything else as "?" *)
Definition to_ascii (c : N) : N :=
  if N.ltb c 127 then c
  else if uspace c then 32%N
  else match udec c with Some d => (48 + d)%N | None => 63%N end.

Definition is_space (c : N) : bool := (N.leb 9 c && N.leb c 13) || N.eqb c 32.
Definition is_dec (c : N) : bool := N.leb 48 c && N.leb c 57.

Fixpoint skip_space (s : str) : str :=
  match s with
  | c :: t => if is_space c then skip_space t else s
  | [] => []
  end.

(** digits, with single underscores between them; [us]: the last character was an
    underscore, or there is none yet.  Gives value, number of digits, and what follows. *)
Fixpoint scan_digits (us : bool) (acc cnt : N) (s : str) : option (N * N * str) :=
  match s with
  | [] => if us then None else Some (acc, cnt, [])
  | c :: t =>
      if N.eqb c 95 then if us then None else scan_digits true acc cnt t
      else if is_dec c then scan_digits false (acc * 10 + (c - 48))%N (cnt + 1)%N t
      else if us then None else Some (acc, cnt, s)
  end.

Definition take_sign (s : str) : bool * str :=
  match s with
  | c :: t => if N.eqb c 43 then (false, t) else if N.eqb c 45 then (true, t) else (false, s)
  | [] => (false, s)
  end.

Definition within (n : N) : bool :=
  match lim with None => true | Some k => N.leb n k end.

Definition int_text (s : str) : res Z :=
  let (neg, s1) := take_sign (skip_space (map to_ascii s)) in
  match scan_digits true 0 0 s1 with
  | None => Err ValueErr
  | Some (n, cnt, rest) =>
      if within cnt && match skip_space rest with [] => true | _ => false end
      then Ok (if neg then - Z.of_N n else Z.of_N n)%Z
      else Err ValueErr
  end.

(** [str(z)] *)
Definition int_str (z : Z) : res str :=
  let s := fmt_int z in
  if within (N.of_nat (length s) - (if Z.ltb z 0 then 1 else 0))%N then Ok s else Err ValueErr.

(** ** int(), float(), str() *)
Definition b2z (b : bool) : Z := if b then 1%Z else 0%Z.

(** [int(f)]: truncation towards zero *)
Definition trunc (f : spec_float) : res Z :=
  match f with
  | S754_zero _ => Ok 0%Z
  | S754_infinity _ => Err OverflowErr
  | S754_nan => Err ValueErr
  | S754_finite s m e =>
      let a := match e with
               | Zneg k => (Zpos m / 2 ^ Zpos k)%Z
               | _ => (Zpos m * 2 ^ e)%Z
               end in
      Ok (if s then - a else a)%Z
  end.

(** [float(z)]: to nearest, ties to even; OverflowError where that is not finite *)
Definition float_int (z : Z) : res spec_float :=
  match binary_normalize 53 1024 z 0 false with
  | S754_infinity _ => Err OverflowErr
  | f => Ok f
  end.

Notation V := (pval num).

Definition py_int (v : V) : res Z :=
  match v with
  | PV (VInt z) => Ok z
  | PV (VBool b) => Ok (b2z b)
  | PV (VFloat f) => trunc f
  | PV (VStr s) => int_text s
  | PV (VObj o) => o_int o
  | PNone | PUnset => Err TypeErr
  end.

Definition py_float (v : V) : res spec_float :=
  match v with
  | PV (VInt z) => float_int z
  | PV (VBool b) => float_int (b2z b)
  | PV (VFloat f) => Ok f
  | PV (VStr s) => match ftext s with Some f => Ok f | None => Err ValueErr end
  | PV (VObj o) => o_float o
  | PNone | PUnset => Err TypeErr
  end.

Definition py_str (v : V) : res str :=
  match v with
  | PV (VInt z) => int_str z
  | PV (VBool b) => Ok (if b then s2l "True" else s2l "False")
  | PV (VFloat f) => Ok (fstr f)
  | PV (VStr s) => Ok s
  | PV (VObj o) => o_str o
  | PNone => Ok (s2l "None")
  | PUnset => Ok (s2l "<not set>")
  end.

(** coerce_number (property/types.py:124-132) *)
Definition coerce_number (v : V) : res num :=
  match v with
  | PV (VStr s) =>
      match int_text s with
      | Ok z => Ok (VInt z)
      | Err ValueErr => do f <- py_float v; Ok (VFloat f)
      | Err e => Err e
      end
  | _ => do f <- py_float v; Ok (VFloat f)
  end.

(** ** The property types (property/types.py:52-102) *)
Inductive ptype := TInt | TLong | TInteger | TNumber | TString | TFloat | TUnicode.

(** [isinstance(value, isa)] *)
Definition isa (t : ptype) (v : V) : bool :=
  match v with
  | PNone | PUnset => false
  | PV x =>
      match t, x with
      | (TInt | TLong), (VInt _ | VBool _) => true
      | TInteger, (VInt _ | VBool _) => true
      | TInteger, VObj o => o_integral o
      | TNumber, (VInt _ | VBool _ | VFloat _) => true
      | TNumber, VObj o => o_number o
      | (TString | TUnicode), VStr _ => true
      | TFloat, VFloat _ => true
      | _, _ => false
      end
  end.

(** the [coerce] of each type; without one it is [isa] itself
    (property/__init__.py:152) *)
Definition coerce (t : ptype) (v : V) : res V :=
  match t with
  | TInt | TLong | TInteger => do z <- py_int v; Ok (PV (VInt z))
  | TNumber => do x <- coerce_number v; Ok (PV x)
  | TString => do s <- py_str v; Ok (PV (VStr s))
  | TFloat => do f <- py_float v; Ok (PV (VFloat f))
  | TUnicode => Ok v
  end.

(** make_property_type (property/__init__.py:498-564): the named type supplies [isa=] and
    [coerce=]; everything else is as declared ([p]). *)
Definition typed {W : Type} (t : ptype) (p : prop num W) : prop num W :=
  mkProp _ _ (p_lazy _ _ p) (p_set _ _ p) (p_required _ _ p) (Some (isa t))
    (fun v w => (match coerce t v with Ok x => CRet x | Err e => CRaise e end, w))
    (p_check _ _ p) (p_default _ _ p) (p_v1none _ _ p) (p_eqv1 _ _ p).

End Num.

Arguments VInt {O} z.
Arguments VBool {O} b.
Arguments VFloat {O} f.
Arguments VStr {O} s.
Arguments VObj {O} o.
