(** Structured exceptions as Python source: StringFormatException.__repr__ (normalize/exc.py:67-74), and what Python makes of it.
    An exception is its class (whether the module's name ends in ".exc", and the name of the class) with the arguments of its
    constructor, which it keeps (exc.py:36-38); what its message says follows from them (C48).
    Simplifications: as ReprModel for the arguments; [exc.] is read as a prefix of the text, standing for the module; names which
    are keywords of Python count as names. *)
From Coq Require Import String List NArith ZArith Arith Bool.
From Verif Require Import Prelude SelPathModel GenModel PickleModel AutoModel JsonModel ReprModel.
Import ListNotations.
Local Open Scope list_scope.

Record pyexc := Exn { e_exc : bool; e_name : str; e_args : list pyv; e_kwargs : list (str * pyv) }.

Section Repr.
Variable W : world.
Variable printable : N -> bool.
Variable cname : nat -> str.
Variable num_text opaque_text : nat -> str.
Notation repr := (repr W printable cname num_text opaque_text).

(** ["%r" % x]: a tuple is taken as the arguments of the format, of which there must be one (line 71). *)
Definition percent_r (x : pyv) : res str :=
  match x with
  | PTuple [y] => repr y
  | PTuple _ => Err TypeErr
  | _ => repr x
  end.
(** 67-74; keyword arguments are formatted as part of a tuple (line 72) *)
Definition exc_repr (e : pyexc) : res str :=
  do ps <- mapm percent_r (e_args e);
  do ks <- mapm (fun kv => do t <- repr (snd kv); Ok (fst kv ++ s2l "=" ++ t)) (e_kwargs e);
  Ok ((if e_exc e then s2l "exc." else []) ++ e_name e ++ s2l "(" ++ join (ps ++ ks) ++ s2l ")").
End Repr.

Fixpoint strip (p s : str) : option str :=
  match p, s with
  | [], _ => Some s
  | c :: p, d :: s => if N.eqb c d then strip p s else None
  | _ :: _, [] => None
  end.

Section Eval.
Variable W : world.
Variable num_value : str -> option nat.
Variable parse : str -> res pyv.
Variable by_key : list (str * pyv) -> list (str * pyv).
Variable fuel : nat.
Variable scope : str -> option nat.
Notation eval := (eval W parse by_key fuel scope).

(** [eval(text)] of a call of an exception class; OtherErr 75: SyntaxError *)
Definition read_exc (s : str) : out pyexc :=
  let (m, s1) := match strip (s2l "exc.") s with Some r => (true, r) | None => (false, s) end in
  match parse_source num_value s1 with
  | Some (ACall f pos kw) =>
      let* ps := omap eval pos in
      let* ks := omap (fun kv => let* x := eval (snd kv) in Val (fst kv, x)) kw in
      if existsb (fun n => negb (Nat.eqb (List.length (filter (str_eqb n) (map fst kw))) 1)) (map fst kw)
      then Exc [] (OtherErr 75)
      else Val (Exn m f ps ks)
  | _ => Exc [] (OtherErr 75)
  end.
End Eval.
