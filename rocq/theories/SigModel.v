(** Signatures of Python functions, as far as the library looks at them
    (inspect.getfullargspec in normalize/property/__init__.py:121-174, 477-492 and
    normalize/record/json.py:161-191), and the calls which it makes accordingly
    (property/__init__.py:248-257, diff.py:288-301, record/json.py:170-189).

    Simplifications: parameters have names and may have defaults; annotations are left out.  What the function
    does when it has its arguments is not modelled, neither is the warning for a function of one argument which is
    not called self. *)
From Coq Require Import String List NArith Bool Arith.
Import ListNotations.
From Verif Require Import Prelude.
Local Open Scope list_scope.

(** The parameters of a function definition (Python language reference 8.7). *)
Record sig := Sig {
  s_posonly : list str;             (* before [/] *)
  s_args : list str;                (* positional or keyword *)
  s_defaults : nat;                 (* so many of the last of these have defaults *)
  s_varargs : bool;                 (* [*args] *)
  s_kwonly : list (str * bool);     (* after [*]; [true]: has a default *)
  s_varkw : bool                    (* [**kwargs] *)
}.
Definition positional (s : sig) : list str := s_posonly s ++ s_args s.
(** Distinct names; no more defaults than parameters (else it is a SyntaxError). *)
Definition wf_sig (s : sig) : Prop :=
  NoDup (positional s ++ map fst (s_kwonly s)) /\ s_defaults s <= length (positional s).

Definition known (n : str) (l : list str) : bool := existsb (str_eqb n) l.

Section Call.
Variable V : Type.

(** ** Calls *)
(** What the parameters are given; those not in [b_got] have their defaults. *)
Record binding := Binding {
  b_got : list (str * V);
  b_surplus : list V;               (* into [*args] *)
  b_extra : list (str * V)          (* into [**kwargs] *)
}.
Definition bound_to (n : str) (e : list (str * V)) : bool := existsb (fun a => str_eqb (fst a) n) e.

(** CPython's initialize_locals (Python/ceval.c of 3.11): positional arguments in order, *)
Fixpoint take_pos (params : list str) (pos : list V) : list (str * V) * list V :=
  match params, pos with
  | p :: params, v :: pos => let (e, rest) := take_pos params pos in ((p, v) :: e, rest)
  | [], rest => ([], rest)
  | _, [] => ([], [])
  end.
(** then keywords: one that names a parameter which is not positional-only goes there, if nothing is there; any
    other needs [**kwargs]; *)
Fixpoint take_kw (s : sig) (e : list (str * V)) (kw : list (str * V)) : option (list (str * V) * list (str * V)) :=
  match kw with
  | [] => Some (e, [])
  | (n, v) :: kw =>
      if known n (s_args s ++ map fst (s_kwonly s)) then
        if bound_to n e then None else take_kw s (e ++ [(n, v)]) kw
      else if s_varkw s then
        match take_kw s e kw with Some (e, x) => Some (e, (n, v) :: x) | None => None end
      else None
  end.
(** then it is checked that nothing is left over and nothing missing. *)
Definition required (s : sig) : list str := firstn (length (positional s) - s_defaults s) (positional s).
Definition bind_args (s : sig) (pos : list V) (kw : list (str * V)) : option binding :=
  let (e, rest) := take_pos (positional s) pos in
  match take_kw s e kw with
  | None => None
  | Some (e, x) =>
      match rest, s_varargs s with
      | _ :: _, false => None
      | _, _ =>
          if forallb (fun p => bound_to p e) (required s) &&
             forallb (fun p => snd p || bound_to (fst p) e) (s_kwonly s)
          then Some (Binding e rest x) else None
      end
  end.

(** ** Callables *)
Inductive callable :=
| Plain (s : sig)              (* functions, static methods, functions of the classes themselves; builtins with a
                                  text signature *)
| Bound (s : sig) (self : V)   (* called with one more argument in front: bound methods and class methods; classes with
                                  an [__init__] written in Python (the new instance); objects of a class with [__call__] *)
| NoSig.                       (* builtins without a signature, like [dict]; calls are not modelled *)
Definition call (c : callable) (pos : list V) (kw : list (str * V)) : option binding :=
  match c with
  | Plain s => bind_args s pos kw
  | Bound s self => bind_args s (self :: pos) kw
  | NoSig => None
  end.
(** inspect.getfullargspec: [skip_bound_arg=False], the argument in front is listed, too
    ([None]: TypeError "unsupported callable"). *)
Definition getfullargspec (c : callable) : option sig :=
  match c with Plain s | Bound s _ => Some s | NoSig => None end.

(** Property.func_info (property/__init__.py:159-172) *)
Definition self_s := s2l "self".
Definition func_info (s : sig) : bool * nat :=
  match positional s with
  | [] => (false, 0)
  | a :: _ =>
      let n := length (positional s) - s_defaults s in
      match n with
      | 0 => (false, 0)
      | Datatypes.S m => if str_eqb a self_s then (true, m) else (false, n)
      end
  end.

(** ** default= *)
Inductive decl (X : Type) := Accepted (x : X) | Refused | Unsupported.
(** Property.__init__ (property/__init__.py:121-149): whether the default is a method; [Refused]:
    DefaultSignatureError, [Unsupported]: TypeError. *)
Definition declare_default (c : callable) : decl bool :=
  match getfullargspec c with
  | None => Unsupported _
  | Some s =>
      let (is_method, nargs) := func_info s in
      match nargs with
      | 0 => Accepted _ is_method
      | 1 => if is_method then Refused _ else Accepted _ true
      | _ => Refused _
      end
  end.
(** Property.get_default (property/__init__.py:248-254), for a callable default *)
Definition call_default (c : callable) (is_method : bool) (obj : V) : option binding :=
  call c (if is_method then [obj] else []) [].

(** ** compare_as= *)
(** DiffasProperty.__init__ (property/__init__.py:484-492); [Refused]: CompareAsSignatureError *)
Definition declare_compare (c : callable) : decl (bool * nat) :=
  match getfullargspec c with
  | None => Unsupported _
  | Some s => let info := func_info s in if Nat.ltb 1 (snd info) then Refused _ else Accepted _ info
  end.
(** DiffOptions.normalize_object_slot (diff.py:293-300) *)
Definition call_compare (c : callable) (info : bool * nat) (obj value : V) : option binding :=
  call c ((if fst info then [obj] else []) ++ (match snd info with 0 => [] | _ => [value] end)) [].

(** ** json_data() *)
Definition extraneous_s := s2l "extraneous".
(** Types are numbers.  An object: its type, and its attribute json_data, if it has one that is callable. *)
Record object := Obj { o_type : nat; o_json_data : option callable }.
Inductive result :=
| Called (b : binding)
| BadCall            (* TypeError from the call *)
| NoSpec             (* TypeError "unsupported callable" *)
| NoEntry            (* KeyError *)
| NoAttribute        (* AttributeError *)
| Default.           (* to_json(x, extraneous) *)
(** The caches [has_json_data], [json_data_takes_extraneous] (record/json.py:163-164); newest entries first. *)
Record caches := Caches { has : list (nat * bool); takes_extraneous : list (nat * bool) }.
Definition find_type (t : nat) (l : list (nat * bool)) : option bool :=
  match find (fun e => Nat.eqb (fst e) t) l with Some e => Some (snd e) | None => None end.
Definition takes (s : sig) : bool :=
  known extraneous_s (positional s) || match s_kwonly s with [] => false | _ => true end.
Definition call_json (c : callable) (with_it : bool) (extraneous : V) : result :=
  match call c [] (if with_it then [(extraneous_s, extraneous)] else []) with Some b => Called b | None => BadCall end.
(** _json_data (record/json.py:167-191) *)
Definition json_data (m : caches) (x : object) (extraneous : V) : caches * result :=
  match find_type (o_type x) (has m) with
  | Some true =>
      (m, match find_type (o_type x) (takes_extraneous m) with
          | None => NoEntry
          | Some t => match o_json_data x with Some c => call_json c t extraneous | None => NoAttribute end
          end)
  | _ =>
      match o_json_data x with
      | None => (Caches ((o_type x, false) :: has m) (takes_extraneous m), Default)
      | Some c =>
          let m := Caches ((o_type x, true) :: has m) (takes_extraneous m) in
          match getfullargspec c with
          | None => (m, NoSpec)
          | Some s => (Caches (has m) ((o_type x, takes s) :: takes_extraneous m), call_json c (takes s) extraneous)
          end
      end
  end.
Fixpoint json_datas (m : caches) (l : list (object * V)) : list result :=
  match l with
  | [] => []
  | (x, e) :: l => let (m, r) := json_data m x e in r :: json_datas m l
  end.
End Call.
Arguments take_pos {V}. Arguments take_kw {V}. Arguments bind_args {V}. Arguments Binding {V}. Arguments b_got {V}.
Arguments b_surplus {V}. Arguments b_extra {V}. Arguments bound_to {V}.
Arguments Plain {V}. Arguments Bound {V}. Arguments NoSig {V}. Arguments call {V}. Arguments getfullargspec {V}.
Arguments declare_default {V}. Arguments call_default {V}. Arguments declare_compare {V}. Arguments call_compare {V}.
Arguments Accepted {X}. Arguments Refused {X}. Arguments Unsupported {X}.
Arguments Obj {V}. Arguments o_type {V}. Arguments o_json_data {V}. Arguments Called {V}. Arguments BadCall {V}.
Arguments NoAttribute {V}. Arguments NoSpec {V}. Arguments NoEntry {V}. Arguments Default {V}. Arguments call_json {V}. Arguments json_data {V}.
Arguments json_datas {V}.
