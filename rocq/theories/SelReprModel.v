(** Selectors as Python source: [FieldSelector.__repr__] (normalize/selector.py:413-415),
    [MultiFieldSelector.__repr__] (771-782), and what Python makes of such source.  The syntax is that of
    [ReprModel]. *)
From Coq Require Import String List NArith ZArith Arith Bool.
From Verif Require Import Prelude SelPathModel FSModel MFSModel ReprModel.
Import ListNotations.
Local Open Scope list_scope.

Section Text.
(** [str.isprintable] of a character beyond ASCII, as in [ReprModel] *)
Variable printable : N -> bool.

(** [repr] of an element: the builtin ones of str, int and None *)
Definition elem_repr (e : elem) : str :=
  match e with
  | EStr s => str_repr printable s
  | EInt i => fmt_int i
  | ENone => s2l "None"
  end.
(** [repr] of a list of elements *)
Definition elems_repr (l : list elem) : str := s2l "[" ++ ReprModel.join (map elem_repr l) ++ s2l "]".

(** selector.py:413-415; [cls]: the name of the class *)
Definition fs_repr (cls : str) (l : list elem) : str := cls ++ s2l "(" ++ elems_repr l ++ s2l ")".

(** selector.py:771-782: the name, then the text of a tuple of lists *)
Definition mfs_repr (m : mfs) : str :=
  s2l "MultiFieldSelector" ++ tuple_text (map elems_repr (iter m)).
End Text.

(** ** Reading it back *)

(** What a name stands for *)
Inductive ctor := CFS | CMFS.
Inductive sel := OneSel (l : list raw) | ManySel (m : mfs).

(** An element of an argument, as [FSModel.raw].  [True] and [False] are ints, equal to 1 and 0.  None:
    floats (whose truth value [ReprModel] does not have) and calls are not modelled. *)
Definition raw_of (e : ast) : option raw :=
  match e with
  | ANone => Some (Good ENone)
  | ABool b => Some (Good (EInt (if b then 1 else 0)))
  | AInt z => Some (Good (EInt z))
  | AStr s => Some (Good (EStr s))
  | AList l | ATuple l => Some (Bad (match l with [] => false | _ => true end))
  | ADict l => Some (Bad (match l with [] => false | _ => true end))
  | ANum _ | ACall _ _ _ => None
  end.
Fixpoint raws_of (l : list ast) : option (list raw) :=
  match l with
  | [] => Some []
  | e :: t => match raw_of e, raws_of t with Some r, Some rs => Some (r :: rs) | _, _ => None end
  end.

(** [FieldSelector(expr)], selector.py:54-83: false arguments make an empty selector; of text, the
    characters; of a dict, the keys.  None: not modelled (see [raw_of]). *)
Definition fs_call (e : ast) : option (res (list raw)) :=
  match e with
  | ANone => Some (Ok [])
  | ABool b => Some (if b then Err TypeErr else Ok [])
  | AInt z => Some (if Z.eqb z 0 then Ok [] else Err TypeErr)
  | AStr s => Some (fs_init (map (fun c => Good (EStr [c])) s))
  | AList l | ATuple l => option_map fs_init (raws_of l)
  | ADict l => Some (fs_init (map (fun kv => Good (EStr (fst kv))) l))
  | ANum _ | ACall _ _ _ => None
  end.

(** The elements, if they are proper ones *)
Fixpoint goods (l : list raw) : option (list elem) :=
  match l with
  | [] => Some []
  | Good e :: t => option_map (cons e) (goods t)
  | Bad _ :: _ => None
  end.

(** The arguments of [MultiFieldSelector], each given to [FieldSelector]: selector.py:576-583.  None: also
    when a selector has improper elements (which [FieldSelector] lets pass when they are false). *)
Fixpoint mfs_args (l : list ast) : option (res (list arg)) :=
  match l with
  | [] => Some (Ok [])
  | e :: t =>
      match fs_call e with
      | None => None
      | Some (Err x) => Some (Err x)
      | Some (Ok rs) =>
          match goods rs, mfs_args t with
          | Some s, Some (Ok args) => Some (Ok (AFS s :: args))
          | Some _, other => other
          | None, _ => None
          end
      end
  end.

Section Eval.
(** iteration order of sets, as in [MFSModel.build] *)
Variable ord : list arg -> list arg.
Variable scope : str -> option ctor.
Variable num_value : str -> option nat.

(** A call, selector.py:54 and 565: one optional parameter [expr]; any number of positional ones.  None:
    the source is not a call of one of the classes, or not modelled. *)
Definition sel_call (e : ast) : option (res sel) :=
  match e with
  | ACall f pos kw =>
      match scope f, pos, kw with
      | Some CFS, [], [] => Some (Ok (OneSel []))
      | Some CFS, [a], [] => option_map (fun r => do l <- r; Ok (OneSel l)) (fs_call a)
      | Some CFS, [], [(k, a)] =>
          if str_eqb k (s2l "expr") then option_map (fun r => do l <- r; Ok (OneSel l)) (fs_call a)
          else Some (Err TypeErr)
      | Some CMFS, _, [] => option_map (fun r => do args <- r; do m <- make ord args; Ok (ManySel m)) (mfs_args pos)
      | Some _, _, _ => Some (Err TypeErr)
      | None, _, _ => None
      end
  | _ => None
  end.

(** [eval(text)] *)
Definition eval_selector (s : str) : option (res sel) :=
  match parse_source num_value s with Some e => sel_call e | None => None end.
End Eval.
