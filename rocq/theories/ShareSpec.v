(** What one would say of field selectors without thinking of lists: each has a path. *)
From Coq Require Import List Arith NArith ZArith Bool.
From Verif Require Import Prelude SelPathModel FSModel ShareModel.
Import ListNotations.

(** The paths of all selectors, in the order of their creation. *)
Notation paths := (list (list raw)).

(** An operation makes a new selector with a path, makes the path of one selector longer, or raises. *)
Inductive effect := Makes (l : list raw) | Lengthens (o : nat) (l : list raw) | Raises (e : exn).

(** No element is rejected by the constructor. *)
Definition acceptable (l : list raw) : Prop := ~ In (Bad true) l.

Inductive means (ps : paths) : op -> effect -> Prop :=
| m_new l : acceptable l -> means ps (New l) (Makes l)
| m_new_bad l : ~ acceptable l -> means ps (New l) (Raises ValueErr)
| m_from o l : nth_error ps o = Some l -> means ps (From o) (Makes l)
| m_property o l n : nth_error ps o = Some l -> means ps (AddProperty o (Good (EStr n))) (Lengthens o [Good (EStr n)])
| m_property_bad o x : (forall n, x <> Good (EStr n)) -> means ps (AddProperty o x) (Raises ValueErr)
| m_index o l i : nth_error ps o = Some l -> means ps (AddIndex o (Good (EInt i))) (Lengthens o [Good (EInt i)])
| m_index_bad o x : (forall i, x <> Good (EInt i)) -> means ps (AddIndex o x) (Raises ValueErr)
| m_full o l : nth_error ps o = Some l -> means ps (AddFull o) (Lengthens o [Good ENone])
| m_extend o p l m : nth_error ps o = Some l -> nth_error ps p = Some m -> means ps (Extend o p) (Lengthens o m)
| m_plus_one o l e : nth_error ps o = Some l -> e <> ENone -> means ps (Plus o (One e)) (Makes (l ++ [Good e]))
| m_plus_none o l : nth_error ps o = Some l -> means ps (Plus o (One ENone)) (Raises TypeErr)
| m_plus_many o l m : nth_error ps o = Some l -> acceptable m -> means ps (Plus o (Many m)) (Makes (l ++ m))
| m_plus_many_bad o l m : nth_error ps o = Some l -> ~ acceptable m -> means ps (Plus o (Many m)) (Raises ValueErr)
| m_plus_sel o p l m : nth_error ps o = Some l -> nth_error ps p = Some m -> means ps (Plus o (Sel p)) (Makes (l ++ m))
| m_plus_alien o l : nth_error ps o = Some l -> means ps (Plus o Alien) (Raises TypeErr)
| m_slice o l lo hi : nth_error ps o = Some l -> means ps (Slice o lo hi) (Makes (py_slice l lo hi))
| m_pickled o l : nth_error ps o = Some l -> means ps (Pickled o) (Makes l).

(** [ps'] is [ps] but for the selector [o]. *)
Definition only (o : nat) (ps ps' : paths) : Prop :=
  length ps' = length ps /\ forall p, p <> o -> nth_error ps' p = nth_error ps p.
(** What the effect leaves and answers. *)
Inductive leads (ps : paths) : effect -> paths -> res (option nat) -> Prop :=
| l_makes l : leads ps (Makes l) (ps ++ [l]) (Ok (Some (length ps)))
| l_lengthens o l m ps' : nth_error ps o = Some m -> only o ps ps' -> nth_error ps' o = Some (m ++ l) ->
    leads ps (Lengthens o l) ps' (Ok None)
| l_raises e : leads ps (Raises e) ps (Err e).

(** A program, read that way; it speaks only of selectors which exist, and does not use copy.copy. *)
Inductive says (ps : paths) : list op -> paths -> list (res (option nat)) -> Prop :=
| s_nil : says ps [] ps []
| s_cons x e ps1 r prog ps2 rs :
    means ps x e -> leads ps e ps1 r -> says ps1 prog ps2 rs -> says ps (x :: prog) ps2 (r :: rs).

(** The selectors which an operation speaks of. *)
Definition mentions (x : op) : list nat :=
  match x with
  | New _ => []
  | From o | AddProperty o _ | AddIndex o _ | AddFull o | Slice o _ _ | Pickled o | Copied o => [o]
  | Extend o p | Plus o (Sel p) => [o; p]
  | Plus o _ => [o]
  end.
Definition shallow (x : op) : Prop := match x with Copied _ => True | _ => False end.

(** The path of a selector, as seen from outside. *)
Definition path_of (s : store) (o : nat) (l : list raw) : Prop := list_of s o = Some l.
(** [s] holds just these paths. *)
Definition holds (s : store) (ps : paths) : Prop :=
  length (s_attr s) = length ps /\ forall o, o < length ps -> list_of s o = nth_error ps o.
