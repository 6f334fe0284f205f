(** Entries about shortened lists, told of the lists as they were *)
From Coq Require Import List Arith ZArith.
From Verif Require Import Prelude SelPathModel FSModel SeqDiffModel DiffModel.
Import ListNotations.

Section Spec.
Context {X : Type}.
Variable keep : X -> bool.
(** the positions, counted from [s], of the items which are kept *)
Fixpoint kept_at (s : nat) (l : list X) : list nat :=
  match l with
  | [] => []
  | x :: t => if keep x then s :: kept_at (S s) t else kept_at (S s) t
  end.
(** where the [k]-th of those kept was in the list *)
Definition origin (l : list X) (e : elem) : elem :=
  match e with EInt z => EInt (Z.of_nat (nth (Z.to_nat z) (kept_at 0 l) 0)) | _ => e end.
Definition path_origin (l : list X) (p : list elem) : list elem := match p with [] => [] | e :: p => origin l e :: p end.
Definition entry_origin (la lb : list X) (e : dentry) : dentry := (fst (fst e), path_origin la (snd (fst e)), path_origin lb (snd e)).
End Spec.
