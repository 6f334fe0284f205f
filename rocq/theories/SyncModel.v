(** Bringing a record up to date: the paths of a comparison (normalize/diff.py:974-1071, [DiffModel])
    made into a MultiFieldSelector (selector.py:565-612, [MFSModel]) by which the record is patched
    (selector.py:870-904, [MFSTreeModel]), as doc/selector.rst:6-31 proposes. *)
From Coq Require Import List Arith NArith ZArith Bool.
From Verif Require Import Prelude SelPathModel FSModel PySeq MFSModel TreeModel MFSTreeModel ValModel SeqDiffModel DiffModel.
Import ListNotations.

Section Sync.
Context {A C T : Type}.
Notation val := (val A C).
(** The objects of [TreeModel], with the values of [ValModel] as atoms.  Simplification: only records are
    taken apart; what else is in a slot (text, numbers, lists, collections) is moved as a whole. *)
Notation obj := (obj val C).

Fixpoint enc (v : val) : obj :=
  match v with
  | VRec c sl => ORec c (map (fun kv => (fst kv, enc (snd kv))) sl)
  | _ => OAtom v
  end.
(** An object as the comparison sees it.  (Lists and dicts of [TreeModel] do not occur.) *)
Fixpoint dec (o : obj) : val :=
  match o with
  | ORec c sl => VRec c (map (fun kv => (fst kv, dec (snd kv))) sl)
  | OAtom v => v
  | _ => VNothing
  end.

Section Update.
(** as in [TreeModel] *)
Variable a_none : val.
Variable a_key : elem -> val.
Variable a_str : val -> bool.
Variable a_indexable : val -> bool.
Variable a_item : val -> elem -> res val.
Variable a_attr : val -> str -> option val.
Variable a_iter : val -> res (list val).
Variable a_len : val -> Z.
Variable unset : C -> str -> option val.
Variable store : C -> str -> obj -> res obj.
Variable erase : C -> str -> bool -> option exn.
Variable istore : C -> obj -> res obj.
Variable itemtype : C -> res T.
Variable valuetype : C -> str -> res T.
Variable call : T -> option (str * obj) -> res obj.
Variable ord : list arg -> list arg.
Notation patch := (patch a_none a_key a_str a_indexable a_item a_attr a_iter a_len unset store erase istore itemtype valuetype call).

(** [MultiFieldSelector( *(x.base for x in diff)).patch(target, source)] *)
Definition base_paths (l : list dentry) : list (list elem) := map (fun e => snd (fst e)) l.
Definition update (l : list dentry) (target source : obj) : option exn * obj :=
  match MFSModel.make ord (map AFS (base_paths l)) with
  | Err e => (Some e, target)
  | Ok m => patch m target source
  end.
End Update.
End Sync.
