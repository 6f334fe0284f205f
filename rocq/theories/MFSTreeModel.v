(** Multi field selectors applied to objects: get, delete, patch.
    Models normalize/selector.py:785-904. *)
From Coq Require Import List Arith NArith ZArith Bool Lia.
From Verif Require Import Prelude SelPathModel FSModel PySeq MFSModel TreeModel.
Import ListNotations.

(** [has_string], [has_int] (selector.py:601-605) *)
Definition has_string (m : mfs) : bool :=
  existsb (fun ht => match fst ht with EStr _ => true | _ => false end) (heads m).
Definition has_int (m : mfs) : bool :=
  existsb (fun ht => match fst ht with EInt _ => true | _ => false end) (heads m).

(** [sorted(self.heads.items())] where all keys are ints: the keys differ, so the tails are
    never compared. *)
Definition key_leb (a b : elem) : bool :=
  match a, b with EInt i, EInt j => (i <=? j)%Z | _, _ => true end.
Fixpoint insert_head {X} (kx : elem * X) (l : list (elem * X)) : list (elem * X) :=
  match l with
  | [] => [kx]
  | y :: t => if key_leb (fst kx) (fst y) then kx :: l else y :: insert_head kx t
  end.
Fixpoint sort_heads {X} (l : list (elem * X)) : list (elem * X) :=
  match l with [] => [] | x :: t => insert_head x (sort_heads t) end.

Section MFSTree.
Context {A C T : Type}.
Variable a_none : A.
Variable a_key : elem -> A.
Variable a_str : A -> bool.
Variable a_indexable : A -> bool.
Variable a_item : A -> elem -> res A.
Variable a_attr : A -> str -> option A.
Variable a_iter : A -> res (list A).
Variable a_len : A -> Z.
Variable unset : C -> str -> option A.
Variable store : C -> str -> obj A C -> res (obj A C).
Variable erase : C -> str -> bool -> option exn.
Variable istore : C -> obj A C -> res (obj A C).
Variable itemtype : C -> res T.
Variable valuetype : C -> str -> res T.
Variable call : T -> option (str * obj A C) -> res (obj A C).

(** [val is None] *)
Variable a_isnone : A -> bool.
(** [ctor( ** kwargs)] for a record class and for the type of an immutable value;
    [ctor(values=vals)] for a ListCollection, [ctor(pairs)] for a DictCollection. *)
Variable new_rec : C -> list (str * obj A C) -> res (obj A C).
Variable new_atom : A -> list (str * obj A C) -> res (obj A C).
Variable new_list : C -> list (obj A C) -> res (obj A C).
Variable new_dict : C -> list (elem * obj A C) -> res (obj A C).

Notation obj := (obj A C).
Notation attr := (attr a_attr unset).
Notation get := (get a_none a_key a_str a_indexable a_item a_attr a_iter unset).
Notation delete := (delete a_key a_str a_indexable a_item a_attr a_iter unset erase).
Notation post := (post a_key a_str a_indexable a_item a_attr a_iter a_len unset store istore itemtype valuetype call).

Definition is_none (o : obj) : bool := match o with OAtom a => a_isnone a | _ => false end.

(** The keyword arguments (selector.py:834-840); [getattr(obj, head, None)] hides
    AttributeErrors only. *)
Fixpoint kwargs (o : obj) (fs : list (elem * (obj -> res obj))) : res (list (str * obj)) :=
  match fs with
  | [] => Ok []
  | (EStr n, f) :: t =>
      match attr o (EStr n) with
      | Ok v => if is_none v then kwargs o t
                else do v' <- f v; do kw <- kwargs o t; Ok ((n, v') :: kw)
      | Err e => if is_attr_err e then kwargs o t else Err e
      end
  | _ :: _ => Err TypeErr
  end.

(** MultiFieldSelector.get with _get (selector.py:785-841).  [deepcopy] of a tree is the
    tree.  Simplification: the values are computed before the constructor of the collection
    is called, whereas a DictCollection draws them from a generator while it is built. *)
Fixpoint mget (m : mfs) (o : obj) : res obj :=
  match m with
  | Node hs =>
      let fs := map (fun ht => (fst ht, fun x => match snd ht with
                                                | None => Ok x
                                                | Some m' => mget m' x
                                                end)) hs in
      match o with
      | OList c xs =>
          if has_string m then Err TypeErr
          else
            do vs <- match hget ENone fs with
                     | Some f => mapM f xs
                     | None => mapM (fun kf => match fst kf with
                                               | EInt i => do x <- seq_get xs i; snd kf x
                                               | _ => Err TypeErr
                                               end) (sort_heads fs)
                     end;
            match c with None => Ok (OList None vs) | Some c => new_list c vs end
      | ODict c kvs =>
          do kvs' <- match hget ENone fs with
                     | Some f => mapM (fun kv => do v <- f (snd kv); Ok (fst kv, v)) kvs
                     | None => mapM (fun kf => match dict_get elem_eqb kvs (fst kf) with
                                               | Some x => do v <- snd kf x; Ok (fst kf, v)
                                               | None => Err KeyErr
                                               end)
                                 (filter (fun kf => match dict_get elem_eqb kvs (fst kf) with
                                                    | Some _ => true | None => false end) fs)
                     end;
          match c with None => Ok (ODict None kvs') | Some c => new_dict c kvs' end
      | _ =>
          if has_int m || (has_none m && negb (complete m)) then Err TypeErr
          else if has_none m then Ok o
          else do kw <- kwargs o fs;
               match o with
               | ORec c _ => new_rec c kw
               | OAtom a => new_atom a kw
               | _ => Err TypeErr
               end
      end
  end.

(** MultiFieldSelector.delete (selector.py:843-868) *)
Fixpoint check_all (ps : list (list elem)) (o : obj) : option exn :=
  match ps with
  | [] => None
  | p :: t => match get p o with Ok _ => check_all t o | Err e => Some e end
  end.

Fixpoint delete_all (ps : list (list elem)) (o : obj) : option exn * obj :=
  match ps with
  | [] => (None, o)
  | p :: t =>
      match delete p o with
      | (None, o') => delete_all t o'
      | (Some e, o') => if is_fs_exc e then delete_all t o' else (Some e, o')
      end
  end.

Definition mdelete (m : mfs) (force : bool) (o : obj) : option exn * obj :=
  if force then delete_all (MFSModel.iter m) o
  else match check_all (MFSModel.iter m) o with
       | Some e => (Some e, o)
       | None => delete_all (MFSModel.iter m) o
       end.

(** MultiFieldSelector.patch (selector.py:870-904).  Copying a tree gives the same tree, so
    the [copy] argument makes no difference here; without it the values end up shared by
    source and target, which trees cannot express. *)
Fixpoint lift (ps : list (list elem)) (src : obj) : res (list (list elem * option obj)) :=
  match ps with
  | [] => Ok []
  | p :: t =>
      match get p src with
      | Ok v => do l <- lift t src; Ok ((p, Some v) :: l)
      | Err e => if is_attr_err e then do l <- lift t src; Ok ((p, None) :: l) else Err e
      end
  end.

Fixpoint apply_all (l : list (list elem * option obj)) (o : obj) : option exn * obj :=
  match l with
  | [] => (None, o)
  | (p, None) :: t =>
      match delete p o with
      | (None, o') => apply_all t o'
      | (Some e, o') => (Some e, o')
      end
  | (p, Some v) :: t =>
      match post p v o with
      | (Ok _, o') => apply_all t o'
      | (Err e, o') => (Some e, o')
      end
  end.

Definition patch (m : mfs) (target src : obj) : option exn * obj :=
  match lift (MFSModel.iter m) src with
  | Err e => (Some e, target)
  | Ok l => apply_all l target
  end.
End MFSTree.
