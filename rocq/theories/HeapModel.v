(** Field selectors applied to objects that may be shared or cyclic: get, put and delete of
    normalize/selector.py:32-39, 120-237, 303-359 on a heap.  [TreeModel] is the same code on trees. *)
From Coq Require Import List Arith NArith ZArith Bool.
From Verif Require Import Prelude SelPathModel FSModel PySeq.
Import ListNotations.

Section Heap.
(** Immutable Python values, and record and collection classes, as in [TreeModel]. *)
Context {A C : Type}.

(** A value is an immutable one or a reference to an object. *)
Inductive val := VA (a : A) | VR (n : nat).
(** An object: a record with the attributes that are set, a list, a dict ([None]: the builtin
    class).  Extra properties of collections are left out, as in [TreeModel]. *)
Inductive cell :=
| HRec (c : C) (sl : list (str * val))
| HList (c : option C) (xs : list val)
| HDict (c : option C) (kvs : list (elem * val)).
(** The objects there are; new ones are added at the end. *)
Definition heap := list cell.

Variable a_none : A.                       (* the value None *)
Variable a_key : elem -> A.                (* a dict key as a value *)
Variable a_str : A -> bool.                (* isinstance(a, str) *)
Variable a_indexable : A -> bool.          (* getattr(a, "__getitem__", False) *)
Variable a_item : A -> elem -> res A.      (* a[s] *)
Variable a_attr : A -> str -> option A.    (* getattr(a, n); AttributeError *)
Variable a_iter : A -> res (list A).       (* list(iter(a)) *)
(** reading an attribute that is not set: a class attribute; lazy properties are left out *)
Variable unset : C -> str -> option A.
(** [setattr] and [Collection.coerce_value]: the new objects they make and the value stored, or
    the exception.  Simplification: they do not change objects that exist. *)
Variable store : heap -> C -> str -> val -> res (list cell * val).
Variable istore : heap -> C -> val -> res (list cell * val).
(** [delattr] of an attribute which is set ([true]) or not *)
Variable erase : C -> str -> bool -> option exn.
(** bound of the number of rounds of a loop over a list that changes meanwhile *)
Variable fuel : nat.

(** the object at [n] is now [c] *)
Definition upd (h : heap) (n : nat) (c : cell) : heap := firstn n h ++ c :: skipn (S n) h.

(** _try_index (selector.py:32-39) *)
Definition try_index (h : heap) (o : val) (s : elem) : bool :=
  match o with
  | VA a => if a_str a then false else match s with EInt _ => true | _ => a_indexable a end
  | VR n => match nth_error h n, s with
            | Some (HRec _ _), EInt _ => true
            | Some (HRec _ _), _ => false
            | _, _ => true
            end
  end.

(** [record[selector]].  References always lead to an object. *)
Definition item (h : heap) (o : val) (s : elem) : res val :=
  match o with
  | VA a => match a_item a s with Ok b => Ok (VA b) | Err e => Err e end
  | VR n =>
      match nth_error h n with
      | Some (HList _ xs) => match s with EInt i => seq_get xs i | _ => Err TypeErr end
      | Some (HDict _ kvs) => match dict_get elem_eqb kvs s with Some x => Ok x | None => Err KeyErr end
      | _ => Err TypeErr
      end
  end.

(** [getattr(record, selector)] *)
Definition attr (h : heap) (o : val) (s : elem) : res val :=
  match s with
  | EStr m =>
      match o with
      | VA a => match a_attr a m with Some b => Ok (VA b) | None => Err AttrErr end
      | VR n =>
          match nth_error h n with
          | Some (HRec c sl) =>
              match dict_get str_eqb sl m with
              | Some x => Ok x
              | None => match unset c m with Some b => Ok (VA b) | None => Err AttrErr end
              end
          | _ => Err AttrErr
          end
      end
  | _ => Err TypeErr
  end.

(** [for r in record] over what does not change meanwhile *)
Definition iter (h : heap) (o : val) : res (list val) :=
  match o with
  | VA a => match a_iter a with Ok l => Ok (map VA l) | Err e => Err e end
  | VR n =>
      match nth_error h n with
      | Some (HList _ xs) => Ok xs
      | Some (HDict _ kvs) => Ok (map (fun kv => VA (a_key (fst kv))) kvs)
      | _ => Err TypeErr
      end
  end.

(** ** get (selector.py:120-182) *)

Inductive allexc : Type := XNone | XExc (e : exn) | XFalse.
Definition note_exc (x : allexc) (e : exn) : allexc := match x with XNone => XExc e | _ => x end.

(** selector.py:146-160; the items are not changed by [get] *)
Fixpoint gather (f : val -> heap -> res val * heap) (xs : list val) (x : allexc) (h : heap)
  : res (list val * allexc) * heap :=
  match xs with
  | [] => (Ok ([], x), h)
  | r :: t =>
      let rest v x1 h1 := match gather f t x1 h1 with
                          | (Ok (vs, x2), h2) => (Ok (v :: vs, x2), h2)
                          | (Err e, h2) => (Err e, h2)
                          end in
      match f r h with
      | (Ok v, h1) => rest v XFalse h1
      | (Err e, h1) => if is_fs_exc e then rest (VA a_none) (note_exc x e) h1 else (Err e, h1)
      end
  end.

(** selector.py:161-170, 333-341 *)
Definition step (h : heap) (o : val) (s : elem) : res val :=
  if try_index h o s then
    match item h o s with
    | Ok x => Ok x
    | Err IndexErr => Err FSKeyErr
    | Err e => Err e
    end
  else
    match attr h o s with
    | Ok x => Ok x
    | Err e => if is_attr_err e then Err FSAttrErr else Err e
    end.

(** The list made for a wildcard is a new object. *)
Fixpoint get (p : list elem) (o : val) (h : heap) : res val * heap :=
  match p with
  | [] => (Ok o, h)
  | ENone :: t =>
      match iter h o with
      | Err e => (Err e, h)
      | Ok xs =>
          match gather (get t) xs XNone h with
          | (Err e, h1) => (Err e, h1)
          | (Ok (_, XExc e), h1) => (Err e, h1)
          | (Ok (vs, _), h1) => (Ok (VR (length h1)), h1 ++ [HList None vs])
          end
      end
  | s :: t => match step h o s with Ok x => get t x h | Err e => (Err e, h) end
  end.

(** ** put (selector.py:184-237) *)

Definition coll_store (h : heap) (c : option C) (v : val) : res (list cell * val) :=
  match c with Some c => istore h c v | None => Ok ([], v) end.
Fixpoint store_all (h : heap) (c : option C) (vs : list val) : res (list val) * heap :=
  match vs with
  | [] => (Ok [], h)
  | v :: t =>
      match coll_store h c v with
      | Err e => (Err e, h)
      | Ok (new, v') => match store_all (h ++ new) c t with
                        | (Ok t', h2) => (Ok (v' :: t'), h2)
                        | (Err e, h2) => (Err e, h2)
                        end
      end
  end.

(** [record[selector] = value]: coerced first (coll.py:196-197, 398-402) *)
Definition item_set (h : heap) (o : val) (s : elem) (v : val) : option exn * heap :=
  match o with
  | VA _ => (Some TypeErr, h)
  | VR n =>
      match nth_error h n with
      | Some (HList c xs) =>
          match coll_store h c v with
          | Err e => (Some e, h)
          | Ok (new, v') =>
              match s with
              | EInt i => match seq_set xs i v' with
                          | Ok ys => (None, upd (h ++ new) n (HList c ys))
                          | Err e => (Some e, h ++ new)
                          end
              | _ => (Some TypeErr, h ++ new)
              end
          end
      | Some (HDict c kvs) =>
          match coll_store h c v with
          | Err e => (Some e, h)
          | Ok (new, v') => (None, upd (h ++ new) n (HDict c (dict_set elem_eqb kvs s v')))
          end
      | _ => (Some TypeErr, h)
      end
  end.

(** [record[:] = value] *)
Definition slice_set (h : heap) (o : val) (v : val) : option exn * heap :=
  match o with
  | VA _ => (Some TypeErr, h)
  | VR n =>
      match nth_error h n with
      | Some (HList c _) =>
          match iter h v with
          | Err e => (Some e, h)
          | Ok vs => match store_all h c vs with
                     | (Ok vs', h1) => (None, upd h1 n (HList c vs'))
                     | (Err e, h1) => (Some e, h1)
                     end
          end
      | Some (HDict c _) =>
          match coll_store h c v with
          | Err e => (Some e, h)
          | Ok (new, _) => (Some TypeErr, h ++ new)
          end
      | _ => (Some TypeErr, h)
      end
  end.

(** [setattr(record, selector, value)] *)
Definition attr_set (h : heap) (o : val) (s : elem) (v : val) : option exn * heap :=
  match s with
  | EStr m =>
      match o with
      | VA _ => (Some AttrErr, h)
      | VR n =>
          match nth_error h n with
          | Some (HRec c sl) =>
              match store h c m v with
              | Err e => (Some e, h)
              | Ok (new, v') => (None, upd (h ++ new) n (HRec c (dict_set str_eqb sl m v')))
              end
          | _ => (Some AttrErr, h)
          end
      end
  | _ => (Some TypeErr, h)
  end.

(** selector.py:194-211 *)
Definition put_last (s : elem) (v : val) (o : val) (h : heap) : option exn * heap :=
  match s with
  | ENone => slice_set h o v
  | _ =>
      if try_index h o s then
        match item_set h o s v with
        | (Some e, h1) => (Some (if is_lookup_err e then FSErr else e), h1)
        | r => r
        end
      else
        match attr_set h o s v with
        | (Some e, h1) => (Some (if is_attr_err e then FSErr else e), h1)
        | r => r
        end
  end.

(** selector.py:220-236 *)
Definition put_step (h : heap) (o : val) (s : elem) : res val :=
  if try_index h o s then
    match item h o s with Err IndexErr => Err FSErr | r => r end
  else
    match attr h o s with Err e => if is_attr_err e then Err FSErr else Err e | r => r end.

(** [for x in record: f(x)]: the list is looked at in every round *)
Fixpoint each (f : val -> heap -> option exn * heap) (k : nat) (n i : nat) (h : heap) : option exn * heap :=
  match k with
  | O => (Some RecursionErr, h)
  | S k' =>
      match nth_error h n with
      | Some (HList _ xs) =>
          match nth_error xs i with
          | None => (None, h)
          | Some x => match f x h with
                      | (None, h1) => each f k' n (S i) h1
                      | r => r
                      end
          end
      | _ => (None, h)
      end
  end.
(** the same over immutable values *)
Fixpoint each_in (f : val -> heap -> option exn * heap) (xs : list val) (h : heap) : option exn * heap :=
  match xs with
  | [] => (None, h)
  | x :: t => match f x h with (None, h1) => each_in f t h1 | r => r end
  end.
Definition for_each (f : val -> heap -> option exn * heap) (o : val) (h : heap) : option exn * heap :=
  match o with
  | VR n => match nth_error h n with
            | Some (HList _ _) => each f fuel n 0 h
            | _ => match iter h o with Ok ks => each_in f ks h | Err e => (Some e, h) end
            end
  | VA _ => match iter h o with Ok ks => each_in f ks h | Err e => (Some e, h) end
  end.

Fixpoint put (p : list elem) (v : val) (o : val) (h : heap) : option exn * heap :=
  match p with
  | [] => (Some IndexErr, h)
  | s :: t =>
      match t with
      | [] => put_last s v o h
      | _ :: _ =>
          match s with
          | ENone => for_each (put t v) o h
          | _ => match put_step h o s with
                 | Err e => (Some e, h)
                 | Ok x => put t v x h
                 end
          end
      end
  end.

(** ** delete (selector.py:303-359) *)

Definition item_del (h : heap) (o : val) (s : elem) : option exn * heap :=
  match o with
  | VA _ => (Some TypeErr, h)
  | VR n =>
      match nth_error h n with
      | Some (HList c xs) =>
          match s with
          | EInt i => match seq_del xs i with
                      | Ok ys => (None, upd h n (HList c ys))
                      | Err e => (Some e, h)
                      end
          | _ => (Some TypeErr, h)
          end
      | Some (HDict c kvs) =>
          match dict_get elem_eqb kvs s with
          | Some _ => (None, upd h n (HDict c (dict_del elem_eqb kvs s)))
          | None => (Some KeyErr, h)
          end
      | _ => (Some TypeErr, h)
      end
  end.
(** selector.py:344-350 *)
Definition clear (h : heap) (o : val) : option exn * heap :=
  match o with
  | VA _ => (Some TypeErr, h)
  | VR n =>
      match nth_error h n with
      | Some (HList c _) => (None, upd h n (HList c []))
      | Some (HDict c _) => (None, upd h n (HDict c []))
      | _ => (Some TypeErr, h)
      end
  end.
Definition attr_del (h : heap) (o : val) (s : elem) : option exn * heap :=
  match s, o with
  | EStr m, VR n =>
      match nth_error h n with
      | Some (HRec c sl) =>
          match erase c m (match dict_get str_eqb sl m with Some _ => true | None => false end) with
          | Some e => (Some e, h)
          | None => (None, upd h n (HRec c (dict_del str_eqb sl m)))
          end
      | _ => (Some AttrErr, h)
      end
  | EStr _, VA _ => (Some AttrErr, h)
  | _, _ => (Some TypeErr, h)
  end.
(** selector.py:342-359 *)
Definition del_last (s : elem) (o : val) (h : heap) : option exn * heap :=
  if try_index h o s then
    match s with ENone => clear h o | _ => item_del h o s end
  else
    match attr h o s with
    | Ok _ => attr_del h o s
    | Err e => if is_attr_err e then (None, h) else (Some e, h)
    end.
(** selector.py:321-330: the exception that escapes, or all_exc; the list is looked at in every
    round *)
Fixpoint sweep (f : val -> heap -> option exn * heap) (k : nat) (n i : nat) (x : allexc) (h : heap)
  : res allexc * heap :=
  match k with
  | O => (Err RecursionErr, h)
  | S k' =>
      match nth_error h n with
      | Some (HList _ xs) =>
          match nth_error xs i with
          | None => (Ok x, h)
          | Some r => match f r h with
                      | (None, h1) => sweep f k' n (S i) XFalse h1
                      | (Some e, h1) => if is_fs_exc e then sweep f k' n (S i) (note_exc x e) h1
                                        else (Err e, h1)
                      end
          end
      | _ => (Ok x, h)
      end
  end.
Fixpoint sweep_in (f : val -> heap -> option exn * heap) (xs : list val) (x : allexc) (h : heap)
  : res allexc * heap :=
  match xs with
  | [] => (Ok x, h)
  | r :: t => match f r h with
              | (None, h1) => sweep_in f t XFalse h1
              | (Some e, h1) => if is_fs_exc e then sweep_in f t (note_exc x e) h1 else (Err e, h1)
              end
  end.
Definition swept (r : res allexc * heap) : option exn * heap :=
  (match fst r with Err e => Some e | Ok (XExc e) => Some e | Ok _ => None end, snd r).
Definition sweep_each (f : val -> heap -> option exn * heap) (o : val) (h : heap) : option exn * heap :=
  match o with
  | VR n => match nth_error h n with
            | Some (HList _ _) => swept (sweep f fuel n 0 XNone h)
            | _ => match iter h o with Ok ks => swept (sweep_in f ks XNone h) | Err e => (Some e, h) end
            end
  | VA _ => match iter h o with Ok ks => swept (sweep_in f ks XNone h) | Err e => (Some e, h) end
  end.

Fixpoint delete (p : list elem) (o : val) (h : heap) : option exn * heap :=
  match p with
  | [] => (Some IndexErr, h)
  | s :: t =>
      match t with
      | [] => del_last s o h
      | _ :: _ =>
          match s with
          | ENone => sweep_each (delete t) o h
          | _ => match step h o s with
                 | Err e => (Some e, h)
                 | Ok x => delete t x h
                 end
          end
      end
  end.
End Heap.
Arguments val : clear implicits.
Arguments cell : clear implicits.
Arguments heap : clear implicits.
