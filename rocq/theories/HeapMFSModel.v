(** Multi field selectors applied to objects that may be shared or cyclic: get, delete and patch of
    normalize/selector.py:785-904, and post (selector.py:239-301), on the heap of [HeapModel].
    [MFSTreeModel] and [TreeModel] are the same code on trees. *)
From Coq Require Import List Arith NArith ZArith Bool.
From Verif Require Import Prelude SelPathModel FSModel PySeq MFSModel MFSTreeModel HeapModel.
Import ListNotations.

Section HeapMFS.
Context {A C T : Type}.
Notation val := (val A).
Notation cell := (cell A C).
Notation heap := (heap A C).
Variable a_none : A.
Variable a_key : elem -> A.
Variable a_str : A -> bool.
Variable a_indexable : A -> bool.
Variable a_item : A -> elem -> res A.
Variable a_attr : A -> str -> option A.
Variable a_iter : A -> res (list A).
Variable a_len : A -> Z.
Variable a_isnone : A -> bool.             (* a is None *)
Variable unset : C -> str -> option A.
Variable store : heap -> C -> str -> val -> res (list cell * val).
Variable istore : heap -> C -> val -> res (list cell * val).
Variable erase : C -> str -> bool -> option exn.
Variable fuel : nat.
(** [type(record).itemtype] and [prop.valuetype], as in [TreeModel], and calling them with at most one
    keyword argument; constructors with keyword arguments, values, pairs; copy.deepcopy: the objects
    they make and the one they return.  Simplification: they change no object that exists. *)
Variable itemtype : C -> res T.
Variable valuetype : C -> str -> res T.
Variable call : heap -> T -> option (str * val) -> res (list cell * val).
Variable new_rec : heap -> C -> list (str * val) -> res (list cell * val).
Variable new_atom : heap -> A -> list (str * val) -> res (list cell * val).
Variable new_list : heap -> C -> list val -> res (list cell * val).
Variable new_dict : heap -> C -> list (elem * val) -> res (list cell * val).
Variable deepcopy : heap -> val -> res (list cell * val).

Notation get := (get a_none a_key a_str a_indexable a_item a_attr a_iter unset).
Notation delete := (delete a_key a_str a_indexable a_item a_attr a_iter unset erase fuel).
Notation put_last := (put_last a_key a_str a_indexable a_iter store istore).

(** the object made joins the heap *)
Definition made (h : heap) (r : res (list cell * val)) : res val * heap :=
  match r with
  | Ok (new, v) => (Ok v, h ++ new)
  | Err e => (Err e, h)
  end.

(** ** get (selector.py:785-841) *)

(** one value after the other *)
Fixpoint collect {X Y} (f : X -> heap -> res Y * heap) (xs : list X) (h : heap) : res (list Y) * heap :=
  match xs with
  | [] => (Ok [], h)
  | x :: t =>
      match f x h with
      | (Err e, h1) => (Err e, h1)
      | (Ok y, h1) => match collect f t h1 with
                      | (Err e, h2) => (Err e, h2)
                      | (Ok ys, h2) => (Ok (y :: ys), h2)
                      end
      end
  end.

(** what a tail makes of a value *)
Definition tails := list (elem * (val -> heap -> res val * heap)).
Definition with_key {K : Type} (k : K) (r : res val * heap) : res (K * val) * heap :=
  match r with (Ok v, h) => (Ok (k, v), h) | (Err e, h) => (Err e, h) end.

Definition is_none (o : val) : bool := match o with VA a => a_isnone a | VR _ => false end.
(** selector.py:834-840 *)
Fixpoint kwargs (o : val) (fs : tails) (h : heap) : res (list (str * val)) * heap :=
  match fs with
  | [] => (Ok [], h)
  | (EStr n, f) :: t =>
      match attr a_attr unset h o (EStr n) with
      | Ok v =>
          if is_none v then kwargs o t h
          else match with_key n (f v h) with
               | (Err e, h1) => (Err e, h1)
               | (Ok nv, h1) => match kwargs o t h1 with
                                | (Err e, h2) => (Err e, h2)
                                | (Ok kw, h2) => (Ok (nv :: kw), h2)
                                end
               end
      | Err e => if is_attr_err e then kwargs o t h else (Err e, h)
      end
  | _ :: _ => (Err TypeErr, h)
  end.

(** The list or dict that is gone through does not change meanwhile, as only new objects are made. *)
Fixpoint mget (m : mfs) (o : val) (h : heap) : res val * heap :=
  match m with
  | Node hs =>
      let fs : tails := map (fun ht => (fst ht, fun x h => match snd ht with
                                                           | None => made h (deepcopy h x)
                                                           | Some m' => mget m' x h
                                                           end)) hs in
      let others :=
        if has_int m || (has_none m && negb (complete m)) then (Err TypeErr, h)
        else if has_none m then made h (deepcopy h o)
        else match kwargs o fs h with
             | (Err e, h1) => (Err e, h1)
             | (Ok kw, h1) =>
                 match o with
                 | VA a => made h1 (new_atom h1 a kw)
                 | VR n => match nth_error h n with
                           | Some (HRec c _) => made h1 (new_rec h1 c kw)
                           | _ => (Err TypeErr, h1)
                           end
                 end
             end in
      match o with
      | VA _ => others
      | VR n =>
          match nth_error h n with
          | Some (HList c xs) =>
              if has_string m then (Err TypeErr, h)
              else
                match (match hget ENone fs with
                       | Some f => collect f xs h
                       | None => collect (fun kf h1 => match fst kf with
                                                       | EInt i => match seq_get xs i with
                                                                   | Ok x => snd kf x h1
                                                                   | Err e => (Err e, h1)
                                                                   end
                                                       | _ => (Err TypeErr, h1)
                                                       end) (sort_heads fs) h
                       end) with
                | (Err e, h1) => (Err e, h1)
                | (Ok vs, h1) => match c with
                                 | None => made h1 (Ok ([HList None vs], VR (length h1)))
                                 | Some c => made h1 (new_list h1 c vs)
                                 end
                end
          | Some (HDict c kvs) =>
              match (match hget ENone fs with
                     | Some f => collect (fun kv h1 => with_key (fst kv) (f (snd kv) h1)) kvs h
                     | None => collect (fun kf h1 => match dict_get elem_eqb kvs (fst kf) with
                                                     | Some x => with_key (fst kf) (snd kf x h1)
                                                     | None => (Err KeyErr, h1)
                                                     end)
                                 (filter (fun kf => match dict_get elem_eqb kvs (fst kf) with
                                                    | Some _ => true | None => false end) fs) h
                     end) with
              | (Err e, h1) => (Err e, h1)
              | (Ok kvs', h1) => match c with
                                 | None => made h1 (Ok ([HDict None kvs'], VR (length h1)))
                                 | Some c => made h1 (new_dict h1 c kvs')
                                 end
              end
          | _ => others
          end
      end
  end.

(** ** post (selector.py:239-301) *)

(** [type( ** kwarg)] *)
Definition make (ty : T) (kw : option (elem * val)) (h : heap) : res val * heap :=
  match kw with
  | None => made h (call h ty None)
  | Some (EStr n, v) => made h (call h ty (Some (n, v)))
  | Some (_, _) => (Err TypeErr, h)
  end.
(** the new item of a collection *)
Definition new_item (c : option C) (kw : option (elem * val)) (h : heap) : res val * heap :=
  match c with
  | None => (Err AttrErr, h)
  | Some c => match itemtype c with
              | Err e => (Err e, h)
              | Ok ty => match make ty kw h with
                         | (Err e, h1) => (Err e, h1)
                         | (Ok x, h1) => made h1 (istore h1 c x)
                         end
              end
  end.

(** One pass of the loop (selector.py:265-296): the [record] to go on with, and whether something was
    made for it. *)
Definition viv (o : val) (s : elem) (kw : option (elem * val)) (h : heap) : res (val * bool) * heap :=
  let there r h := match r with Ok x => (Ok (x, false), h) | Err e => (Err e, h) end in
  let now r h := match r with Ok x => (Ok (x, true), h) | Err e => (Err e, h) end in
  if try_index a_str a_indexable h o s then
    match item a_item h o s with
    | Ok x => there (Ok x) h
    | Err IndexErr =>
        match s with
        | EInt i =>
            match o with
            | VA a => (Err (if (a_len a =? i)%Z then AttrErr else ValueErr), h)
            | VR n =>
                match nth_error h n with
                | Some (HList c xs) =>
                    if (Z.of_nat (length xs) =? i)%Z then
                      match new_item c kw h with
                      | (Err e, h1) => (Err e, h1)
                      | (Ok x, h1) => let h2 := upd h1 n (HList c (xs ++ [x])) in now (item a_item h2 o s) h2
                      end
                    else (Err ValueErr, h)
                | _ => (Err IndexErr, h)
                end
            end
        | _ => (Err IndexErr, h)
        end
    | Err e =>
        if is_key_err e then
          match o with
          | VR n =>
              match nth_error h n with
              | Some (HDict c kvs) =>
                  match new_item c kw h with
                  | (Err e, h1) => (Err e, h1)
                  | (Ok x, h1) => now (Ok o) (upd h1 n (HDict c (dict_set elem_eqb kvs s x)))
                  end
              | _ => (Err AttrErr, h)
              end
          | VA _ => (Err AttrErr, h)
          end
        else (Err e, h)
    end
  else
    match attr a_attr unset h o s with
    | Ok x => there (Ok x) h
    | Err e =>
        if is_attr_err e then
          match o, s with
          | VR n, EStr m =>
              match nth_error h n with
              | Some (HRec c sl) =>
                  match valuetype c m with
                  | Err e => (Err e, h)
                  | Ok ty =>
                      match make ty kw h with
                      | (Err e, h1) => (Err e, h1)
                      | (Ok x, h1) =>
                          match made h1 (store h1 c m x) with
                          | (Err e, h2) => (Err e, h2)
                          | (Ok x', h2) => let h3 := upd h2 n (HRec c (dict_set str_eqb sl m x')) in
                                           now (attr a_attr unset h3 o s) h3
                          end
                      end
                  end
              | _ => (Err AttrErr, h)
              end
          | _, _ => (Err AttrErr, h)
          end
        else (Err e, h)
    end.

Fixpoint post (p : list elem) (v : val) (o : val) (h : heap) : res nat * heap :=
  match p with
  | [] => (Err IndexErr, h)
  | s :: t =>
      match t with
      | [] => match put_last s v o h with
              | (None, h') => (Ok 1, h')
              | (Some e, h') => (Err e, h')
              end
      | last :: u =>
          match s with
          | ENone =>
              match iter a_key a_iter h o with
              | Err e => (Err e, h)
              | Ok [] => (Ok 0, h)
              | Ok (_ :: _) => (Err TypeErr, h)
              end
          | _ =>
              let kw := match u, last with [], ENone => None | [], _ => Some (last, v) | _, _ => None end in
              match viv o s kw h with
              | (Err e, h1) => (Err e, h1)
              | (Ok (x, mk), h1) =>
                  if mk && match kw with Some _ => true | None => false end then (Ok 1, h1) else post t v x h1
              end
          end
      end
  end.

(** ** delete (selector.py:843-868) and patch (selector.py:870-904) *)

Fixpoint check_all (ps : list (list elem)) (o : val) (h : heap) : option exn * heap :=
  match ps with
  | [] => (None, h)
  | p :: t => match get p o h with
              | (Ok _, h1) => check_all t o h1
              | (Err e, h1) => (Some e, h1)
              end
  end.
Fixpoint delete_all (ps : list (list elem)) (o : val) (h : heap) : option exn * heap :=
  match ps with
  | [] => (None, h)
  | p :: t => match delete p o h with
              | (None, h1) => delete_all t o h1
              | (Some e, h1) => if is_fs_exc e then delete_all t o h1 else (Some e, h1)
              end
  end.
Definition mdelete (m : mfs) (force : bool) (o : val) (h : heap) : option exn * heap :=
  if force then delete_all (MFSModel.iter m) o h
  else match check_all (MFSModel.iter m) o h with
       | (Some e, h1) => (Some e, h1)
       | (None, h1) => delete_all (MFSModel.iter m) o h1
       end.

(** selector.py:888-895 *)
Fixpoint lift (ps : list (list elem)) (src : val) (h : heap) : res (list (list elem * option val)) * heap :=
  match ps with
  | [] => (Ok [], h)
  | p :: t =>
      match get p src h with
      | (Ok v, h1) => match lift t src h1 with
                      | (Ok l, h2) => (Ok ((p, Some v) :: l), h2)
                      | (Err e, h2) => (Err e, h2)
                      end
      | (Err e, h1) =>
          if is_attr_err e then match lift t src h1 with
                                | (Ok l, h2) => (Ok ((p, None) :: l), h2)
                                | (Err e, h2) => (Err e, h2)
                                end
          else (Err e, h1)
      end
  end.
(** selector.py:900-904; [copy]: None is copy=False, otherwise deepcopy or the function given *)
Fixpoint apply_all (copy : option (heap -> val -> res (list cell * val))) (l : list (list elem * option val))
  (o : val) (h : heap) : option exn * heap :=
  match l with
  | [] => (None, h)
  | (p, None) :: t => match delete p o h with
                      | (None, h1) => apply_all copy t o h1
                      | (Some e, h1) => (Some e, h1)
                      end
  | (p, Some v) :: t =>
      match (match copy with None => (Ok v, h) | Some f => made h (f h v) end) with
      | (Err e, h1) => (Some e, h1)
      | (Ok v', h1) => match post p v' o h1 with
                       | (Ok _, h2) => apply_all copy t o h2
                       | (Err e, h2) => (Some e, h2)
                       end
      end
  end.
Definition patch (copy : option (heap -> val -> res (list cell * val))) (m : mfs) (target src : val) (h : heap)
  : option exn * heap :=
  match lift (MFSModel.iter m) src h with
  | (Err e, h1) => (Some e, h1)
  | (Ok l, h1) => apply_all copy l target h1
  end.
End HeapMFS.
