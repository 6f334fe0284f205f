(** Multi field selectors: construction, iteration, subscripting, membership, text form.
    Models normalize/selector.py:546-555, 558-769, 906-973. *)
From Coq Require Import List Arith NArith ZArith Bool Lia.
From Verif Require Import Prelude Regex SelPathModel FSModel.
Import ListNotations.

(** A MultiFieldSelector object: its [heads] dictionary in insertion order; the builtin
    [all] used as a tail is [None]. *)
Inductive mfs : Type := Node (heads : list (elem * option mfs)).

Definition heads (m : mfs) : list (elem * option mfs) := match m with Node hs => hs end.

Definition is_none_elem (e : elem) : bool := match e with ENone => true | _ => false end.

(** dictionary lookup *)
Fixpoint hget {A} (k : elem) (l : list (elem * A)) : option A :=
  match l with
  | [] => None
  | (k', v) :: t => if elem_eqb k k' then Some v else hget k t
  end.

(** [has_none], [complete] — selector.py:601-605 *)
Definition has_none (m : mfs) : bool := existsb is_none_elem (map fst (heads m)).
Definition complete (m : mfs) : bool :=
  match hget ENone (heads m) with Some None => true | _ => false end.

(** [complete_mfs()] — selector.py:913-917 (the cached singleton) *)
Definition complete_mfs : mfs := Node [(ENone, None)].

(** Constructor arguments: a FieldSelector (or something to build one from) or a
    MultiFieldSelector — selector.py:576-583 *)
Inductive arg : Type :=
| AFS (sels : list elem)
| AMFS (m : mfs).

Definition is_mfs (a : arg) : bool := match a with AMFS _ => true | AFS _ => false end.

(** the (head, tail) pairs an argument contributes — selector.py:577-592 *)
Definition split_arg (a : arg) : list (elem * option arg) :=
  match a with
  | AMFS m => map (fun ht => (fst ht, option_map AMFS (snd ht))) (heads m)
  | AFS [] => [(ENone, None)]
  | AFS (h :: t) => [(h, match t with [] => None | _ :: _ => Some (AFS t) end)]
  end.

(** MultiFieldSelector arguments are processed in a first loop, the others afterwards *)
Definition entries (args : list arg) : list (elem * option arg) :=
  flat_map split_arg (filter is_mfs args) ++
  flat_map split_arg (filter (fun a => negb (is_mfs a)) args).

(** keys of the [defaultdict] in insertion order *)
Fixpoint keys_of {A} (es : list (elem * A)) : list elem :=
  match es with
  | [] => []
  | (k, _) :: t => k :: filter (fun k' => negb (elem_eqb k k')) (keys_of t)
  end.

Definition tails_of (k : elem) (es : list (elem * option arg)) : list (option arg) :=
  map snd (filter (fun e => elem_eqb k (fst e)) es).

Definition somes {A} (l : list (option A)) : list A :=
  flat_map (fun o => match o with Some x => [x] | None => [] end) l.

Fixpoint mapM {A B} (f : A -> res B) (l : list A) : res (list B) :=
  match l with
  | [] => Ok []
  | x :: t => do y <- f x; do ys <- mapM f t; Ok (y :: ys)
  end.

(** level check — selector.py:600-612 *)
Definition bad_level (ks : list elem) : bool :=
  existsb is_none_elem ks && existsb (fun k => negb (is_none_elem k)) ks.

Section Build.
  (** [MultiFieldSelector( *tail )] iterates over a *set* of argument objects: the order is
      the hash order, here any function.  (Objects of the set hash by identity, so no two
      different arguments are merged; the model keeps all of them.) *)
  Variable ord : list arg -> list arg.

  (** [MultiFieldSelector.__init__] — selector.py:565-612.  The conditional of line 598
      ([heads[None] is not all]) compares a set with [all] and is always true.  Fuel
      bounds the recursion depth; see [depth]. *)
  Fixpoint build (fuel : nat) (args : list arg) : res mfs :=
    match fuel with
    | O => Err RecursionErr
    | S n =>
        let es := entries args in
        do hs <- mapM (fun k =>
                   let ts := tails_of k es in
                   if existsb (fun o => match o with None => true | Some _ => false end) ts
                   then Ok (k, None)
                   else do m <- build n (ord (somes ts)); Ok (k, Some m))
                 (keys_of es);
        if bad_level (map fst hs) then Err ValueErr else Ok (Node hs)
    end.

  Fixpoint height (m : mfs) : nat :=
    match m with
    | Node hs => S (fold_right (fun ht acc =>
                      Nat.max (match snd ht with Some m' => height m' | None => 0 end) acc) 0 hs)
    end.

  Definition depth (a : arg) : nat :=
    match a with AFS l => length l | AMFS m => height m end.

  Definition depths (args : list arg) : nat := fold_right (fun a n => Nat.max (depth a) n) 0 args.

  (** enough fuel for these arguments (Python's own recursion limit is not modelled) *)
  Definition make (args : list arg) : res mfs := build (S (depths args)) args.
End Build.

(** [__iter__] — selector.py:646-670 *)
Fixpoint iter (m : mfs) : list (list elem) :=
  match m with
  | Node hs =>
      flat_map (fun ht => match snd ht with
                          | None => [[fst ht]]
                          | Some m' => map (cons (fst ht)) (iter m')
                          end) hs
  end.

(** [self[index]] for a single element — selector.py:691-692, 713-724 ([any] is not
    modelled) *)
Definition getitem (m : mfs) (x : elem) : option mfs :=
  if complete m then Some m
  else match hget x (heads m) with
       | None => None
       | Some None => Some complete_mfs
       | Some (Some m') => Some m'
       end.

(** [self[path]] for a FieldSelector, tuple or list — selector.py:691-711 *)
Fixpoint getitem_path (m : mfs) (p : list elem) : option mfs :=
  if complete m then Some m
  else match p with
       | [] => Some m
       | x :: t =>
           match hget (if has_none m then ENone else x) (heads m) with
           | None => None
           | Some None => Some complete_mfs
           | Some (Some m') => match t with [] => Some m' | _ :: _ => getitem_path m' t end
           end
       end.

(** [x in self] for a single element — selector.py:757-758 *)
Definition contains_elem (m : mfs) (x : elem) : bool :=
  has_none m || match hget x (heads m) with Some _ => true | None => false end.

(** [path in self] — selector.py:761-769.  [self[head_key]] goes through [getitem]. *)
Fixpoint contains (m : mfs) (q : list elem) : bool :=
  match q with
  | [] => complete m
  | x :: t =>
      let k := if has_none m then ENone else x in
      match hget k (heads m) with
      | None => false
      | Some _ => match getitem m k with Some m' => contains m' t | None => false end
      end
  end.

Section Text.
  Variable uword : char -> bool.
  Variable udigit : char -> option N.

  Fixpoint join (sep : str) (l : list str) : str :=
    match l with
    | [] => []
    | [x] => x
    | x :: t => x ++ sep ++ join sep t
    end.

  (** [MultiFieldSelector.path] with [_fmt_mfs_path] — selector.py:546-551, 627-642 *)
  Fixpoint mfs_path (m : mfs) : str :=
    match m with
    | Node hs =>
        let parts := map (fun ht => fmt_elem uword (fst ht) ++
                           match snd ht with Some m' => mfs_path m' | None => [] end) hs in
        match parts with
        | [p] => p
        | _ => [40%N] ++ join [124%N] parts ++ [41%N]
        end
    end.

  (** [_MFS_PATH_TOK] — selector.py:920-930 *)
  Definition is_branch (x : char) : bool := (N.eqb x 40 || N.eqb x 41 || N.eqb x 124)%bool.

  Definition mfs_tok : re :=
    RAlt (attr_re uword) (RAlt (bracket_re udigit) (RGrp g_branch (RSet is_branch))).

  (** State of [_scan_mfs_path] — selector.py:933-937 *)
  Record pstate := mkP { p_mfs : list (list elem); p_fs : list elem;
                         p_stack : list (list elem); p_popping : bool }.

  (** one match — selector.py:938-968; the top of the stack is the head of [p_stack];
      [stack[-1]] and [stack.pop()] raise IndexError on an empty stack *)
  Definition pstep (st : pstate) (c : caps) : res pstate :=
    do st1 <-
      match group g_branch c with
      | Some (b :: _) =>
          if N.eqb b 40 then
            Ok (mkP (p_mfs st) (p_fs st) (p_fs st :: p_stack st) (p_popping st))
          else
            let done := if p_popping st then p_mfs st else p_mfs st ++ [p_fs st] in
            if N.eqb b 124 then
              match p_stack st with
              | [] => Err IndexErr
              | top :: _ => Ok (mkP done top (p_stack st) (p_popping st))
              end
            else
              match p_stack st with
              | [] => Err IndexErr
              | top :: rest => Ok (mkP done top rest true)
              end
      | _ => Ok (mkP (p_mfs st) (p_fs st) (p_stack st) false)
      end;
    Ok (mkP (p_mfs st1) (p_fs st1 ++ tok_elem udigit c) (p_stack st1) (p_popping st1)).

  Fixpoint pfold (st : pstate) (l : list caps) : res pstate :=
    match l with
    | [] => Ok st
    | c :: t => do st' <- pstep st c; pfold st' t
    end.

  (** [_scan_mfs_path] — selector.py:933-973 *)
  Definition scan_mfs (path : str) : res (list (list elem)) :=
    do st <- pfold (mkP [] [] [] false) (finditer mfs_tok path);
    Ok (if negb (p_popping st) && negb (match p_fs st with [] => true | _ => false end)
        then p_mfs st ++ [p_fs st] else p_mfs st).

  (** [MultiFieldSelector.from_path] — selector.py:906-911 *)
  Definition mfs_from_path (ord : list arg -> list arg) (path : str) : res mfs :=
    do l <- scan_mfs path; make ord (map AFS l).
End Text.
