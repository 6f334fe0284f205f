(** Visits with any hooks: normalize/visitor.py:29-119 and 577-758, with the hooks [unpack] (or [grok]), [apply]
    ([reverse]), [collect] ([aggregate]) and [reduce] ([produce]) as parameters.
    Simplifications: hooks read the generators they are given once, from beginning to end, before they do anything else; they
    have no state; values, types, properties and results are arbitrary. *)
From Coq Require Import List Bool Arith.
From Verif Require Import Prelude SelPathModel MFSModel.
Import ListNotations.

Section Types.
Context {V T P R : Type}.

(** What [get_value(prop)] does (visitor.py:649-664): a value; AttributeError or KeyError, here as a value; another exception *)
Inductive got := Got (v : V) | Missing (e : V) | Raised (e : exn).

(** What [unpack] may return (visitor.py:609-619): StopVisiting or an instance of it, with its [return_value]; a pair, or one
    object for a pair with None.  A property getter or a collection which is false counts as None.  A collection is its items
    and the exception, if any, which ends the iteration. *)
Inductive unpacked :=
| Stopped (r : R)
| Parts (get : option (P -> got)) (coll : option (list (elem * V) * option exn)).

(** The functions of a visitor (visitor.py:70-73); the first argument is its position, [visitor.cue]. *)
Record hooks := {
  h_unpack : list elem -> V -> T -> res unpacked;
  h_apply : list elem -> V -> option P -> res R;
  h_collect : list elem -> list (elem * R) -> T -> res R;
  h_reduce : list elem -> option (list (P * R)) -> R -> T -> res R
}.

(** A call of a hook and its position; for apply, whether with a property *)
Inductive call := Unpack (p : list elem) | Stop (p : list elem) | Apply (p : list elem) (prop : bool)
                | Collect (p : list elem) | Reduce (p : list elem).

(** Computations: the calls made, and the outcome *)
Definition run (X : Type) : Type := (list call * res X)%type.
End Types.
Arguments got : clear implicits.
Arguments unpacked : clear implicits.
Arguments hooks : clear implicits.

Definition ret {X} (x : X) : run X := ([], Ok x).
Definition raise {X} (e : exn) : run X := ([], Err e).
Definition logged {X} (c : call) (r : res X) : run X := ([c], r).
Definition also {X} (l : list call) (m : run X) : run X := (l ++ fst m, snd m).
Definition andthen {X Y} (m : run X) (f : X -> run Y) : run Y :=
  match snd m with
  | Ok x => also (fst m) (f x)
  | Err e => (fst m, Err e)
  end.
Notation "x <~ m ;; k" := (andthen m (fun x => k)) (at level 61, m at next level, right associativity).

(** Options (visitor.py:75-83) *)
Record wopts := {
  w_empty_slots : bool;
  w_extraneous : bool;
  w_ignore_empty : bool;
  w_ignore_none : bool;
  w_filter : option mfs
}.

Section Visit.
Context {V T P R : Type}.
(** Record classes and others; their properties in order; the type of the items of a collection class *)
Variable record_type : T -> bool.
Variable properties : T -> list P.
Variable itemtype : T -> T.
(** [prop.valuetype]: none, a type, or a tuple of types *)
Variable p_name : P -> str.
Variable p_extraneous : P -> bool.
Variable p_type : P -> option (T + list T).
(** [type(value)], [isinstance(value, type)] *)
Variable type_of : V -> T.
Variable instance : V -> T -> bool.
(** None, [x == ""] and the truth of results; [except TypeError] *)
Variable r_none : R.
Variable is_none is_empty truth : R -> bool.
Variable type_error : exn -> bool.
(** exc.VisitorPropError, here by the property and its position *)
Variable prop_error : list elem -> P -> exn -> exn.
Variable o : wopts.
Notation hooks := (hooks V T P R).
Variable h : hooks.

(** visitor.py:88-91 *)
Definition filter_true (m : mfs) : bool := match heads m with [] => false | _ => true end.
Definition left_out (cue : list elem) (p : P) : bool :=
  (negb (w_extraneous o) && p_extraneous p) ||
  match w_filter o with
  | None => false
  | Some m => filter_true m &&
              negb (match getitem_path m (cue ++ [EStr (p_name p)]) with
                    | Some m' => filter_true m'
                    | None => false
                    end)
  end.

(** visitor.py:668-673, 684-689 *)
Definition dropped (r : R) : bool := (is_none r && w_ignore_none o) || (is_empty r && w_ignore_empty o).

Section Parts.
(** [cls.map] at a position *)
Variable rec : list elem -> V -> T -> run R.

(** the loops visitor.py:736-743 and 745-754 *)
Fixpoint try_types (cue : list elem) (v : V) (ts : list T) (mapped : R) : run R :=
  match ts with
  | [] => ret mapped
  | t :: rest =>
      let m := rec cue v t in
      match snd m with
      | Ok r => if truth r then m else also (fst m) (try_types cue v rest r)
      | Err e => if type_error e then also (fst m) (try_types cue v rest mapped) else m
      end
  end.

(** map_type_union (visitor.py:711-758) *)
Definition map_union (cue : list elem) (v : V) (ts : list T) (p : P) : run R :=
  let rs := filter record_type ts in
  match filter (instance v) rs with
  | [] => r <~ try_types cue v rs r_none;;
          if truth r then ret r else logged (Apply cue true) (h_apply h cue v (Some p))
  | ms => try_types cue v ms r_none
  end.

(** map_prop (visitor.py:692-708) *)
Definition map_prop (cue : list elem) (v : V) (p : P) : run R :=
  let plain t := if record_type t then rec cue v t else logged (Apply cue true) (h_apply h cue v (Some p)) in
  match p_type p with
  | Some (inr ts) => map_union cue v ts p
  | Some (inl t) => plain t
  | None => plain (type_of v)
  end.

(** map_record (visitor.py:642-675) *)
Fixpoint map_record (cue : list elem) (get : P -> got V) (ps : list P) : run (list (P * R)) :=
  match ps with
  | [] => ret []
  | p :: rest =>
      if left_out cue p then map_record cue get rest
      else
        let sub := cue ++ [EStr (p_name p)] in
        let visit v := r <~ map_prop sub v p;;
                       l <~ map_record cue get rest;;
                       ret (if dropped r then l else (p, r) :: l) in
        match get p with
        | Got v => visit v
        | Missing e => if w_empty_slots o then visit e else map_record cue get rest
        | Raised e => raise (prop_error cue p e)
        end
  end.

(** map_collection (visitor.py:677-690) *)
Fixpoint map_collection (cue : list elem) (t : T) (l : list (elem * V)) (stop : option exn) : run (list (elem * R)) :=
  match l with
  | [] => match stop with None => ret [] | Some e => raise e end
  | (k, v) :: rest =>
      r <~ rec (cue ++ [k]) v t;;
      rs <~ map_collection cue t rest stop;;
      ret (if dropped r then rs else (k, r) :: rs)
  end.
End Parts.

(** map (visitor.py:591-640); [n] bounds the depth *)
Fixpoint map_value (n : nat) (cue : list elem) (v : V) (t : T) : run R :=
  match n with
  | O => raise RecursionErr
  | S n =>
      u <~ logged (Unpack cue) (h_unpack h cue v t);;
      match u with
      | Stopped r => logged (Stop cue) (Ok r)
      | Parts get coll =>
          mc <~ (match coll with
                 | Some (l, e) =>
                     ms <~ map_collection (map_value n) cue (itemtype t) l e;;
                     logged (Collect cue) (h_collect h cue ms t)
                 | None => ret r_none
                 end);;
          match get with
          | Some g =>
              ps <~ map_record (map_value n) cue g (properties t);;
              logged (Reduce cue) (h_reduce h cue (Some ps) mc t)
          | None =>
              if is_none mc then logged (Apply cue false) (h_apply h cue v None)
              else logged (Reduce cue) (h_reduce h cue None mc t)
          end
      end
  end.
End Visit.
