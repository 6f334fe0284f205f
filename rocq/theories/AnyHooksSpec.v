(** What a visit does, whatever its hooks (C72): specification only. *)
From Coq Require Import List Bool.
From Verif Require Import Prelude SelPathModel AnyHooksModel.
Import ListNotations.

Definition res_map {X Y} (f : X -> Y) (r : res X) : res Y := match r with Ok x => Ok (f x) | Err e => Err e end.

(** The calls made for one value at a position: it is unpacked; then either it is a value at which to stop, or its items and
    its properties are dealt with, and it is handed to apply or reduce.  Parts lie one step below the value; each is a value
    of its own or given to apply. *)
Inductive visited : list elem -> list call -> Prop :=
| visit_stop p : visited p [Unpack p; Stop p]
| visit_value p items props last :
    Forall (fun l => exists k, visited (p ++ [k]) l) items ->
    Forall (fun l => exists k, visited (p ++ [k]) l \/ l = [Apply (p ++ [k]) true]) props ->
    last = Apply p false /\ props = [] \/ last = Reduce p ->
    forall mid, mid = [Collect p] \/ mid = [] /\ items = [] ->
    visited p (Unpack p :: concat items ++ mid ++ concat props ++ [last]).

(** Where values were unpacked, and where they were finished *)
Definition unpacked_at (c : call) : list (list elem) := match c with Unpack p => [p] | _ => [] end.
Definition finished_at (c : call) : list (list elem) :=
  match c with Stop p | Reduce p | Apply p false => [p] | _ => [] end.

Section Change.
Context {V T P R R' : Type}.
Variable f : R -> R'.

Definition unpacked_map (u : unpacked V P R) : unpacked V P R' :=
  match u with Stopped r => Stopped (f r) | Parts g c => Parts g c end.

(** The hooks [h'] give [f] of what [h] give, from [f] of what these are given. *)
Record hooks_map (h : hooks V T P R) (h' : hooks V T P R') : Prop := {
  hm_unpack : forall p v t, h_unpack h' p v t = res_map unpacked_map (h_unpack h p v t);
  hm_apply : forall p v q, h_apply h' p v q = res_map f (h_apply h p v q);
  hm_collect : forall p l t, h_collect h' p (map (fun kr => (fst kr, f (snd kr))) l) t = res_map f (h_collect h p l t);
  hm_reduce : forall p l r t,
    h_reduce h' p (option_map (map (fun kr => (fst kr, f (snd kr)))) l) (f r) t = res_map f (h_reduce h p l r t)
}.
End Change.

Section Read.
Context {V T P R : Type}.
Variable properties : T -> list P.
Variable hidden : list elem -> P -> bool.

(** The same, but for the values of hidden properties. *)
Definition same_parts (p : list elem) (t : T) (u u' : unpacked V P R) : Prop :=
  match u, u' with
  | Stopped r, Stopped r' => r = r'
  | Parts g c, Parts g' c' =>
      c = c' /\
      match g, g' with
      | Some g, Some g' => forall q, In q (properties t) -> hidden p q = false -> g q = g' q
      | None, None => True
      | _, _ => False
      end
  | _, _ => False
  end.
Record same_but_hidden (h h' : hooks V T P R) : Prop := {
  sh_unpack : forall p v t,
    match h_unpack h p v t, h_unpack h' p v t with
    | Ok u, Ok u' => same_parts p t u u'
    | Err e, Err e' => e = e'
    | _, _ => False
    end;
  sh_apply : forall p v q, h_apply h' p v q = h_apply h p v q;
  sh_collect : forall p l t, h_collect h' p l t = h_collect h p l t;
  sh_reduce : forall p l r t, h_reduce h' p l r t = h_reduce h p l r t
}.
End Read.

Section Errors.
Context {V T P R : Type}.
Variable properties : T -> list P.
Variable prop_error : list elem -> P -> exn -> exn.

(** The exceptions a visit can end with: those of a hook, of iterating over items, and of reading an attribute, the last with
    the property and the position of the record. *)
Inductive raised (h : hooks V T P R) (e : exn) : Prop :=
| by_unpack p v t : h_unpack h p v t = Err e -> raised h e
| by_apply p v q : h_apply h p v q = Err e -> raised h e
| by_collect p l t : h_collect h p l t = Err e -> raised h e
| by_reduce p l r t : h_reduce h p l r t = Err e -> raised h e
| by_items p v t g l : h_unpack h p v t = Ok (Parts g (Some (l, Some e))) -> raised h e
| by_attribute p v t g c q e' : h_unpack h p v t = Ok (Parts (Some g) c) -> In q (properties t) -> g q = Raised e' ->
    e = prop_error p q e' -> raised h e.
End Errors.
