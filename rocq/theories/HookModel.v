(** Positions during a visit: normalize/visitor.py:85-119, 591-758.

    [map] hands generators to the hooks [collect] and [reduce]: [map_collection] and [map_record] run
    only when a hook asks them for the next pair, and hooks decide when and how far they are run,
    may keep them and run them later.  So the visitors, the generators and the
    call stack are modelled, with the user's code ([unpack], [collect], [reduce], [apply] and getters)
    left open: a transition system in which it does anything it can with the generators, but does not
    call [push] and [pop] itself.  Iterators of collections yield or raise, and run no generators of
    visits.

    Values are not represented: which items and properties there are is open at every step, so that
    the model covers all values and types.  A value is known by its path from the visited value. *)
From Coq Require Import List Bool.
From Verif Require Import Prelude SelPathModel FSModel.
Import ListNotations.
Local Open Scope list_scope.

(** Items come from [map_collection], properties from [map_record]. *)
Inductive kind := Items | Props.
Definition path := list (kind * elem).

(** The execution state of a generator object (the language's):
    not begun; suspended after a [yield], with the key still to be popped in [map_record]
    (visitor.py:674-675) and none in [map_collection] (683-689); being executed, with the key that is
    pushed, if any; returned or ended by an exception.  The number is the visitor [rv] that it has made
    by copying. *)
Inductive phase :=
| Fresh
| Suspended (rv : nat) (due : option elem)
| Running (rv : nat) (at_key : option elem)
| Ended.

(** A generator object: the function, the argument [visitor], the execution state.  For the proofs
    [g_path] is the path of the value it is for and [g_base] the cue copied when it began. *)
Record gen := mkGen {
  g_kind : kind; g_visitor : nat; g_phase : phase; g_path : path; g_base : list elem
}.

(** How far a call of [map] (visitor.py:591-639) is: [unpack] has been called; [collect] has been
    called or is not needed; [reduce] or [apply] has been called. *)
Inductive stage := Unpacking | Collecting | Finishing.

(** The call stack.  [Program]: the program that visits.  [User]: a hook or a getter, called with
    a visitor for the value at a path ([u_cue]: the cue at the time of the call, for the proofs).
    [Map]: a call of [map], with the generators it has made.  [Resume]: a generator's code, executed
    for a [next]. *)
Inductive frame :=
| Program
| User (v : nat) (p : path) (u_cue : list elem)
| Map (v : nat) (p : path) (st : stage) (made : list nat)
| Resume (g : nat).

(** [cues]: the list [cue] of each visitor; [gens]: the generator objects; [raising]: an exception is
    on its way up the stack. *)
Record state := mkState {
  cues : nat -> list elem; n_visitors : nat;
  gens : nat -> gen; n_gens : nat;
  stack : list frame; raising : bool
}.

Definition set {A} (f : nat -> A) (n : nat) (a : A) : nat -> A :=
  fun m => if Nat.eqb m n then a else f m.

Definition with_cue (s : state) (v : nat) (c : list elem) : state :=
  mkState (set (cues s) v c) (n_visitors s) (gens s) (n_gens s) (stack s) (raising s).
Definition with_phase (s : state) (g : nat) (ph : phase) : state :=
  let o := gens s g in
  mkState (cues s) (n_visitors s)
          (set (gens s) g (mkGen (g_kind o) (g_visitor o) ph (g_path o) (g_base o)))
          (n_gens s) (stack s) (raising s).
Definition with_stack (s : state) (st : list frame) (r : bool) : state :=
  mkState (cues s) (n_visitors s) (gens s) (n_gens s) st r.

(** [Visitor.push] (visitor.py:97-98), [Visitor.pop(what)] (100-103: None if the assertion fails or
    the list is empty) *)
Definition push (s : state) (v : nat) (k : elem) : state := with_cue s v (cues s v ++ [k]).
Definition pop (s : state) (v : nat) (k : elem) : option state :=
  match rev (cues s v) with
  | [] => None
  | x :: r => if elem_eqb x k then Some (with_cue s v (rev r)) else None
  end.

(** A new Visitor with a cue: [Visitor.__init__] (visitor.py:86) and [Visitor.copy] (105-119);
    the options are the same for all of a visit. *)
Definition new_visitor (s : state) (c : list elem) : state :=
  mkState (set (cues s) (n_visitors s) c) (S (n_visitors s)) (gens s) (n_gens s) (stack s) (raising s).

(** A call of one of the generator functions makes an object and executes nothing. *)
Definition new_gen (s : state) (k : kind) (v : nat) (p : path) : state :=
  mkState (cues s) (n_visitors s) (set (gens s) (n_gens s) (mkGen k v Fresh p [])) (S (n_gens s))
          (stack s) (raising s).

(** [visitor.copy()], the first thing a generator does (visitor.py:643, 679): the visitor is copied
    now, not when the generator was made. *)
Definition begin_gen (s : state) (g : nat) : state :=
  let o := gens s g in
  let c := cues s (g_visitor o) in
  let rv := n_visitors s in
  let s1 := new_visitor s c in
  mkState (cues s1) (n_visitors s1)
          (set (gens s1) g (mkGen (g_kind o) (g_visitor o) (Running rv None) (g_path o) c))
          (n_gens s1) (Resume g :: stack s1) false.

(** Call code of the user's. *)
Definition call (s : state) (v : nat) (p : path) : state :=
  with_stack s (User v p (cues s v) :: stack s) false.
(** Call [map], which begins by calling [unpack] (visitor.py:607). *)
Definition call_map (s : state) (v : nat) (p : path) : state :=
  call (with_stack s (Map v p Unpacking [] :: stack s) false) v p.

(** Is the frame code of the user's, which may do as it likes? *)
Definition is_user (f : frame) : Prop := match f with Program | User _ _ _ => True | _ => False end.

Section Step.
(** [Visitor.is_filtered] for the property of that name (visitor.py:88-91), by its position.  Which
    class the property belongs to is not represented: that it is extraneous is one of its reasons. *)
Variable filtered : list elem -> elem -> bool.

Inductive step : state -> state -> Prop :=
(* the user's code: start a visit of its own (visitor.py:182-193), *)
| visit s f st : stack s = f :: st -> raising s = false -> is_user f ->
    step s (call_map (new_visitor s []) (n_visitors s) [])
(* call next on a generator it has not begun, *)
| next_fresh s f st g : stack s = f :: st -> raising s = false -> is_user f ->
    g < n_gens s -> g_phase (gens s g) = Fresh ->
    step s (begin_gen s g)
(* or on a suspended one: the key that is due is popped, *)
| next_suspended s f st g rv : stack s = f :: st -> raising s = false -> is_user f ->
    g < n_gens s -> g_phase (gens s g) = Suspended rv None ->
    step s (with_stack (with_phase s g (Running rv None)) (Resume g :: stack s) false)
| next_due s s' f st g rv k : stack s = f :: st -> raising s = false -> is_user f ->
    g < n_gens s -> g_phase (gens s g) = Suspended rv (Some k) -> pop s rv k = Some s' ->
    step s (with_stack (with_phase s' g (Running rv None)) (Resume g :: stack s) false)
(* drop a generator that has been begun or not (generator.close), *)
| close s f st g : stack s = f :: st -> raising s = false -> is_user f ->
    g < n_gens s -> (forall rv k, g_phase (gens s g) <> Running rv k) ->
    step s (with_phase s g Ended)
(* return, *)
| return_ s v p c st : stack s = User v p c :: st -> raising s = false ->
    step s (with_stack s st false)
(* raise, *)
| raise_ s v p c st : stack s = User v p c :: st -> raising s = false ->
    step s (with_stack s st true)
(* or catch. *)
| catch_ s f st : stack s = f :: st -> raising s = true -> is_user f ->
    step s (with_stack s (stack s) false)
| uncaught s v p c st : stack s = User v p c :: st -> raising s = true ->
    step s (with_stack s st true)
(* [map] after unpack: StopVisiting (609-612), *)
| map_stop s v p made st : stack s = Map v p Unpacking made :: st -> raising s = false ->
    step s (with_stack s st false)
(* a collection (620-626) or not, *)
| map_coll s v p made st : stack s = Map v p Unpacking made :: st -> raising s = false ->
    step s (call (with_stack (new_gen s Items v p) (Map v p Collecting (n_gens s :: made) :: st) false) v p)
| map_nocoll s v p made st : stack s = Map v p Unpacking made :: st -> raising s = false ->
    step s (with_stack s (Map v p Collecting made :: st) false)
(* properties, and reduce (632-633, 637), *)
| map_props s v p made st : stack s = Map v p Collecting made :: st -> raising s = false ->
    step s (call (with_stack (new_gen s Props v p) (Map v p Finishing (n_gens s :: made) :: st) false) v p)
(* no properties: apply (634-635) or reduce, *)
| map_noprops s v p made st : stack s = Map v p Collecting made :: st -> raising s = false ->
    step s (call (with_stack s (Map v p Finishing made :: st) false) v p)
| map_return s v p made st : stack s = Map v p Finishing made :: st -> raising s = false ->
    step s (with_stack s st false)
| map_raise s v p stg made st : stack s = Map v p stg made :: st -> raising s = true ->
    step s (with_stack s st true)
(* a generator: no more items or properties, or its iterator raises, *)
| gen_end s g st rv exn : stack s = Resume g :: st -> raising s = false ->
    g_phase (gens s g) = Running rv None ->
    step s (with_stack (with_phase s g Ended) st exn)
(* an item (680-682), *)
| gen_item s g st rv k : stack s = Resume g :: st -> raising s = false ->
    g_phase (gens s g) = Running rv None -> g_kind (gens s g) = Items ->
    step s (call_map (with_phase (push s rv k) g (Running rv (Some k))) rv (g_path (gens s g) ++ [(Items, k)]))
(* a property that is filtered (645-646), *)
| gen_filtered s g st rv k : stack s = Resume g :: st -> raising s = false ->
    g_phase (gens s g) = Running rv None -> g_kind (gens s g) = Props -> filtered (cues s rv) k = true ->
    step s s
(* one that is not: the key is pushed, the getter called (648-650), *)
| gen_prop s g st rv k : stack s = Resume g :: st -> raising s = false ->
    g_phase (gens s g) = Running rv None -> g_kind (gens s g) = Props -> filtered (cues s rv) k = false ->
    step s (call (with_phase (push s rv k) g (Running rv (Some k))) rv (g_path (gens s g) ++ [(Props, k)]))
(* then the value is mapped (703-704, and each attempt of 722-758) or applied (706, 756), *)
| gen_map s g st rv k : stack s = Resume g :: st -> raising s = false ->
    g_phase (gens s g) = Running rv (Some k) -> g_kind (gens s g) = Props ->
    step s (call_map s rv (g_path (gens s g) ++ [(Props, k)]))
| gen_apply s g st rv k : stack s = Resume g :: st -> raising s = false ->
    g_phase (gens s g) = Running rv (Some k) -> g_kind (gens s g) = Props ->
    step s (call s rv (g_path (gens s g) ++ [(Props, k)]))
(* TypeError is caught in a union, AttributeError and KeyError of a getter (651-654, 738, 748), *)
| gen_catch s g st rv k : stack s = Resume g :: st -> raising s = true ->
    g_phase (gens s g) = Running rv (Some k) -> g_kind (gens s g) = Props ->
    step s (with_stack s (stack s) false)
(* other exceptions of a getter: the key is popped before VisitorPropError (656-663), *)
| gen_prop_error s s' g st rv k : stack s = Resume g :: st -> raising s = true ->
    g_phase (gens s g) = Running rv (Some k) -> g_kind (gens s g) = Props -> pop s rv k = Some s' ->
    step s (with_stack (with_phase s' g Ended) st true)
(* other exceptions end the generator, *)
| gen_raise s g st rv k : stack s = Resume g :: st -> raising s = true ->
    g_phase (gens s g) = Running rv (Some k) ->
    step s (with_stack (with_phase s g Ended) st true)
(* the pair is yielded: the key of an item is popped first (683, 689), that of a property is due (674), *)
| gen_yield_item s s' g st rv k : stack s = Resume g :: st -> raising s = false ->
    g_phase (gens s g) = Running rv (Some k) -> g_kind (gens s g) = Items -> pop s rv k = Some s' ->
    step s (with_stack (with_phase s' g (Suspended rv None)) st false)
| gen_yield_prop s g st rv k : stack s = Resume g :: st -> raising s = false ->
    g_phase (gens s g) = Running rv (Some k) -> g_kind (gens s g) = Props ->
    step s (with_stack (with_phase s g (Suspended rv (Some k))) st false)
(* or there is nothing to yield (669-672, 675, 683-687). *)
| gen_ignore s s' g st rv k : stack s = Resume g :: st -> raising s = false ->
    g_phase (gens s g) = Running rv (Some k) -> pop s rv k = Some s' ->
    step s (with_phase s' g (Running rv None)).

(** The program before it visits anything. *)
Definition no_gen : gen := mkGen Items 0 Ended [] [].
Definition start : state := mkState (fun _ => []) 0 (fun _ => no_gen) 0 [Program] false.

Inductive reach (ok : state -> state -> Prop) : state -> Prop :=
| reach_start : reach ok start
| reach_step s s' : reach ok s -> step s s' -> ok s s' -> reach ok s'.
End Step.
