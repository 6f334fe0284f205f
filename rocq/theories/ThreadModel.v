(** Several threads which use one slot of one record, or ask for one generic type: the getters of Property
    (normalize/property/__init__.py:277-287), LazyProperty (358-369), LazySafeProperty and ROLazyProperty (390-397, 424-431),
    SafeProperty.__set__ and __delete__ (410-420), and _make_generic (normalize/coll.py:475-503).
    A program is what is done with the dict (the __dict__ of the record, or GENERIC_TYPES) at one key.  Threads may be
    interrupted between any two of its instructions.
    Simplifications: looking up, setting and deleting a key are atomic (they are, with the interpreter lock and keys which
    are strings); coercions happen before the slot is set and do not fail; defaults and the creation of types use
    nothing of the slot. *)
From Coq Require Import List Arith Bool.
From Verif Require Import Prelude.
Import ListNotations.

Inductive prog :=
| Ret                       (* return d[key] *)
| Fail                      (* raise AttributeError *)
| IfIn (yes no : prog)      (* if key in d: *)
| Look (p : prog)           (* d[key], the result is not returned *)
| Make (p : prog)           (* call the default, or create a type *)
| Put (p : prog).           (* d[key] = what was made *)

(** Property.__get__, 280-287; [attribute_error_hook] raises (277-278; V1Property, which returns, is left out). *)
Definition plain_get : prog := IfIn Ret Fail.
(** LazyProperty.__get__, 358-369 *)
Definition lazy_get : prog := IfIn plain_get (Make (Put plain_get)).
(** LazySafeProperty.__get__ and ROLazyProperty.__get__, 390-397, 424-431.  (For properties which are not data descriptors, Python itself looks
    in the dict first.) *)
Definition lazy_safe_get : prog := IfIn Ret lazy_get.
(** _make_generic, coll.py:490-503: line 492 looks at the item type of a type that is there; 502 puts the new type in the
    module, if there is no such name ([named]) *)
Definition make_generic (named : bool) : prog := IfIn (Look Ret) (Make (Put (if named then Ret else Look Ret))).

Section Threads.
Context {V : Type}.
Inductive event :=
| Returned (i : nat) (v : V)
| Raised (i : nat) (e : exn)
| Made (i : nat) (v : V)
| Assigned (i : nat) (v : V)
| Deleted (i : nat).

(** What a thread is doing: nothing, or the rest of a program, with what it has made *)
Inductive doing := Idle | Run (p : prog) (made : option V).
Record state := State { slot : option V; threads : nat -> doing }.
Definition start : state := State None (fun _ => Idle).
Definition become (i : nat) (d : doing) (f : nat -> doing) : nat -> doing := fun j => if Nat.eqb i j then d else f j.

(** Thread [i] does the next thing.  [Go]: an instruction; [fresh] is what a default called now gives.  [Begin]: it starts to read.
    [Set_], [Del]: assignment and deletion. *)
Inductive move := Begin (i : nat) (p : prog) | Go (i : nat) (fresh : V) | Set_ (i : nat) (v : V) | Del (i : nat).

Definition instr (i : nat) (fresh : V) (p : prog) (made : option V) (st : state) : state * list event :=
  let stay p made := State (slot st) (become i (Run p made) (threads st)) in
  let stop := State (slot st) (become i Idle (threads st)) in
  match p with
  | Ret => match slot st with Some v => (stop, [Returned i v]) | None => (stop, [Raised i KeyErr]) end
  | Fail => (stop, [Raised i AttrErr])
  | IfIn yes no => (stay (match slot st with Some _ => yes | None => no end) made, [])
  | Look p => match slot st with Some _ => (stay p made, []) | None => (stop, [Raised i KeyErr]) end
  | Make p => (stay p (Some fresh), [Made i fresh])
  | Put p =>
      match made with
      | Some v => (State (Some v) (become i (Run p made) (threads st)), [])
      | None => (stop, [Raised i (OtherErr 0)])
      end
  end.

(** A thread that is reading cannot do anything else; such moves are ignored. *)
Definition do_move (st : state) (m : move) : state * list event :=
  match m with
  | Begin i p => match threads st i with Idle => (State (slot st) (become i (Run p None) (threads st)), []) | _ => (st, []) end
  | Go i fresh => match threads st i with Run p made => instr i fresh p made st | Idle => (st, []) end
  | Set_ i v => match threads st i with Idle => (State (Some v) (threads st), [Assigned i v]) | _ => (st, []) end
  | Del i =>
      match threads st i, slot st with
      | Idle, Some _ => (State None (threads st), [Deleted i])
      | Idle, None => (st, [Raised i KeyErr])
      | _, _ => (st, [])
      end
  end.
Fixpoint play (st : state) (ms : list move) : state * list event :=
  match ms with
  | [] => (st, [])
  | m :: ms => let (st1, e1) := do_move st m in let (st2, e2) := play st1 ms in (st2, e1 ++ e2)
  end.
End Threads.
Arguments event : clear implicits.
Arguments doing : clear implicits.
Arguments state : clear implicits.
Arguments move : clear implicits.
