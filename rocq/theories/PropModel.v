(** Model of typed attribute slots: normalize/property/__init__.py and the record
    constructor normalize/record/__init__.py.

    A record instance is its [__dict__] ([slots]), together with the state of the outside
    world that user supplied functions may change ([world]) and a ghost trace of the calls
    made to property defaults ([calls], newest first; the code has no such thing).

    User supplied functions:
    - the type test ([isinstance(v, valuetype)]) and the [check] function are functions of
      the value (a check may raise, [Err]);
    - the coercion function may read and change the world and may raise;
    - a [default] that is a plain function may read and change the world and may raise;
    - a [default] that is a method is a program which may in addition read, assign and
      delete attributes of the record it is computed for, see their outcome (including the
      exception) and go on ([prog]). *)
From Coq Require Import List NArith Bool Lia Permutation String.
From Verif Require Import Prelude.
Import ListNotations.

(** A Python value, with [None] and the private sentinel object [_none]
    (property/__init__.py:38-43, printed as "<not set>") singled out, since the code
    tests for them with [is]. *)
Inductive pval (A : Type) : Type :=
| PUnset
| PNone
| PV (a : A).
Arguments PUnset {A}.
Arguments PNone {A}.
Arguments PV {A} a.

(** Outcome of a coercion function: a value; [exc.SubtypeCoerceError] which carries the
    coerced value (property/__init__.py:208-211); any other exception. *)
Inductive cres (A : Type) : Type :=
| CRet (v : pval A)
| CSubtype (v : pval A)
| CRaise (e : exn).
Arguments CRet {A} v.
Arguments CSubtype {A} v.
Arguments CRaise {A} e.

(** How assignment and deletion are dispatched: no [__set__] (property/__init__.py:46-321,
    "unsafe"), [SafeProperty] (400-420), [ROProperty] (375-386), [V1Property] (434-471). *)
Inductive setter := Unsafe | Safe | RO | V1.

Section Prop_.
Variable A : Type.   (* ordinary Python values *)
Variable W : Type.   (* state of the world outside the record *)
Notation V := (pval A).

(** A default method, as an interaction tree over the record's attributes. *)
Inductive prog : Type :=
| PRet (v : V)
| PRaise (e : exn)
| PGet (n : str) (k : res V -> prog)
| PSet (n : str) (v : V) (k : res unit -> prog)
| PDel (n : str) (k : res unit -> prog)
| PWorld (f : W -> W) (k : W -> prog).

(** [default=] (property/__init__.py:54-157): absent ([_none]), a value, a function, a
    method (first argument called self). *)
Inductive deflt : Type :=
| DNone
| DVal (v : V)
| DFun (f : W -> res V * W)
| DMeth (p : prog).

(** The fields of a property that steer its run time behaviour
    (property/__init__.py:129-157).  [p_isa = None] is a falsy [valuetype].
    [p_v1none] and [p_eqv1]: [self.v1_none] and the test [value == self.v1_none]
    (property/__init__.py:450, 467). *)
Record prop : Type := mkProp {
  p_lazy : bool;
  p_set : setter;
  p_required : bool;
  p_isa : option (V -> bool);
  p_coerce : V -> W -> cres A * W;
  p_check : option (V -> res bool);
  p_default : deflt;
  p_v1none : V;
  p_eqv1 : V -> bool
}.

Record state : Type := mkState {
  slots : str -> option V;
  world : W;
  calls : list str
}.

Definition upd (s : str -> option V) (n : str) (x : option V) : str -> option V :=
  fun m => if str_eqb n m then x else s m.
Definition store (n : str) (v : V) (st : state) : state :=
  mkState (upd (slots st) n (Some v)) (world st) (calls st).
Definition unstore (n : str) (st : state) : state :=
  mkState (upd (slots st) n None) (world st) (calls st).
Definition set_world (w : W) (st : state) : state := mkState (slots st) w (calls st).
Definition note (n : str) (st : state) : state :=
  mkState (slots st) (world st) (n :: calls st).

Definition is_none (v : V) : bool := match v with PNone => true | _ => false end.
Definition is_unset (v : V) : bool := match v with PUnset => true | _ => false end.
Definition no_isa (p : prop) : bool := match p_isa p with None => true | _ => false end.

(** [if self.check and not self.check(value)] (property/__init__.py:241-245) *)
Definition run_check (p : prop) (v : V) : res V :=
  match p_check p with
  | None => Ok v
  | Some c => match c v with
              | Err e => Err e
              | Ok false => Err ValueCheckErr
              | Ok true => Ok v
              end
  end.

(** Property.type_safe_value (property/__init__.py:202-246) *)
Definition type_safe_value (p : prop) (v : V) (none_ok : bool) (w : W) : res V * W :=
  if is_none v && p_required p && no_isa p then (Err PropRequired, w)
  else match p_isa p with
  | None => (run_check p v, w)
  | Some isa =>
      if isa v then (run_check p v, w)
      else
        let (c, w') := p_coerce p v w in
        let judge (nv : V) : res V :=
          if negb (isa nv) then
            if none_ok && is_none nv && negb (p_required p) then Ok PUnset
            else Err ValueCoercionErr
          else run_check p nv in
        match c with
        | CRet nv => (judge nv, w')
        | CSubtype nv => (judge nv, w')
        | CRaise _ => (Err CoerceErr, w')
        end
  end.

(** A class: its [properties] mapping (record/meta.py:35-62). *)
Definition cls := list (str * prop).
Variable C : cls.

Fixpoint find (n : str) (c : cls) : option prop :=
  match c with
  | [] => None
  | (m, p) :: t => if str_eqb m n then Some p else find n t
  end.

(** SafeProperty.__set__ (property/__init__.py:408-411) *)
Definition safe_set (p : prop) (n : str) (v : V) (st : state) : res unit * state :=
  let (r, w) := type_safe_value p v false (world st) in
  match r with
  | Ok nv => (Ok tt, store n nv (set_world w st))
  | Err e => (Err e, set_world w st)
  end.

(** SafeProperty.__delete__ (property/__init__.py:413-420); [del obj.__dict__[name]] raises
    KeyError when the slot is not set. *)
Definition safe_del (p : prop) (n : str) (st : state) : res unit * state :=
  if p_required p then (Err PropRequired, st)
  else match slots st n with
       | None => (Err KeyErr, st)
       | Some _ => (Ok tt, unstore n st)
       end.

(** [obj.n = v]: no data descriptor for undeclared names and for plain properties, hence
    directly into [__dict__]; SafeProperty; ROProperty.__set__ (380-382);
    V1Property.__set__ (460-471). *)
Definition setattr (n : str) (v : V) (st : state) : res unit * state :=
  match find n C with
  | None => (Ok tt, store n v st)
  | Some p =>
      match p_set p with
      | Unsafe => (Ok tt, store n v st)
      | Safe => safe_set p n v st
      | RO => (Err ReadOnlyErr, st)
      | V1 =>
          let (r, st1) := safe_set p n v st in
          match r with
          | Ok _ => (r, st1)
          | Err e =>
              if is_coercion_err e && (is_none v || p_eqv1 p v) then safe_del p n st1
              else (r, st1)
          end
      end
  end.

(** [del obj.n]: without [__delete__] the default removes from [__dict__] or raises
    AttributeError; ROProperty.__delete__ (384-386). *)
Definition delattr (n : str) (st : state) : res unit * state :=
  let plain :=
    match slots st n with
    | None => (Err AttrErr, st)
    | Some _ => (Ok tt, unstore n st)
    end in
  match find n C with
  | None => plain
  | Some p =>
      match p_set p with
      | Unsafe => plain
      | Safe | V1 => safe_del p n st
      | RO => (Err ReadOnlyErr, st)
      end
  end.

(** Execution of a default method; [get] reads an attribute. *)
Section Run.
Variable get : str -> state -> res V * state.
Fixpoint run (p : prog) (st : state) : res V * state :=
  match p with
  | PRet v => (Ok v, st)
  | PRaise e => (Err e, st)
  | PGet n k => let (r, st1) := get n st in run (k r) st1
  | PSet n v k => let (r, st1) := setattr n v st in run (k r) st1
  | PDel n k => let (r, st1) := delattr n st in run (k r) st1
  | PWorld f k => run (k (world st)) (set_world (f (world st)) st)
  end.

(** Property.get_default (property/__init__.py:248-257); the call of a callable default is
    recorded in the trace. *)
Definition get_default (n : str) (p : prop) (st : state) : res V * state :=
  match p_default p with
  | DNone => (Ok PUnset, st)
  | DVal v => (Ok v, st)
  | DFun f => let (r, w) := f (world st) in (r, set_world w (note n st))
  | DMeth m => run m (note n st)
  end.
End Run.

(** [obj.n].  A set slot is found in [__dict__] whatever the kind of property
    (property/__init__.py:280-287, 355-367, 389-397, 423-431; plain and lazy properties are
    non-data descriptors and not even consulted).  An unset slot: AttributeError (277-278);
    v1: the none value (457-458); lazy: default, checked and stored, unless that raises
    (355-367).  The fuel bounds the nesting of lazy defaults reading lazy defaults. *)
Fixpoint getattr (fuel : nat) (n : str) (st : state) : res V * state :=
  match fuel with
  | O => (Err RecursionErr, st)
  | S f =>
      match slots st n with
      | Some v => (Ok v, st)
      | None =>
          match find n C with
          | None => (Err AttrErr, st)
          | Some p =>
              if p_lazy p then
                let (r, st1) := get_default (getattr f) n p st in
                match r with
                | Err e => (Err e, st1)
                | Ok v =>
                    let (r2, w) := type_safe_value p v false (world st1) in
                    match r2 with
                    | Err e => (Err e, set_world w st1)
                    | Ok nv => (Ok nv, store n nv (set_world w st1))
                    end
                end
              else match p_set p with
                   | V1 => (Ok (p_v1none p), st)
                   | _ => (Err AttrErr, st)
                   end
          end
      end
  end.

(** Property.init_prop (property/__init__.py:259-272) and LazyProperty.init_prop (346-349);
    [given = None] is the call without a value. *)
Definition init_prop (fuel : nat) (n : str) (p : prop) (given : option V) (st : state)
  : res unit * state :=
  let base (v : V) (st : state) : res unit * state :=
    let (r, w) := if is_unset v then (Ok PUnset, world st)
                  else type_safe_value p v true (world st) in
    let st1 := set_world w st in
    match r with
    | Err e => (Err e, st1)
    | Ok nv =>
        if is_unset nv then
          if p_required p then (Err PropRequired, st1) else (Ok tt, st1)
        else (Ok tt, store n nv st1)
    end in
  match given with
  | Some v => base v st
  | None =>
      if p_lazy p then (Ok tt, st)
      else
        let (r, st1) := get_default (getattr fuel) n p st in
        match r with
        | Err e => (Err e, st1)
        | Ok v => base v st1
        end
  end.

(** Property.eager_init (274-275), LazyProperty.eager_init (351-352) *)
Definition eager_init (p : prop) : bool :=
  if p_lazy p then false
  else p_required p || match p_default p with DNone => false | _ => true end.

(** RecordMeta: eager_properties (record/meta.py:90-92) *)
Definition eager_properties : list str :=
  map fst (filter (fun np => eager_init (snd np)) C).

Fixpoint init_given (fuel : nat) (kw : list (str * V)) (st : state) : res unit * state :=
  match kw with
  | [] => (Ok tt, st)
  | (n, v) :: t =>
      match find n C with
      | None => (Err PropNotKnown, st)
      | Some p =>
          let (r, st1) := init_prop fuel n p (Some v) st in
          match r with Ok _ => init_given fuel t st1 | Err _ => (r, st1) end
      end
  end.

Fixpoint init_missing (fuel : nat) (ns : list str) (st : state) : res unit * state :=
  match ns with
  | [] => (Ok tt, st)
  | n :: t =>
      match find n C with
      | None => (Err KeyErr, st)
      | Some p =>
          let (r, st1) := init_prop fuel n p None st in
          match r with Ok _ => init_missing fuel t st1 | Err _ => (r, st1) end
      end
  end.

Definition empty_state (w : W) : state := mkState (fun _ => None) w [].

(** Record.__init__ (record/__init__.py:32-67) on a new instance.  [init_dict = None] when
    not passed.  [ord] is the order in which Python enumerates the frozenset of missing
    eager properties. *)
Definition record_init (ord : list str -> list str) (fuel : nat)
    (init_dict : option (list (str * V))) (kwargs : list (str * V)) (w : W)
  : res unit * state :=
  let st := empty_state w in
  let d := match init_dict with Some d => d | None => [] end in
  match d, kwargs with
  | _ :: _, _ :: _ => (Err AmbiguousCons, st)
  | _, _ =>
      let kw := match d with [] => kwargs | _ => d end in
      let (r, st1) := init_given fuel kw st in
      match r with
      | Err _ => (r, st1)
      | Ok _ =>
          let given := map fst kw in
          let missing := filter (fun n => negb (existsb (str_eqb n) given)) eager_properties in
          init_missing fuel (ord missing) st1
      end
  end.

(** A user's operation on an existing record, and its visible outcome. *)
Inductive op := OGet (n : str) | OSet (n : str) (v : V) | ODel (n : str).
Inductive outcome := Got (r : res V) | Done (r : res unit).

Definition step (fuel : nat) (o : op) (st : state) : outcome * state :=
  match o with
  | OGet n => let (r, st1) := getattr fuel n st in (Got r, st1)
  | OSet n v => let (r, st1) := setattr n v st in (Done r, st1)
  | ODel n => let (r, st1) := delattr n st in (Done r, st1)
  end.

Fixpoint history (fuel : nat) (os : list op) (st : state) : list outcome * state :=
  match os with
  | [] => ([], st)
  | o :: t => let (r, st1) := step fuel o st in
              let (rs, st2) := history fuel t st1 in (r :: rs, st2)
  end.

End Prop_.
