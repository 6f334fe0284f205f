(** Model of collection-valued properties: normalize/property/coll.py, over the typed
    collections of [CollModel].

    Classes are numbers with the relation [issubclass]; collections live on a heap, so that
    several attributes may hold the same collection; the class of an object never changes. *)
From Coq Require Import List Arith NArith ZArith Bool Lia.
From Verif Require Import Prelude FSModel PySeq CollModel.
Import ListNotations.

Definition CollRequired : exn := OtherErr 80.       (* exc.CollRequiredError *)
Definition CollTypeMismatch : exn := OtherErr 81.   (* exc.CollTypeMismatch *)
Definition OfWhat : exn := OtherErr 82.             (* exc.ListOfWhat, exc.DictOfWhat *)
Definition MustDerive : exn := OtherErr 83.         (* exc.ListPropertyMustDeriveListCollection, Dict... *)
Definition CollDefErr : exn := OtherErr 84.         (* exc.CollectionDefinitionError *)

Section CollProp.
Context {A K W : Type}.
Variable sub : nat -> nat -> bool.            (* issubclass *)
Variable COLL LIST DICT : nat.                (* Collection, ListCollection, DictCollection *)
Variable itemtype : nat -> option nat.        (* the class attribute; None: it raises (coll.py:62-67) *)
Variable generic : nat -> nat -> res nat.     (* _make_generic(of, coll), see C37 *)

(** ** Declarations *)

(** What CollectionProperty.__init__ sets: [valuetype] (through Property.__init__), and the
    attributes [of] and [coll] if any. *)
Record decl : Type := mkDecl { d_type : nat; d_of : option nat; d_coll : option nat }.

(** CollectionProperty.__init__ (property/coll.py:33-60).  Simplifications: [of] is a class,
    not a tuple; other keywords are those of [PropModel]. *)
Definition coll_init (of coll isa : option nat) : res decl :=
  match isa, coll with
  | None, None => Err CollRequired
  | Some i, _ =>
      let coll_bad := match coll with Some c => negb (sub i c) | None => false end in
      do of_bad <- (if coll_bad then Ok true
                    else match of with
                         | None => Ok false
                         | Some o => match itemtype i with
                                     | Some t => Ok (negb (sub o t))
                                     | None => Err CollDefErr
                                     end
                         end);
      if of_bad then Err CollTypeMismatch
      else match itemtype i with
           | None => Err CollDefErr
           | Some t => Ok (mkDecl i (Some t) (Some i))
           end
  | None, Some c =>
      if negb (sub c COLL) then Err AssertErr
      else match of with
           | None => Err AttrErr                 (* None.__module__ *)
           | Some o => do g <- generic o c; Ok (mkDecl g None None)
           end
  end.

(** ListProperty.__init__ (property/coll.py:74-88) and DictProperty.__init__ (95-109); [base] is
    ListCollection or DictCollection; [coll]: not passed, passed as None, passed. *)
Definition keyed_init (base : nat) (list_of of : option nat) (coll : option (option nat))
  (isa : option nat) : res decl :=
  let item := match list_of with None => of | Some _ => list_of end in
  match item with
  | None => Err OfWhat
  | Some o =>
      match (match coll with None => Some base | Some c => c end) with
      | None => Err TypeErr                      (* issubclass(None, ...) *)
      | Some c =>
          if negb (sub c base) then Err MustDerive
          else match list_of, of with
               | Some _, Some _ => Err TypeErr    (* "of" given twice to the base class *)
               | _, _ => coll_init (Some o) (Some c) isa
               end
      end
  end.
Definition list_init := keyed_init LIST.
Definition dict_init := keyed_init DICT.

(** ** Values *)
Inductive cval : Type :=
| VAtom (a : A)
| VRef (c r : nat).                            (* a collection: its class, where it is *)

Variable atom_class : A -> nat.
Variable asource : A -> @source cval K.       (* what an atom is to coll_to_tuples *)
Variable vkey : K -> cval.                    (* a key as a value *)
Variable coerceitem : nat -> cval -> W -> res cval * W.   (* per collection class *)
Variable sort_keys : list K -> list K.
Variable keqb : K -> K -> bool.
Variable key_of_nat : nat -> K.
Variable as_pair : cval -> option (K * cval).
Variable eqv : cval -> cval -> bool.
Variable iter_of : cval -> @iterable cval.
Variable fmt_fails : cval -> bool.
Variable sorter : list cval -> list cval * option exn.

Definition class_of (v : cval) : nat :=
  match v with VAtom a => atom_class a | VRef c _ => c end.
Definition isinst (v : cval) (c : nat) : bool := sub (class_of v) c.
Definition isitem (c : nat) (v : cval) : bool :=
  match itemtype c with Some t => isinst v t | None => false end.

Inductive content : Type :=
| CList (l : list cval)
| CDict (d : list (K * cval)).

Record state : Type := mkSt {
  heap : list (nat * content);
  slots : nat -> nat -> option cval;           (* record, attribute *)
  world : W
}.

Definition set_world (w : W) (st : state) : state := mkSt (heap st) (slots st) w.

(** What a value is to [coll_to_tuples]: a collection is neither a Mapping nor a Sequence but has
    [__iter__] (coll.py:106-110), which gives the items of a list and the keys of a dict. *)
Definition source_of (st : state) (v : cval) : @source cval K :=
  match v with
  | VAtom a => asource a
  | VRef _ r =>
      match nth_error (heap st) r with
      | Some (_, CList l) => SIterable l None
      | Some (_, CDict d) => SIterable (map (fun kv => vkey (fst kv)) d) None
      | None => SOther
      end
  end.

(** [c(v)]: Collection.__init__ (coll.py:86-104) *)
Definition construct (c : nat) (v : cval) (st : state) : res cval * state :=
  let src := source_of st v in
  let alloc (x : content) (w : W) : res cval * state :=
    (Ok (VRef c (length (heap st))), mkSt (heap st ++ [(c, x)]) (slots st) w) in
  if sub c LIST then
    match list_new (isitem c) (coerceitem c) sort_keys keqb src (world st) with
    | (Ok l, w) => alloc (CList l) w
    | (Err e, w) => (Err e, set_world w st)
    end
  else if sub c DICT then
    match dict_new (isitem c) (coerceitem c) keqb key_of_nat as_pair src (world st) with
    | (Ok d, w) => alloc (CDict d) w
    | (Err e, w) => (Err e, set_world w st)
    end
  else (Err CollDefErr, st).

(** ** Assignment *)
Variable check : nat -> option (cval -> bool).   (* check= of each attribute *)
Variable attrs : nat -> option decl.

(** Property.type_safe_value (property/__init__.py:202-246) with valuetype and coerce the
    collection class *)
Definition type_safe (n : nat) (d : decl) (v : cval) (st : state) : res cval * state :=
  let judge (x : cval) : res cval :=
    match check n with
    | Some f => if f x then Ok x else Err ValueCheckErr
    | None => Ok x
    end in
  if isinst v (d_type d) then (judge v, st)
  else match construct (d_type d) v st with
       | (Ok x, st') => (if isinst x (d_type d) then judge x else Err ValueCoercionErr, st')
       | (Err _, st') => (Err CoerceErr, st')
       end.

Definition store (o n : nat) (v : cval) (st : state) : state :=
  mkSt (heap st)
       (fun o' n' => if Nat.eqb o o' && Nat.eqb n n' then Some v else slots st o' n') (world st).

(** SafeProperty.__set__ (property/__init__.py:408-411) *)
Definition safe_set (o n : nat) (d : decl) (v : cval) (st : state) : res unit * state :=
  match type_safe n d v st with
  | (Ok x, st') => (Ok tt, store o n x st')
  | (Err e, st') => (Err e, st')
  end.

(** SafeCollectionProperty.__set__ (property/coll.py:63-67): type_safe_value, then the above *)
Definition coll_set (o n : nat) (d : decl) (v : cval) (st : state) : res unit * state :=
  match type_safe n d v st with
  | (Ok x, st') => safe_set o n d x st'
  | (Err e, st') => (Err e, st')
  end.

(** ** Programs *)
Inductive op : Type :=
| ONew (c : nat) (v : cval)                    (* c(v) *)
| OAssign (o n : nat) (v : cval)               (* o.n = v *)
| OList (r : nat) (m : @lop cval)              (* a method of the list at r *)
| ODict (r : nat) (m : @dop cval K).

Fixpoint set_nth {B} (i : nat) (x : B) (l : list B) : list B :=
  match l, i with
  | [], _ => []
  | _ :: t, O => x :: t
  | y :: t, S j => y :: set_nth j x t
  end.

Definition exec (p : op) (st : state) : state :=
  match p with
  | ONew c v => snd (construct c v st)
  | OAssign o n v =>
      match attrs n with
      | Some d => snd (coll_set o n d v st)
      | None => store o n v st
      end
  | OList r m =>
      match nth_error (heap st) r with
      | Some (c, CList l) =>
          let '(_, (l', w)) :=
            list_exec (isitem c) (coerceitem c) eqv iter_of fmt_fails sorter m (l, world st) in
          mkSt (set_nth r (c, CList l') (heap st)) (slots st) w
      | _ => st
      end
  | ODict r m =>
      match nth_error (heap st) r with
      | Some (c, CDict d) =>
          let '(_, (d', w)) := dict_exec (isitem c) (coerceitem c) keqb m (d, world st) in
          mkSt (set_nth r (c, CDict d') (heap st)) (slots st) w
      | _ => st
      end
  end.

Fixpoint run (ps : list op) (st : state) : state :=
  match ps with [] => st | p :: t => run t (exec p st) end.

(** Nothing but existing collections can be assigned. *)
Definition live (st : state) (v : cval) : Prop :=
  match v with
  | VAtom _ => True
  | VRef c r => exists x, nth_error (heap st) r = Some (c, x)
  end.
Fixpoint possible (ps : list op) (st : state) : Prop :=
  match ps with
  | [] => True
  | p :: t => match p with OAssign _ _ v => live st v | _ => True end /\ possible t (exec p st)
  end.

End CollProp.
