(** Pickling and deep copying where objects are shared and refer to each other: what pickle and copy.deepcopy do with
    Record.__getnewargs__, __getstate__, __setstate__ (normalize/record/__init__.py:69-83) and _Generic.__reduce__,
    _GenericPickler (normalize/coll.py:454-472).  [PickleModel] has trees only.
    pickle.loads(pickle.dumps(x)) is modelled as one walk: the loader executes what the pickler writes, in that order.
    Simplifications: keys of dicts are atoms; lists and dicts have at most 1000 items (pickle fills them in batches of
    1000); generic collections have no properties besides their items and hold items of their item type, so that the
    constructor keeps them (C21, C43). *)
From Coq Require Import List Arith NArith Bool.
From Verif Require Import Prelude.
Import ListNotations.

Section Graph.
(** [A]: values pickled by themselves; [C]: classes; [L]: names of slots, keys or nothing. *)
Context {A C L : Type}.

Inductive pv := PA (a : A) | PR (r : nat).
(** Plain: records, collections which are not generic (the list or dict [_values] is one of their slots), lists, dicts.
    Generic: collections made by list_of or dict_of, with their items; the list or dict [_values] belongs to the collection alone. *)
Inductive kind := Plain (c : C) | Generic (c : C).
Record obj := Obj { o_kind : kind; o_parts : list (L * pv) }.

(** What is known of an object of the source: its copy, or that the items of the generic collection are being copied, with
    the copies which are in its new [_values] already. *)
Inductive entry := Done (r : nat) | Busy (l : list (L * pv)).
Record state := State { memo : list (nat * entry); heap : list obj }.
Fixpoint look (m : list (nat * entry)) (r : nat) : option entry :=
  match m with
  | [] => None
  | (q, e) :: m => if Nat.eqb q r then Some e else look m r
  end.
Definition note (r : nat) (e : entry) (st : state) : state := State ((r, e) :: memo st) (heap st).
Definition new (o : obj) (st : state) : state := State (memo st) (heap st ++ [o]).
Fixpoint set_nth (r : nat) (o : obj) (h : list obj) : list obj :=
  match h, r with
  | [], _ => []
  | _ :: t, 0 => o :: t
  | x :: t, S r => x :: set_nth r o t
  end.
Definition fill (r : nat) (o : obj) (st : state) : state := State (memo st) (set_nth r o (heap st)).

(** pickle, or copy.deepcopy *)
Inductive mode := Pickle | Deepcopy.

(** The items of a container, one after the other.  [tell] is called with the items so far. *)
Fixpoint copy_all (cp : pv -> state -> option (pv * state)) (tell : list (L * pv) -> state -> state)
    (l : list (L * pv)) (before : list (L * pv)) (st : state) : option (list (L * pv) * state) :=
  match l with
  | [] => Some (before, st)
  | (k, v) :: l =>
      match cp v st with
      | Some (v', st1) => let now := before ++ [(k, v')] in copy_all cp tell l now (tell now st1)
      | None => None
      end
  end.
(** The list inside a generic collection while it is copied: pickle appends all items when all are loaded (MARK ... APPENDS),
    deepcopy each at once (copy.py _deepcopy_list). *)
Definition tell (md : mode) (r : nat) (now : list (L * pv)) (st : state) : state :=
  match md, look (memo st) r with
  | Deepcopy, Some (Busy _) => note r (Busy now) st
  | _, _ => st
  end.

Section Source.
Variable md : mode.
Variable h : list obj.

(** [None]: the fuel is spent, or a reference leads nowhere.
    - A plain object is made, put in the memo, then its contents are copied, then it gets them (pickle: NEWOBJ, MEMOIZE,
      state, BUILD; deepcopy: _reconstruct; the argument made by __getnewargs__ refers to nothing).
    - For a generic collection, [_values] is copied (and is in the memo from the beginning of this); only then the collection
      is constructed from it, by [list(...)], and put in the memo (save_reduce).  If it is reached again in between,
      a second one is constructed from [_values] as it is then.
    - In the end, pickle prefers what is in the memo to the new object (pickle.py save_reduce: "recursive tuple");
      deepcopy puts the new one into the memo. *)
Fixpoint copy (n : nat) (v : pv) (st : state) {struct n} : option (pv * state) :=
  match v with
  | PA a => Some (PA a, st)
  | PR r =>
      match n with
      | O => None
      | S n =>
          match look (memo st) r, nth_error h r with
          | Some (Done r'), _ => Some (PR r', st)
          | _, None => None
          | Some (Busy now), Some (Obj k _) =>
              let r' := length (heap st) in Some (PR r', note r (Done r') (new (Obj k now) st))
          | None, Some (Obj (Plain c) l) =>
              let r' := length (heap st) in
              match copy_all (copy n) (fun _ st => st) l [] (note r (Done r') (new (Obj (Plain c) []) st)) with
              | Some (l', st1) => Some (PR r', fill r' (Obj (Plain c) l') st1)
              | None => None
              end
          | None, Some (Obj (Generic c) l) =>
              match copy_all (copy n) (tell md r) l [] (note r (Busy []) st) with
              | Some (l', st1) =>
                  match md, look (memo st1) r with
                  | Pickle, Some (Done r') => Some (PR r', st1)
                  | _, _ =>
                      let r' := length (heap st1) in
                      Some (PR r', note r (Done r') (new (Obj (Generic c) l') st1))
                  end
              | None => None
              end
          end
      end
  end.
End Source.
End Graph.
Arguments pv : clear implicits.
Arguments kind : clear implicits.
Arguments obj : clear implicits.
Arguments state : clear implicits.
