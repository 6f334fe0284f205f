(** Approximate matching of the items of record collections: _nested_falsy, _fuzzy_match,
    normalize/diff.py:532-587. *)
From Coq Require Import List ZArith Arith Bool.
From Verif Require Import Prelude SeqDiffModel.
Import ListNotations.

Section Fuzzy.
(** Values found in the keys, other than tuples: their equality, and [x is _nothing or not x]. *)
Context {A : Type}.
Variable aeqb : A -> A -> bool.
Variable afalsy : A -> bool.

(** An element of a key: a value or a tuple (the key of a nested record, or a tuple in a slot). *)
Inductive kv : Type := KV (a : A) | KTup (l : list kv).

(** Python's == on these *)
Fixpoint kveqb (x y : kv) {struct x} : bool :=
  match x, y with
  | KV a, KV b => aeqb a b
  | KTup l, KTup m =>
      (fix go (l m : list kv) : bool :=
         match l, m with
         | [], [] => true
         | u :: l, v :: m => kveqb u v && go l m
         | _, _ => false
         end) l m
  | _, _ => false
  end.

(** The key of an item: a tuple *)
Definition pk : Type := list kv.
Definition pkeqb (x y : pk) : bool := kveqb (KTup x) (KTup y).

(** _nested_falsy (diff.py:532-536): [not all(not _nested_falsy(y) for y in x)] *)
Fixpoint nested_falsy (x : kv) : bool :=
  match x with
  | KV a => afalsy a
  | KTup l => negb (forallb (fun y => negb (nested_falsy y)) l)
  end.

(** The loop diff.py:560-569 over the common length *)
Fixpoint scan (x y : pk) (m n : nat) : nat * nat :=
  match x, y with
  | u :: x, v :: y =>
      if kveqb u v then scan x y (if nested_falsy u then m else S m) n
      else scan x y m (S n)
  | _, _ => (m, n)
  end.

Definition score (x y : pk) : nat * nat :=
  let common := Nat.min (length x) (length y) in
  scan x y 0 (Nat.max (length x) (length y) - common).

(** An item in the sets: its key and the number of earlier items of the same key *)
Definition tagged : Type := (pk * nat)%type.
Definition tgeqb : tagged -> tagged -> bool := teqb pkeqb.

(** [seen]: scores by pair of keys *)
Fixpoint seen_get (seen : list ((pk * pk) * (nat * nat))) (x y : pk) : option (nat * nat) :=
  match seen with
  | [] => None
  | ((u, v), s) :: t => if pkeqb u x && pkeqb v y then Some s else seen_get t x y
  end.

Definition scored : Type := ((nat * nat) * (tagged * tagged))%type.

(** The loop diff.py:552-572 over [product(set_a, set_b)] *)
Fixpoint collect (pairs : list (tagged * tagged)) (seen : list ((pk * pk) * (nat * nat))) (scores : list scored)
    : list scored :=
  match pairs with
  | [] => scores
  | (x, y) :: t =>
      match seen_get seen (fst x) (fst y) with
      | Some (m, n) =>
          collect t seen (if Nat.eqb m 0 then scores else scores ++ [((m, n), (x, y))])
      | None =>
          let '(m, n) := score (fst x) (fst y) in
          collect t (((fst x, fst y), (m, n)) :: seen)
            (if Nat.eqb m 0 then scores else scores ++ [((m, n), (x, y))])
      end
  end.

(** The sort key [x[0] - x[1]] *)
Definition weight (s : scored) : Z := (Z.of_nat (fst (fst s)) - Z.of_nat (snd (fst s)))%Z.

(** [sorted(..., reverse=True)] is stable: equal elements keep their order. *)
Fixpoint insert (s : scored) (l : list scored) : list scored :=
  match l with
  | [] => [s]
  | u :: t => if (weight u <? weight s)%Z then s :: l else u :: insert s t
  end.
Definition sorted_rev (l : list scored) : list scored := fold_left (fun acc s => insert s acc) l [].

Definition tgmem (x : tagged) (l : list tagged) : bool := existsb (tgeqb x) l.
Definition tgremove (x : tagged) (l : list tagged) : list tagged := filter (fun y => negb (tgeqb x y)) l.

(** The loop diff.py:577-587 *)
Fixpoint pick (l : list scored) (ra rb : list tagged) : list (tagged * tagged) :=
  match l with
  | [] => []
  | (_, (x, y)) :: t =>
      let hit := tgmem x ra && tgmem y rb in
      let ra' := if hit then tgremove x ra else ra in
      let rb' := if hit then tgremove y rb else rb in
      (if hit then [(x, y)] else []) ++
      match ra', rb' with
      | [], _ | _, [] => []
      | _, _ => pick t ra' rb'
      end
  end.

(** [set_a] and [set_b] in the order in which the sets are iterated *)
Definition fuzzy_match (set_a set_b : list tagged) : list (tagged * tagged) :=
  pick (sorted_rev (collect (list_prod set_a set_b) [] [])) set_a set_b.

End Fuzzy.
Arguments kv : clear implicits.
Arguments pk : clear implicits.
Arguments tagged : clear implicits.
Arguments scored : clear implicits.
