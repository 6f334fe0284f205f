(** Python's builtin list and dict operations, after the language and library reference
    ("Sequence types", "Mapping types").  This is the yardstick for the typed collections and
    also what their code delegates to; nothing here models normalize. *)
From Coq Require Import List Arith NArith ZArith Bool Lia.
From Verif Require Import Prelude FSModel.
Import ListNotations.

Section Lists.
Context {A : Type}.
Local Open Scope Z_scope.

(** A subscript [i] of a sequence of length [n]: negative subscripts count from the end. *)
Definition norm_index (n : nat) (i : Z) : option nat :=
  let z := if i <? 0 then i + Z.of_nat n else i in
  if (0 <=? z) && (z <? Z.of_nat n) then Some (Z.to_nat z) else None.

Definition seq_get (l : list A) (i : Z) : res A :=
  match norm_index (length l) i with
  | None => Err IndexErr
  | Some k => match nth_error l k with Some x => Ok x | None => Err IndexErr end
  end.

Definition seq_set (l : list A) (i : Z) (x : A) : res (list A) :=
  match norm_index (length l) i with
  | None => Err IndexErr
  | Some k => Ok (firstn k l ++ x :: skipn (S k) l)
  end.

Definition seq_del (l : list A) (i : Z) : res (list A) :=
  match norm_index (length l) i with
  | None => Err IndexErr
  | Some k => Ok (firstn k l ++ skipn (S k) l)
  end.

(** A slice object.  [sl_step = None] is a plain slice [lo:hi]; [Some s] a slice [lo:hi:s]. *)
Record slice := mkSlice { sl_lo : option Z; sl_hi : option Z; sl_step : option Z }.

(** [slice.indices(n)] for a step: the bounds. *)
Definition sl_bounds (n : nat) (s : slice) (step : Z) : Z * Z :=
  let N := Z.of_nat n in
  let low := if step <? 0 then -1 else 0 in
  let high := if step <? 0 then N - 1 else N in
  let adj z := if z <? 0 then Z.max (z + N) low else Z.min z high in
  let a := match sl_lo s with Some z => adj z | None => if step <? 0 then high else low end in
  let b := match sl_hi s with Some z => adj z | None => if step <? 0 then low else high end in
  (a, b).

(** [list(range(a, b, step))], at most [fuel] long. *)
Fixpoint zrange (fuel : nat) (a b step : Z) : list nat :=
  match fuel with
  | O => []
  | S f => if (if step <? 0 then b <? a else a <? b)
           then Z.to_nat a :: zrange f (a + step) b step else []
  end.

Definition sl_indices (n : nat) (s : slice) (step : Z) : list nat :=
  let (a, b) := sl_bounds n s step in zrange n a b step.

Definition is_plain_slice (s : slice) : bool :=
  match sl_step s with None => true | Some z => z =? 1 end.

(** The two cut points of a plain slice. *)
Definition sl_cuts (n : nat) (s : slice) : nat * nat :=
  let a := match sl_lo s with Some z => clamp n z | None => O end in
  let b := match sl_hi s with Some z => clamp n z | None => n end in
  (a, Nat.max a b).

Fixpoint pick (l : list A) (ks : list nat) : list A :=
  match ks with
  | [] => []
  | k :: t => match nth_error l k with Some x => x :: pick l t | None => pick l t end
  end.

Fixpoint put_at (l : list A) (ks : list nat) (xs : list A) : list A :=
  match ks, xs with
  | k :: t, x :: u => put_at (firstn k l ++ x :: skipn (S k) l) t u
  | _, _ => l
  end.

Fixpoint drop_at (i : nat) (l : list A) (ks : list nat) : list A :=
  match l with
  | [] => []
  | x :: t => if existsb (Nat.eqb i) ks then drop_at (S i) t ks else x :: drop_at (S i) t ks
  end.

Definition step_of (s : slice) : Z := match sl_step s with None => 1 | Some z => z end.

(** [l[s]] *)
Definition seq_getslice (l : list A) (s : slice) : res (list A) :=
  if step_of s =? 0 then Err ValueErr
  else if is_plain_slice s then
    let (a, b) := sl_cuts (length l) s in Ok (firstn (b - a) (skipn a l))
  else Ok (pick l (sl_indices (length l) s (step_of s))).

(** [l[s] = xs] *)
Definition seq_setslice (l : list A) (s : slice) (xs : list A) : res (list A) :=
  if step_of s =? 0 then Err ValueErr
  else if is_plain_slice s then
    let (a, b) := sl_cuts (length l) s in Ok (firstn a l ++ xs ++ skipn b l)
  else
    let ks := sl_indices (length l) s (step_of s) in
    if Nat.eqb (length ks) (length xs) then Ok (put_at l ks xs) else Err ValueErr.

(** [del l[s]] *)
Definition seq_delslice (l : list A) (s : slice) : res (list A) :=
  if step_of s =? 0 then Err ValueErr
  else if is_plain_slice s then
    let (a, b) := sl_cuts (length l) s in Ok (firstn a l ++ skipn b l)
  else Ok (drop_at 0 l (sl_indices (length l) s (step_of s))).

(** [l.insert(i, x)]: never raises *)
Definition seq_insert (l : list A) (i : Z) (x : A) : list A :=
  firstn (clamp (length l) i) l ++ x :: skipn (clamp (length l) i) l.

(** [l.pop(i)] *)
Definition seq_pop (l : list A) (i : Z) : res (A * list A) :=
  do x <- seq_get l i; do l' <- seq_del l i; Ok (x, l').

Variable eqv : A -> A -> bool.

(** [l.index(x, i, j)]: the least position [k] with [i <= k < j] that equals [x]; negative
    bounds count from the end; ValueError if there is none. *)
Fixpoint find_from (k : nat) (l : list A) (x : A) (j : nat) : option nat :=
  match l with
  | [] => None
  | y :: t => if Nat.ltb k j then if eqv y x then Some k else find_from (S k) t x j else None
  end.

Definition seq_index (l : list A) (x : A) (i : Z) (j : option Z) : res nat :=
  let a := clamp (length l) i in
  let b := match j with Some z => clamp (length l) z | None => length l end in
  match find_from a (skipn a l) x b with Some k => Ok k | None => Err ValueErr end.

(** [l.remove(x)] *)
Definition seq_remove (l : list A) (x : A) : res (list A) :=
  do k <- seq_index l x 0 None; Ok (firstn k l ++ skipn (S k) l).

Definition seq_count (l : list A) (x : A) : nat := length (filter (fun y => eqv y x) l).
Definition seq_contains (l : list A) (x : A) : bool := existsb (fun y => eqv y x) l.

End Lists.

Section Dicts.
Context {K A : Type}.
Variable keqb : K -> K -> bool.

Fixpoint dict_get (d : list (K * A)) (k : K) : option A :=
  match d with
  | [] => None
  | (k', v) :: t => if keqb k' k then Some v else dict_get t k
  end.

(** [d[k] = v]: in place if the key is there, else at the end *)
Fixpoint dict_set (d : list (K * A)) (k : K) (v : A) : list (K * A) :=
  match d with
  | [] => [(k, v)]
  | (k', v') :: t => if keqb k' k then (k', v) :: t else (k', v') :: dict_set t k v
  end.

Fixpoint dict_del (d : list (K * A)) (k : K) : list (K * A) :=
  match d with
  | [] => []
  | (k', v') :: t => if keqb k' k then t else (k', v') :: dict_del t k
  end.
End Dicts.
