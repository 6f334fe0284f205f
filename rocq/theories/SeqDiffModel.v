(** Comparing two simple lists or dicts: compare_list_iter and compare_dict_iter,
    normalize/diff.py:792-959 (the two functions are the same text up to names).

    First section: the items are given after normalize_item and repr of unhashable items
    (diff.py:811-816, 897-901): pairs of position and hashable value; items dropped by
    ignore_empty_slots are left out.  Second section: these first steps. *)
From Coq Require Import List NArith Arith Bool.
From Verif Require Import Prelude TextModel.
Import ListNotations.

(** DiffTypes (diff.py:39-52) *)
Inductive dtype : Type := NoChange | Added | Removed | Modified | Moved.

Section SeqDiff.
(** hashable values and their equality; positions (indices or keys) and their equality *)
Context {K I : Type}.
Variable keqb : K -> K -> bool.
Variable ieqb : I -> I -> bool.

(** collections.Counter *)
Fixpoint counter_get (seen : list (K * nat)) (v : K) : nat :=
  match seen with
  | [] => 0
  | (k, n) :: t => if keqb k v then n else counter_get t v
  end.
Fixpoint counter_incr (seen : list (K * nat)) (v : K) : list (K * nat) :=
  match seen with
  | [] => [(v, 1)]
  | (k, n) :: t => if keqb k v then (k, S n) :: t else (k, n) :: counter_incr t v
  end.

(** The loop diff.py:807-821: [rev_key] in the order of insertion; its keys are the
    members of [vals]. *)
Fixpoint tag (seen : list (K * nat)) (l : list (I * K)) : list ((K * nat) * I) :=
  match l with
  | [] => []
  | (i, v) :: t => ((v, counter_get seen v), i) :: tag (counter_incr seen v) t
  end.

Definition teqb (x y : K * nat) : bool := keqb (fst x) (fst y) && Nat.eqb (snd x) (snd y).
Definition tmem (x : K * nat) (l : list (K * nat)) : bool := existsb (teqb x) l.

(** [indices[x][v, seq]]; the missing case does not happen, see [lookup_total]. *)
Fixpoint lookup (x : K * nat) (l : list ((K * nat) * I)) : option I :=
  match l with
  | [] => None
  | (y, i) :: t => if teqb x y then Some i else lookup x t
  end.

Definition positions (xs : list (K * nat)) (l : list ((K * nat) * I)) : list I :=
  flat_map (fun x => match lookup x l with Some i => [i] | None => [] end) xs.

Definition imem (i : I) (l : list I) : bool := existsb (ieqb i) l.

(** An entry: the type of the difference and where, in base and other; [None] is the list
    itself. *)
Definition entry : Type := (dtype * option I * option I)%type.

(** Set iteration orders: one for every loop over a set. *)
Record orders := {
  o_unchanged : list (K * nat) -> list (K * nat);
  o_removed : list (K * nat) -> list (K * nat);
  o_added : list (K * nat) -> list (K * nat);
  o_modified : list I -> list I
}.

Definition seq_diff (o : orders) (unchanged moved : bool) (la lb : list (I * K)) : list entry :=
  let ta := tag [] la in
  let tb := tag [] lb in
  let va := map fst ta in
  let vb := map fst tb in
  let removed := filter (fun x => negb (tmem x vb)) va in
  let added := filter (fun x => negb (tmem x va)) vb in
  let same := filter (fun x => tmem x vb) va in
  (* diff.py:826-842 *)
  (if unchanged || moved then
     flat_map (fun x =>
       match lookup x ta, lookup x tb with
       | Some i, Some j =>
           if moved && negb (ieqb i j) then [(Moved, Some i, Some j)]
           else if unchanged then [(NoChange, Some i, Some j)] else []
       | _, _ => []
       end) (o_unchanged o same)
   else []) ++
  (* diff.py:844-846 *)
  let removed_idx := positions removed ta in
  let added_idx := positions added tb in
  let modified_idx := filter (fun i => imem i added_idx) removed_idx in
  (* diff.py:848-857 *)
  flat_map (fun i => if imem i modified_idx then [] else [(Removed, Some i, None)])
    (positions (o_removed o removed) ta) ++
  (* diff.py:859-868 *)
  flat_map (fun i => if imem i modified_idx then [] else [(Added, None, Some i)])
    (positions (o_added o added) tb) ++
  (* diff.py:870-875 *)
  map (fun i => (Modified, Some i, Some i)) (o_modified o modified_idx).

End SeqDiff.
Arguments orders : clear implicits.
Arguments entry : clear implicits.

(** ** Items *)

Section Items.
(** Hashable values other than text, with their equality; values that are not hashable. *)
Context {A U I : Type}.
Variable aeqb : A -> A -> bool.
Variable a_isnone : A -> bool.
Variable repr : U -> str.

Inductive item : Type :=
| IText (s : str)
| IAtom (a : A)
| IUnhash (u : U).

Variable norm : str -> str.               (* normalize_text under the options *)
Variable ignore_empty_slots : bool.
(** [compare_item_as] of the typed collection (diff.py:304-305), or the identity *)
Variable compare_item_as : item -> item.

(** What goes into the sets *)
Inductive key : Type := KText (s : str) | KAtom (a : A).

Definition keyb (x y : key) : bool :=
  match x, y with
  | KText s, KText u => str_eqb s u
  | KAtom a, KAtom b => aeqb a b
  | _, _ => false
  end.

(** normalize_item, normalize_val, value_is_empty (diff.py:216-221, 236-246, 284-306) and
    diff.py:815-818: the key of an item, or None if the item is dropped. *)
Definition item_key (v : item) : option key :=
  let v := compare_item_as v in
  let v := match v with IText s => IText (norm s) | _ => v end in
  let empty := match v with
               | IText [] => true
               | IAtom a => a_isnone a
               | _ => false
               end in
  if ignore_empty_slots && empty then None
  else Some match v with
            | IText s => KText s
            | IAtom a => KAtom a
            | IUnhash u => KText (repr u)
            end.

Definition keyed (l : list (I * item)) : list (I * key) :=
  flat_map (fun x => match item_key (snd x) with Some k => [(fst x, k)] | None => [] end) l.

(** compare_dict_iter on the pairs of key and value; compare_list_iter on those of index and
    value (collection_generator, diff.py:487-529). *)
Definition simple_diff (ieqb : I -> I -> bool) (o : orders key I) (unchanged moved : bool)
    (la lb : list (I * item)) : list (entry I) :=
  seq_diff keyb ieqb o unchanged moved (keyed la) (keyed lb).

End Items.
Arguments item : clear implicits.
Arguments key : clear implicits.

Definition enumerate {X} (l : list X) : list (nat * X) := combine (seq 0 (length l)) l.

(** compare_list_iter on two plain lists *)
Definition list_diff {A U} (aeqb : A -> A -> bool) (a_isnone : A -> bool) (repr : U -> str) (norm : str -> str)
    (ignore_empty_slots : bool) (cas : item A U -> item A U) (o : orders (key A) nat) (unchanged moved : bool)
    (la lb : list (item A U)) : list (entry nat) :=
  simple_diff aeqb a_isnone repr norm ignore_empty_slots cas Nat.eqb o unchanged moved (enumerate la) (enumerate lb).
