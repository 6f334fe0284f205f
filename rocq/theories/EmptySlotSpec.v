(** What visiting with apply_empty_slots reaches (C61): specification only.  [hidden], [shown],
    [selected], [filter_of], [collection], [left_out], [seen_as] and [out_at] are those of VisitSpec. *)
From Coq Require Import String List NArith ZArith Arith Bool.
From Verif Require Import Prelude SelPathModel FSModel MFSModel GenModel JsonModel JsonSpec VisitModel DiffFilter VisitSpec.
Import ListNotations.
Local Open Scope string_scope.
Local Open Scope list_scope.

(** The value of a slot; None: it is not set, or there is no record to have it. *)
Definition held_at (v : option pyv) (n : str) : option pyv :=
  match v with Some (PObj _ sl) => slot sl n | _ => None end.

(** What has items: a collection, or a list or mapping in its place. *)
Definition has_item (listk : bool) (v : pyv) (k : elem) (x : pyv) : Prop :=
  let among w := match w, k with
                 | PList l, EInt i => (0 <= i)%Z /\ nth_error l (Z.to_nat i) = Some x
                 | PDict l, EStr s => In (s, x) l
                 | _, _ => False
                 end in
  match v with
  | PObj _ sl => exists w, slot sl (s2l "_values") = Some w /\ among w
  | PList _ => listk = true /\ among v
  | PDict _ => listk = false /\ among v
  | _ => False
  end.

Definition listy (W : world) (c : nat) : bool :=
  match w_kind W c with KList | KJsonList => true | _ => false end.

(** The class a slot is visited as; the declared one also where the slot is not set. *)
Definition taken_as (t : vtype) (x : option pyv) (d : nat) : Prop :=
  match t, x with
  | TCls c _, _ => d = c
  | TAny, Some v => exists sl, v = PObj d sl
  | _, _ => False
  end.

(** What is met: [Node c x], a value [x] taken as an instance of class [c]; [Leaf p x], a value of
    property [p] or, without property, an item of a collection.  None: there is no value. *)
Inductive met := Node (c : nat) (x : option pyv) | Leaf (p : option prop) (x : option pyv).

(** [meets e c v q q' t]: from [v], taken as an instance of class [c] at position [q], the visit comes
    to [t] at position [q'].  [e]: slots that are not set count too. *)
Inductive meets (W : world) (o : vopts) (P : option (list (list elem))) (e : bool) :
  nat -> option pyv -> list elem -> list elem -> met -> Prop :=
| mt_here c v q : meets W o P e c v q q (Node c v)
| mt_leaf c v q p :
    In p (w_props W c) -> shown o P q p -> (held_at v (q_name p) = None -> e = true) ->
    (forall d, ~ taken_as (q_type p) (held_at v (q_name p)) d) ->
    meets W o P e c v q (q ++ [EStr (q_name p)]) (Leaf (Some p) (held_at v (q_name p)))
| mt_slot c v q p d q' t :
    In p (w_props W c) -> shown o P q p -> (held_at v (q_name p) = None -> e = true) ->
    taken_as (q_type p) (held_at v (q_name p)) d ->
    meets W o P e d (held_at v (q_name p)) (q ++ [EStr (q_name p)]) q' t ->
    meets W o P e c v q q' t
| mt_item_leaf c v q k x :
    collection W c -> has_item (listy W c) v k x -> (forall d co, w_item W c <> TCls d co) ->
    meets W o P e c (Some v) q (q ++ [k]) (Leaf None (Some x))
| mt_item c v q k x d co q' t :
    collection W c -> has_item (listy W c) v k x -> w_item W c = TCls d co ->
    meets W o P e d (Some x) (q ++ [k]) q' t ->
    meets W o P e c (Some v) q q' t.

(** The same through properties only; [r] are the names on the way. *)
Inductive down (W : world) (o : vopts) (P : option (list (list elem))) :
  nat -> option pyv -> list elem -> list str -> prop -> option pyv -> Prop :=
| dn_leaf c v q p :
    In p (w_props W c) -> shown o P q p ->
    (forall d, ~ taken_as (q_type p) (held_at v (q_name p)) d) ->
    down W o P c v q [q_name p] p (held_at v (q_name p))
| dn_slot c v q p d r p' x :
    In p (w_props W c) -> shown o P q p -> taken_as (q_type p) (held_at v (q_name p)) d ->
    down W o P d (held_at v (q_name p)) (q ++ [EStr (q_name p)]) r p' x ->
    down W o P c v q (q_name p :: r) p' x.

(** [within o c d]: class [c] has a property, not hidden, declared as of class [d], directly or through
    other classes. *)
Inductive within (W : world) (o : vopts) : nat -> nat -> Prop :=
| wi_one c p d co : In p (w_props W c) -> ~ hidden o p -> q_type p = TCls d co -> within W o c d
| wi_more c d e : within W o c d -> within W o d e -> within W o c e.

(** No chain of declarations goes on for ever. *)
Inductive bounded (W : world) (o : vopts) (c : nat) : Prop :=
  bounds (_ : forall p d co, In p (w_props W c) -> ~ hidden o p -> q_type p = TCls d co -> bounded W o d).

(** ** Casting *)

Definition key_of (v : option pyv) (n : str) : option pyv :=
  match v with Some (PDict l) => slot l n | _ => None end.

(** Data with members for the properties of class [c]: some property is shown. *)
Definition has_members (W : world) (o : vopts) (P : option (list (list elem))) (c : nat) (q : list elem) : Prop :=
  exists p, In p (w_props W c) /\ shown o P q p.

(** The items of data for a collection: those under the key "values" if there are members, or its own.
    The values of a mapping for a list all have position 0. *)
Definition data_item (listk : bool) (v : pyv) (k : elem) (x : pyv) : Prop :=
  match v, k with
  | PList l, EInt i | PTuple l, EInt i => listk = true /\ (0 <= i)%Z /\ nth_error l (Z.to_nat i) = Some x
  | PDict l, EInt i => listk = true /\ i = 0%Z /\ exists s, In (s, x) l
  | PDict l, EStr s => listk = false /\ In (s, x) l
  | _, _ => False
  end.
Definition data_of (W : world) (o : vopts) (P : option (list (list elem))) (c : nat) (q : list elem) (v w : pyv) : Prop :=
  (has_members W o P c q /\ key_of (Some v) (s2l "values") = Some w) \/
  ((has_members W o P c q -> key_of (Some v) (s2l "values") = None) /\ w = v).

(** What casting with the option comes to. *)
Inductive cmeets (W : world) (o : vopts) (P : option (list (list elem))) :
  nat -> option pyv -> list elem -> list elem -> met -> Prop :=
| cm_here c v q : cmeets W o P c v q q (Node c v)
| cm_leaf c v q p :
    In p (w_props W c) -> shown o P q p -> (forall d, ~ taken_as (q_type p) (key_of v (q_name p)) d) ->
    cmeets W o P c v q (q ++ [EStr (q_name p)]) (Leaf (Some p) (key_of v (q_name p)))
| cm_slot c v q p d q' t :
    In p (w_props W c) -> shown o P q p -> taken_as (q_type p) (key_of v (q_name p)) d ->
    cmeets W o P d (key_of v (q_name p)) (q ++ [EStr (q_name p)]) q' t -> cmeets W o P c v q q' t
| cm_item c v w q k x d co q' t :
    collection W c -> data_of W o P c q v w -> data_item (listy W c) w k x -> w_item W c = TCls d co ->
    cmeets W o P d (Some x) (q ++ [k]) q' t -> cmeets W o P c (Some v) q q' t.
