(** The types reachable from a type (C51): specification only. *)
From Coq Require Import String List NArith ZArith Bool.
From Verif Require Import Prelude SelPathModel GenModel AutoModel JsonModel JsonSpec VisitModel VisitSpec.
Import ListNotations.
Local Open Scope list_scope.

Inductive step := QProp (n : str) | QItem.

Section Spec.
Variable W : world.
Variable alts : prop -> list (nat + str).
Variable extraneous : bool.

Definition on_show (p : prop) : Prop := q_extraneous p = true -> extraneous = true.

(** The record class a property is declared with; the first of several. *)
Definition declared (p : prop) (d : nat) : Prop :=
  (alts p = [] /\ exists co, q_type p = TCls d co)
  \/ exists plain rest, alts p = map inr plain ++ inl d :: rest.

Inductive place := AType (c : nat) | AProp (p : prop) | AItem (c : nat).

(** [walk c q t]: from class [c], through properties and item types, to [t]. *)
Inductive walk : nat -> list step -> place -> Prop :=
| wk_here c : walk c [] (AType c)
| wk_leaf c p : In p (w_props W c) -> on_show p -> (forall d, ~ declared p d) ->
    walk c [QProp (q_name p)] (AProp p)
| wk_prop c p d q t : In p (w_props W c) -> on_show p -> declared p d -> walk d q t ->
    walk c (QProp (q_name p) :: q) t
| wk_item_leaf c : collection W c -> (forall d co, w_item W c <> TCls d co) -> walk c [QItem] (AItem c)
| wk_item c d co q t : collection W c -> w_item W c = TCls d co -> walk d q t -> walk c (QItem :: q) t.

Definition uses (c d : nat) : Prop :=
  (exists p, In p (w_props W c) /\ on_show p /\ declared p d)
  \/ (collection W c /\ exists co, w_item W c = TCls d co).

(** No way goes on for ever. *)
Inductive finite (c : nat) : Prop := fin (_ : forall d, uses c d -> finite d).

Inductive reaches : nat -> nat -> Prop :=
| rch_one c d : uses c d -> reaches c d
| rch_more c d e : uses c d -> reaches d e -> reaches c e.
End Spec.

(** A member of a dict *)
Definition member (k : str) (v : pyv) : option pyv :=
  match v with PDict l => find_name k l | _ => None end.

(** Where a catalogue has the description of what a way leads to. *)
Fixpoint doc_at (v : pyv) (q : list step) : option pyv :=
  match q with
  | [] => Some v
  | QProp n :: t => match member (s2l "properties") v with
                    | Some ps => match member n ps with Some x => doc_at x t | None => None end
                    | None => None
                    end
  | QItem :: t => match member (s2l "itemtype") v with Some x => doc_at x t | None => None end
  end.

(** What the description of a place has to say. *)
Definition says (cname : nat -> str) (pname : prop -> str) (iname : nat -> str)
                (alts : prop -> list (nat + str)) (t : place) (v : pyv) : Prop :=
  match t with
  | AType c => member (s2l "name") v = Some (PStr (cname c)) /\ member (s2l "type") v = None
  | AItem c => member (s2l "name") v = Some (PStr (iname c))
  | AProp p =>
      member (s2l "name") v = Some (PStr (q_name p)) /\
      member (s2l "type") v =
        match alts p, q_type p with
        | [], TPrim _ _ => Some (PStr (pname p))
        | [], _ => None
        | l, _ => Some (PList (map (fun a => PStr match a with inl c => cname c | inr n => n end) l))
        end
  end.

(** A way of a catalogue, by the positions of a value: names of properties are the same, any item is
    an item. *)
Definition along (k : elem) (s : step) : Prop :=
  match s with QProp n => k = EStr n | QItem => True end.

(** Records are held by properties declared for records only. *)
Definition declared_records (W : world) (o : vopts) (P : option (list (list elem))) (c : nat) (v : pyv) : Prop :=
  forall q r d c' sl p x, leads W o P c v [] q r (SNode d (PObj c' sl)) ->
    In p (w_props W d) -> q_type p = TAny -> slot sl (q_name p) = Some x -> forall c2 sl2, x <> PObj c2 sl2.
