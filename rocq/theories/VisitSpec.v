(** What visiting is expected to do (C41, C42): specification only.  [touches] is defined in
    DiffFilter, [listed], [slot] and [has_init] in JsonSpec. *)
From Coq Require Import String List NArith ZArith Arith Bool Permutation.
From Verif Require Import Prelude SelPathModel FSModel MFSModel MFSProofs GenModel JsonModel JsonSpec VisitModel DiffFilter.
Import ListNotations.
Local Open Scope string_scope.
Local Open Scope list_scope.

(** Properties left out because they are extraneous. *)
Definition hidden (o : vopts) (p : prop) : Prop := q_extraneous p = true /\ v_extraneous o = false.

(** The value is left out of records and collections: None, and "" if so asked. *)
Definition left_out (o : vopts) (x : pyv) : Prop :=
  (x = PNone /\ v_ignore_none o = true) \/ (x = PStr [] /\ v_ignore_empty o = true).

Definition collection (W : world) (c : nat) : Prop := w_kind W c <> KRecord /\ w_kind W c <> KJson.

(** ** C41 *)

(** [holds W o c x]: [x] is an instance of class [c] proper, with all its content of exactly the types
    declared: values of plain types, records, collections.  No value is one that is left out, no
    hidden property is set, attributes with a default or required are set, and a record class has a
    property that is not hidden. *)
Inductive holds (W : world) (o : vopts) : nat -> pyv -> Prop :=
| holds_record c sl :
    w_kind W c = KRecord \/ w_kind W c = KJson ->
    (exists p, In p (w_props W c) /\ ~ hidden o p) ->
    holds_slots W o c sl -> holds W o c (PObj c sl)
| holds_list c l sl :
    w_kind W c = KList \/ w_kind W c = KJsonList ->
    holds_slots W o c sl -> (forall p, In p (w_props W c) -> q_name p <> s2l "values") ->
    (forall x, In x l -> holds_val W o (w_item W c) x) ->
    holds W o c (PObj c ((s2l "_values", PList l) :: sl))
| holds_dict c l sl :
    w_kind W c = KDict \/ w_kind W c = KJsonDict ->
    holds_slots W o c sl -> (forall p, In p (w_props W c) -> q_name p <> s2l "values") ->
    NoDup (map fst l) ->
    (forall k x, In (k, x) l -> holds_val W o (w_item W c) x) ->
    holds W o c (PObj c ((s2l "_values", PDict l) :: sl))
with holds_slots (W : world) (o : vopts) : nat -> list (str * pyv) -> Prop :=
| holds_entries c sl :
    NoDup (map q_name (w_props W c)) -> listed (w_props W c) sl ->
    (forall p, In p (w_props W c) -> q_name p <> s2l "_values") ->
    (forall p x, In p (w_props W c) -> slot sl (q_name p) = Some x ->
       ~ hidden o p /\ q_check p x = true /\
       ~ (x = PNone /\ q_required p = true /\ q_type p = TAny)) ->
    (forall p x, In p (w_props W c) -> slot sl (q_name p) = Some x -> holds_val W o (q_type p) x) ->
    (forall p, In p (w_props W c) -> has_init p -> slot sl (q_name p) <> None) ->
    holds_slots W o c sl
with holds_val (W : world) (o : vopts) : vtype -> pyv -> Prop :=
| hv_any x : ~ left_out o x -> (forall c sl, x <> PObj c sl) -> holds_val W o TAny x
| hv_prim isa co x : ~ left_out o x -> isa x = true -> holds_val W o (TPrim isa co) x
| hv_class c co x : w_sub W c c = true -> holds W o c x -> holds_val W o (TCls c co) x.

Scheme holds_mind := Minimality for holds Sort Prop
  with holds_slots_mind := Minimality for holds_slots Sort Prop
  with holds_val_mind := Minimality for holds_val Sort Prop.

(** ** C42 *)

(** The filter is made of the paths [P]; None: there is no filter. *)
Definition filter_of (o : vopts) (P : option (list (list elem))) : Prop :=
  match P with
  | None => v_filter o = None
  | Some l => l <> [] /\ exists ordm m, (forall a, Permutation (ordm a) a) /\
                make ordm (map AFS l) = Ok m /\ v_filter o = Some m
  end.
Definition selected (P : option (list (list elem))) (q : list elem) : Prop :=
  match P with None => True | Some l => touches l q end.

(** The property, of the value at position [q], is to be shown. *)
Definition shown (o : vopts) (P : option (list (list elem))) (q : list elem) (p : prop) : Prop :=
  ~ hidden o p /\ selected P (q ++ [EStr (q_name p)]).

(** The class a value is visited as: that declared; without declaration its own. *)
Definition seen_as (t : vtype) (x : pyv) (d : nat) : Prop :=
  match t with
  | TCls c _ => d = c
  | TAny => exists sl, x = PObj d sl
  | TPrim _ _ => False
  end.

Definition item_at (sl : list (str * pyv)) (k : elem) (x : pyv) : Prop :=
  match slot sl (s2l "_values"), k with
  | Some (PList l), EInt i => (0 <= i)%Z /\ nth_error l (Z.to_nat i) = Some x
  | Some (PDict l), EStr s => find_name s l = Some x
  | _, _ => False
  end.

(** Items of a collection are found in the output directly, or under the key "values" if a property of
    the collection is shown (docstring of reduce, visitor.py:320-323). *)
Definition items_under (W : world) (o : vopts) (P : option (list (list elem)))
                       (c : nat) (q : list elem) (r r' : list elem) : Prop :=
  ((exists p, In p (w_props W c) /\ shown o P q p) /\ r' = EStr (s2l "values") :: r) \/
  ((forall p, In p (w_props W c) -> ~ shown o P q p) /\ r' = r).

Inductive spot := SNode (c : nat) (v : pyv) | SLeaf (p : option prop) (v : pyv).

(** [leads c v q0 q r t]: within [v], of class [c] and at position [q0], there is [t] at position [q],
    reached through slots that are shown and through items; [r] is its place in the output for [v]. *)
Inductive leads (W : world) (o : vopts) (P : option (list (list elem))) :
  nat -> pyv -> list elem -> list elem -> list elem -> spot -> Prop :=
| ld_here c v q : leads W o P c v q q [] (SNode c v)
| ld_leaf c c' sl q p x :
    In p (w_props W c) -> shown o P q p -> slot sl (q_name p) = Some x ->
    (forall d, ~ seen_as (q_type p) x d) ->
    leads W o P c (PObj c' sl) q (q ++ [EStr (q_name p)]) [EStr (q_name p)] (SLeaf (Some p) x)
| ld_slot c c' sl q p x d q' r t :
    In p (w_props W c) -> shown o P q p -> slot sl (q_name p) = Some x -> seen_as (q_type p) x d ->
    leads W o P d x (q ++ [EStr (q_name p)]) q' r t ->
    leads W o P c (PObj c' sl) q q' (EStr (q_name p) :: r) t
| ld_item_leaf c c' sl q k x r :
    collection W c -> item_at sl k x -> (forall d co, w_item W c <> TCls d co) ->
    items_under W o P c q [k] r ->
    leads W o P c (PObj c' sl) q (q ++ [k]) r (SLeaf None x)
| ld_item c c' sl q k x d co q' r r' t :
    collection W c -> item_at sl k x -> w_item W c = TCls d co ->
    leads W o P d x (q ++ [k]) q' r t -> items_under W o P c q (k :: r) r' ->
    leads W o P c (PObj c' sl) q q' r' t.

(** What is at a place in the output. *)
Fixpoint out_at (v : pyv) (r : list elem) : option pyv :=
  match r with
  | [] => Some v
  | EStr k :: t => match v with
                   | PDict l => match find_name k l with Some x => out_at x t | None => None end
                   | _ => None
                   end
  | EInt i :: t => match v with
                   | PList l => if (0 <=? i)%Z then match nth_error l (Z.to_nat i) with
                                                    | Some x => out_at x t
                                                    | None => None
                                                    end
                                else None
                   | _ => None
                   end
  | ENone :: _ => None
  end.

(** Declarations: names are distinct, and collections have no property called "values" or "_values". *)
Definition sound_types (W : world) : Prop := forall c,
  NoDup (map q_name (w_props W c)) /\
  (collection W c -> forall p, In p (w_props W c) -> q_name p <> s2l "values" /\ q_name p <> s2l "_values").

(** No item of a plain type is left out (that would shift the items behind it, see
    C42_items_shift_refuted). *)
Definition items_kept (W : world) (o : vopts) (P : option (list (list elem)))
    (apply : list elem -> option prop -> pyv -> out pyv) (c : nat) (v : pyv) : Prop :=
  forall q r x y, leads W o P c v [] q r (SLeaf None x) -> apply q None x = Val y -> ~ left_out o y.

(** Where a record or collection is expected there is one (of whatever class): visiting a list or a
    mapping in place of a collection, or any other value in place of a record, is not considered.
    (Keys of a dict are distinct.) *)
Definition well_held (W : world) (o : vopts) (P : option (list (list elem))) (c : nat) (v : pyv) : Prop :=
  forall q r d w, leads W o P c v [] q r (SNode d w) ->
    exists c' sl, w = PObj c' sl /\
      (w_kind W d = KList \/ w_kind W d = KJsonList -> exists l, slot sl (s2l "_values") = Some (PList l)) /\
      (w_kind W d = KDict \/ w_kind W d = KJsonDict ->
         exists l, slot sl (s2l "_values") = Some (PDict l) /\ NoDup (map fst l)).

(** Two values that agree in everything shown. *)
Inductive agree (W : world) (o : vopts) (P : option (list (list elem))) :
  nat -> list elem -> pyv -> pyv -> Prop :=
| ag_same c q v : agree W o P c q v v
| ag_obj c q c1 c2 sl sl' :
    (forall p, In p (w_props W c) -> shown o P q p ->
       agree_slot W o P (q_type p) (q ++ [EStr (q_name p)]) (slot sl (q_name p)) (slot sl' (q_name p))) ->
    (collection W c -> agree_items W o P (w_item W c) q (slot sl (s2l "_values")) (slot sl' (s2l "_values"))) ->
    agree W o P c q (PObj c1 sl) (PObj c2 sl')
with agree_slot (W : world) (o : vopts) (P : option (list (list elem))) :
  vtype -> list elem -> option pyv -> option pyv -> Prop :=
| as_unset t q : agree_slot W o P t q None None
| as_same t q x : agree_slot W o P t q (Some x) (Some x)
| as_class t q d x x' : seen_as t x d -> seen_as t x' d -> agree W o P d q x x' ->
    agree_slot W o P t q (Some x) (Some x')
with agree_items (W : world) (o : vopts) (P : option (list (list elem))) :
  vtype -> list elem -> option pyv -> option pyv -> Prop :=
| ai_same t q x : agree_items W o P t q x x
| ai_list d co q l l' :
    length l = length l' ->
    (forall i x x', nth_error l i = Some x -> nth_error l' i = Some x' ->
       agree W o P d (q ++ [EInt (Z.of_nat i)]) x x') ->
    agree_items W o P (TCls d co) q (Some (PList l)) (Some (PList l'))
| ai_dict d co q l l' :
    map fst l = map fst l' ->
    (forall i k x x', nth_error l i = Some (k, x) -> nth_error l' i = Some (k, x') ->
       agree W o P d (q ++ [EStr k]) x x') ->
    agree_items W o P (TCls d co) q (Some (PDict l)) (Some (PDict l')).

Scheme agree_mind := Minimality for agree Sort Prop
  with agree_slot_mind := Minimality for agree_slot Sort Prop
  with agree_items_mind := Minimality for agree_items Sort Prop.
