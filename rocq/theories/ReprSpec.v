(** Values that can be rebuilt from their source text (C50): specification only. *)
From Coq Require Import String List NArith ZArith Bool.
From Verif Require Import Prelude GenModel JsonModel JsonSpec.
Import ListNotations.
Local Open Scope list_scope.

Definition letter (c : N) : Prop :=
  (97 <= c <= 122)%N \/ (65 <= c <= 90)%N \/ c = 95%N \/ (128 <= c)%N.
Definition identifier (n : str) : Prop :=
  match n with
  | [] => False
  | c :: r => letter c /\ Forall (fun c => letter c \/ (48 <= c <= 57)%N) r
  end.

(** Unicode text *)
Definition unicode (s : str) : Prop := Forall (fun c => (c < 1114112)%N) s.

(** A value passes the type and the check of a property as it is. *)
Definition of_type (W : world) (t : vtype) (x : pyv) : Prop :=
  match t with
  | TAny => True
  | TPrim isa _ => isa x = true
  | TCls c _ => exists c' sl, x = PObj c' sl /\ w_sub W c' c = true
  end.
Definition accepted (W : world) (p : prop) (x : pyv) : Prop :=
  of_type W (q_type p) x /\ q_check p x = true /\ ~ (x = PNone /\ q_required p = true /\ q_type p = TAny).

(** Names that mean something else to a constructor (or to a collection). *)
Definition taken (k : kind) : list str :=
  map s2l match k with
          | KRecord => ["self"; "init_dict"]
          | KJson => ["self"; "init_dict"; "json_data"]
          | KList | KDict => ["self"; "init_dict"; "values"; "_values"]
          | KJsonList | KJsonDict => ["self"; "init_dict"; "json_data"; "values"; "_values"]
          end%string.

Section Spec.
Variable W : world.
Variable cname : nat -> str.
Variable scope : str -> option nat.
(** floats whose text reads back (not inf and nan) *)
Variable finite : nat -> Prop.

(** The class is in scope under its name; names are identifiers, all different, and free. *)
Record usable (c : nat) : Prop := {
  us_name : identifier (cname c);
  us_const : ~ In (cname c) (map s2l ["None"; "True"; "False"]%string);
  us_scope : scope (cname c) = Some c;
  us_props : NoDup (map q_name (w_props W c));
  us_ident : forall p, In p (w_props W c) -> identifier (q_name p);
  us_free : forall p, In p (w_props W c) -> ~ In (q_name p) (taken (w_kind W c))
}.

(** The properties [sl] of an object of class [c]: each of a value that is accepted, none missing that
    has a default or is required. *)
Definition settled (c : nat) (sl : list (str * pyv)) : Prop :=
  listed (w_props W c) sl
  /\ (forall p x, In p (w_props W c) -> slot sl (q_name p) = Some x -> accepted W p x)
  /\ (forall p, In p (w_props W c) -> has_init p -> slot sl (q_name p) <> None).

Inductive rebuildable : pyv -> Prop :=
| rb_none : rebuildable PNone
| rb_bool b : rebuildable (PBool b)
| rb_int z : rebuildable (PInt z)
| rb_num n : finite n -> rebuildable (PNum n)
| rb_str s : unicode s -> rebuildable (PStr s)
| rb_list l : (forall x, In x l -> rebuildable x) -> rebuildable (PList l)
| rb_tuple l : (forall x, In x l -> rebuildable x) -> rebuildable (PTuple l)
| rb_dict l : NoDup (map fst l) -> (forall k x, In (k, x) l -> unicode k) ->
    (forall k x, In (k, x) l -> rebuildable x) -> rebuildable (PDict l)
| rb_record c sl :
    w_kind W c = KRecord \/ w_kind W c = KJson ->
    usable c -> settled c sl -> (forall n x, In (n, x) sl -> rebuildable x) ->
    rebuildable (PObj c sl)
| rb_list_coll c l sl :
    w_kind W c = KList \/ w_kind W c = KJsonList ->
    usable c -> settled c sl -> (forall n x, In (n, x) sl -> rebuildable x) ->
    (forall x, In x l -> of_type W (w_item W c) x) -> (forall x, In x l -> rebuildable x) ->
    rebuildable (PObj c ((s2l "_values", PList l) :: sl))
| rb_dict_coll c l sl :
    w_kind W c = KDict ->
    usable c -> settled c sl -> (forall n x, In (n, x) sl -> rebuildable x) ->
    (forall k x, In (k, x) l -> of_type W (w_item W c) x) ->
    NoDup (map fst l) -> (forall k x, In (k, x) l -> unicode k) ->
    (forall k x, In (k, x) l -> rebuildable x) ->
    rebuildable (PObj c ((s2l "_values", PDict l) :: sl)).
End Spec.

(** The text of a float: digits with a point or an exponent. *)
Definition float_text (t : str) : Prop :=
  match t with [] => False | c :: _ => (48 <= c <= 57)%N \/ c = 45%N end
  /\ Forall (fun c => (48 <= c <= 57)%N \/ In c [45; 43; 46; 101]%N) t
  /\ (In 46%N t \/ In 101%N t).
