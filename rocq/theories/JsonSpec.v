(** What it means for a record to be representable in JSON (C37): specification only. *)
From Coq Require Import String List NArith ZArith Arith Bool.
From Verif Require Import Prelude GenModel JsonModel.
Import ListNotations.
Local Open Scope string_scope.
Local Open Scope list_scope.

(** JSON data without integers beyond 2**50. *)
Inductive jdata : pyv -> Prop :=
| jd_none : jdata PNone
| jd_bool b : jdata (PBool b)
| jd_int z : (Z.abs z <= 2 ^ 50)%Z -> jdata (PInt z)
| jd_num n : jdata (PNum n)
| jd_str s : jdata (PStr s)
| jd_list l : (forall x, In x l -> jdata x) -> jdata (PList l)
| jd_dict l : (forall k x, In (k, x) l -> jdata x) -> jdata (PDict l).

(** The JSON form of a value that is no record: itself, a list for a tuple or set, digits for an
    integer beyond 2**50 ([show] is [str]). *)
Inductive form (show : Z -> str) : pyv -> pyv -> Prop :=
| form_data x : jdata x -> form show x x
| form_tuple l : (forall x, In x l -> jdata x) -> form show (PTuple l) (PList l)
| form_big z : (2 ^ 50 < Z.abs z)%Z -> form show (PInt z) (PStr (show z)).

(** [y] passed to a constructor for a property or item of type [t] becomes [x]. *)
Definition settles (t : vtype) (y x : pyv) : Prop :=
  match t with
  | TAny => y = x
  | TPrim isa co => (isa y = true /\ y = x) \/ (isa y = false /\ co y = Val x /\ isa x = true)
  | TCls _ _ => False
  end.

(** The key of a property in JSON, and its own conversions if any. *)
Definition json_key (p : prop) : option str := if q_json p then q_jname p else Some (q_name p).
Definition conv_in (p : prop) : option (pyv -> out pyv) := if q_json p then q_in p else None.
Definition conv_out (p : prop) : option (pyv -> res pyv) := if q_json p then q_out p else None.
Definition has_init (p : prop) : Prop := q_required p = true \/ q_default p <> None.

Definition json_class (W : world) (c : nat) : Prop :=
  match w_kind W c with KJson | KJsonList | KJsonDict => True | _ => False end.

(** A JSON record class with distinct attribute names and distinct JSON keys, and with the property
    unknown_json_keys as JsonRecord declares it. *)
Record tidy_class (W : world) (c : nat) : Prop := {
  tc_kind : w_kind W c = KJson;
  tc_names : NoDup (map q_name (w_props W c));
  tc_keys : forall p p' k, In p (w_props W c) -> In p' (w_props W c) ->
              json_key p = Some k -> json_key p' = Some k -> p = p';
  tc_unknown : exists p, In p (w_props W c) /\ q_name p = s2l "unknown_json_keys" /\
                 json_key p = None /\ q_type p = TAny /\ q_check p = (fun _ => true) /\
                 ~ has_init p
}.

(** [slot sl n x]: the record with entries [sl] has [x] under [n]. *)
Definition slot (sl : list (str * pyv)) (n : str) : option pyv := find_name n sl.

(** Entries are listed in property order, each at most once. *)
Definition listed (ps : list prop) (sl : list (str * pyv)) : Prop :=
  sl = flat_map (fun p => match slot sl (q_name p) with Some x => [(q_name p, x)] | None => [] end) ps.

(** Records (and collections) [v] of class [c] that JSON can represent:
    - every attribute that is set has a JSON key and a value which its conversions, mutually inverse
      on it, take to JSON data and back, or which is again such a record;
    - attributes with a default or required are set (a constructed record has them);
    - the unknown keys, if any, are JSON data under keys that are not those of a property;
    - collections have items, all of them such records or data, and nothing else. *)
Inductive fits (W : world) (show : Z -> str) : nat -> pyv -> Prop :=
| fits_record c sl :
    tidy_class W c -> listed (w_props W c) sl ->
    (forall p x, In p (w_props W c) -> q_name p <> s2l "unknown_json_keys" ->
       slot sl (q_name p) = Some x -> fits_prop W show p x) ->
    (forall p, In p (w_props W c) -> has_init p -> slot sl (q_name p) <> None) ->
    (forall x, slot sl (s2l "unknown_json_keys") = Some x ->
       exists u, x = PDict u /\ u <> [] /\ NoDup (map fst u) /\
         forall k y, In (k, y) u -> jdata y /\
           forall p, In p (w_props W c) -> json_key p <> Some k) ->
    fits W show c (PObj c sl)
| fits_list c l :
    w_kind W c = KJsonList -> (forall p, In p (w_props W c) -> ~ has_init p) ->
    (forall x, In x l -> fits_item W show (w_item W c) x) ->
    fits W show c (PObj c [(s2l "_values", PList l)])
| fits_dict c l :
    w_kind W c = KJsonDict -> (forall p, In p (w_props W c) -> ~ has_init p) ->
    (forall k x, In (k, x) l -> fits_item W show (w_item W c) x) ->
    fits W show c (PObj c [(s2l "_values", PDict l)])
with fits_prop (W : world) (show : Z -> str) : prop -> pyv -> Prop :=
| fp_data p x j y :
    json_key p <> None -> q_check p x = true ->
    ~ (q_required p = true /\ q_type p = TAny /\ y = PNone) ->
    match conv_out p with Some f => f x = Ok j | None => form show x j end ->
    match conv_in p with Some f => f j = Val y | None => y = j end ->
    settles (q_type p) y x ->
    fits_prop W show p x
| fp_class p c co x :
    json_key p <> None -> q_check p x = true ->
    conv_out p = None -> conv_in p = None ->
    q_type p = TCls c co -> w_sub W c c = true -> fits W show c x ->
    fits_prop W show p x
with fits_item (W : world) (show : Z -> str) : vtype -> pyv -> Prop :=
| fi_data t x j : form show x j -> settles t j x -> fits_item W show t x
| fi_class c co x : w_sub W c c = true -> fits W show c x -> fits_item W show (TCls c co) x.

Scheme fits_mind := Minimality for fits Sort Prop
  with fits_prop_mind := Minimality for fits_prop Sort Prop
  with fits_item_mind := Minimality for fits_item Sort Prop.

(** No record within [v] has an entry of an extraneous property. *)
Inductive lean (W : world) : pyv -> Prop :=
| lean_leaf v : match v with PList _ | PTuple _ | PDict _ | PObj _ _ => False | _ => True end -> lean W v
| lean_list l : (forall x, In x l -> lean W x) -> lean W (PList l)
| lean_tuple l : (forall x, In x l -> lean W x) -> lean W (PTuple l)
| lean_dict l : (forall k x, In (k, x) l -> lean W x) -> lean W (PDict l)
| lean_record c sl :
    w_kind W c = KRecord \/ w_kind W c = KJson ->
    (forall n x, In (n, x) sl -> lean W x) ->
    (forall n x, In (n, x) sl -> exists p, In p (w_props W c) /\ q_name p = n) ->
    (forall n x p, In (n, x) sl -> In p (w_props W c) -> q_name p = n -> q_extraneous p = false) ->
    lean W (PObj c sl)
| lean_coll c sl :
    w_kind W c <> KRecord -> w_kind W c <> KJson ->
    (forall n x, In (n, x) sl -> lean W x) -> lean W (PObj c sl).
