(** Marshalling records in from and out to JSON data: normalize/record/json.py:40-501,
    normalize/property/json.py:34-93. *)
From Coq Require Import String List NArith ZArith Arith Bool.
From Verif Require Import Prelude GenModel PickleModel AutoModel.
Import ListNotations.
Local Open Scope string_scope.
Local Open Scope list_scope.

(** Python values.  JSON data is what uses only the first seven and no [PTuple]; [PTuple] stands for
    tuple, set and frozenset, [POpaque] for anything [to_json] does not know.  Keys of dicts are
    text.  A record or collection is its class and the entries of its [__dict__], in the order in
    which the class has its properties (the order is not visible through the properties); a
    collection has its items in the entry "_values" (coll.py:101). *)
Inductive pyv :=
| PNone
| PBool (b : bool)
| PInt (z : Z)
| PNum (n : nat)                       (* float, Decimal *)
| PStr (s : str)
| PList (l : list pyv)
| PDict (l : list (str * pyv))
| PTuple (l : list pyv)
| PObj (c : nat) (slots : list (str * pyv))
| POpaque (n : nat).

(** Elements of an error path (FieldSelector elements, selector.py). *)
Inductive step := SKey (k : str) | SIdx (i : nat).

(** Outcome of loading: a value or an exception.  [Exc (s :: p) e] is JsonConversionError with
    error_fs = s :: p and sub_exception of class e (exc.py:402); [Exc [] e] any other exception,
    without error_fs, of class e. *)
Inductive out (A : Type) : Type :=
| Val (a : A)
| Exc (path : list step) (e : exn).
Arguments Val {A} a.
Arguments Exc {A} path e.

Definition obind {A B} (x : out A) (f : A -> out B) : out B :=
  match x with Val a => f a | Exc p e => Exc p e end.
Notation "'let*' x := a 'in' b" := (obind a (fun x => b))
  (at level 200, x pattern, a at level 100, b at level 200).

(** [[f(x) for x in l]] *)
Section OMap.
Context {A B : Type}.
Variable f : A -> out B.
Fixpoint omap (l : list A) : out (list B) :=
  match l with
  | [] => Val []
  | x :: t => let* y := f x in let* ys := omap t in Val (y :: ys)
  end.
End OMap.

(** json.py:52-61, _box_ingress_error: the context comes before the path the exception already has;
    the cause is that of the boxed exception if it has one. *)
Definition box {A} (s : step) (x : out A) : out A :=
  match x with Val a => Val a | Exc p e => Exc (s :: p) e end.

(** exc.JsonCollectionCoerceError, exc.py:408; JsonRecordCoerce is in AutoModel *)
Definition JsonCollectionCoerce : exn := OtherErr 71.

(** [isa=] of a property or itemtype of a collection: absent; a type that is not a record type, with
    what [coerce] (by default the type itself) does; or a record or collection class, with its own
    coerce function if given.  (Tuples of types are of the second sort: they have no from_json.) *)
Inductive vtype :=
| TAny
| TPrim (isa : pyv -> bool) (coerce : pyv -> out pyv)
| TCls (c : nat) (coerce : option (pyv -> out pyv)).

(** A property (property/__init__.py:54-157, property/json.py:34-93).  [q_json]: it is a JsonProperty;
    [q_jname] its json_name (None: not in JSON), [q_in] and [q_out] its json_in and json_out.
    [q_default]: the default or what computing it raises.  Lazy and V1 properties are not
    modelled. *)
Record prop := {
  q_name : str;
  q_json : bool;
  q_jname : option str;
  q_in : option (pyv -> out pyv);
  q_out : option (pyv -> res pyv);
  q_type : vtype;
  q_check : pyv -> bool;
  q_required : bool;
  q_default : option (res pyv);
  q_extraneous : bool
}.

(** Record, JsonRecord, ListCollection, DictCollection, JsonRecordList, JsonRecordDict
    (and classes derived from them without overriding the methods modelled here). *)
Inductive kind := KRecord | KJson | KList | KDict | KJsonList | KJsonDict.

(** The classes of the program: kind, properties (the inherited unknown_json_keys, json.py:280, among
    them), item type of a collection, and which are subclasses of which. *)
Record world := {
  w_kind : nat -> kind;
  w_props : nat -> list prop;
  w_item : nat -> vtype;
  w_sub : nat -> nat -> bool
}.

Section Json.
Variable W : world.
(** [json.loads] of text (json.py:121-134) *)
Variable parse : str -> res pyv.
(** [str] of an integer *)
Variable show : Z -> str.
(** the items of a mapping by sorted keys (coll.py:325-328) *)
Variable by_key : list (str * pyv) -> list (str * pyv).

(** [hasattr(cls, "from_json")]: JsonRecord defines it (json.py:313-318). *)
Definition is_json_kind (k : kind) : bool :=
  match k with KJson | KJsonList | KJsonDict => true | _ => false end.
Definition is_json (c : nat) : bool := is_json_kind (w_kind W c).

Definition unknown_name : str := s2l "unknown_json_keys".

(** ** Marshalling in *)

(** json.py:121-134, _decode_and_parse_json *)
Definition decode (v : pyv) : out pyv :=
  match v with
  | PStr s => match parse s with Ok j => Val j | Err e => Exc [] e end
  | _ => Val v
  end.

Definition isinstance (v : pyv) (t : vtype) : bool :=
  match t with
  | TAny => true
  | TPrim isa _ => isa v
  | TCls c _ => match v with PObj c' _ => w_sub W c' c | _ => false end
  end.

Section Rec.
(** A class called with one positional argument. *)
Variable rec : nat -> pyv -> out pyv.

(** [self.coerce(value)] *)
Definition run_coerce (t : vtype) (v : pyv) : out pyv :=
  match t with
  | TAny => Val v
  | TPrim _ co => co v
  | TCls _ (Some co) => co v
  | TCls c None => rec c v
  end.

(** property/__init__.py:202-246, type_safe_value with _none_ok=True; [None] is the marker [_none].
    (SubtypeCoerceError, C35, is not treated specially here.) *)
Definition type_safe (p : prop) (v : pyv) : out (option pyv) :=
  let checked v := if q_check p v then Val (Some v) else Exc [] ValueCheckErr in
  match v, q_required p, q_type p with
  | PNone, true, TAny => Exc [] PropRequired
  | _, _, _ =>
      if isinstance v (q_type p) then checked v
      else match run_coerce (q_type p) v with
           | Exc _ _ => Exc [] CoerceErr
           | Val nv =>
               if isinstance nv (q_type p) then checked nv
               else match nv, q_required p with
                    | PNone, false => Val None
                    | _, _ => Exc [] ValueCoercionErr
                    end
           end
  end.

(** property/__init__.py:259-272, init_prop *)
Definition init_prop (p : prop) (given : option pyv) : out (option pyv) :=
  let finish r := match r with
                  | None => if q_required p then Exc [] PropRequired else Val None
                  | Some v => Val (Some v)
                  end in
  match given with
  | Some v => let* r := type_safe p v in finish r
  | None =>
      match q_default p with
      | None => finish None
      | Some (Err e) => Exc [] e
      | Some (Ok v) => let* r := type_safe p v in finish r
      end
  end.

(** property/__init__.py:274 *)
Definition eager (p : prop) : bool :=
  q_required p || match q_default p with Some _ => true | None => false end.

Definition has_name {A} (n : str) (l : list (str * A)) : bool :=
  match find_name n l with Some _ => true | None => false end.

Definition find_prop (n : str) (ps : list prop) : option prop :=
  find_name n (map (fun p => (q_name p, p)) ps).

(** The entries set, in property order. *)
Definition in_order (ps : list prop) (vals : list (str * option pyv)) : list (str * pyv) :=
  flat_map (fun p => match find_name (q_name p) vals with
                     | Some (Some v) => [(q_name p, v)]
                     | _ => []
                     end) ps.

(** record/__init__.py:32-67, Record.__init__ with keyword arguments; [pre]: entries already made by
    the constructor of a collection. *)
Definition record_init (c : nat) (pre kw : list (str * pyv)) : out pyv :=
  let ps := w_props W c in
  let* given := omap (fun kv => match find_prop (fst kv) ps with
                                | None => Exc [] PropNotKnown
                                | Some p => let* r := init_prop p (Some (snd kv)) in Val (fst kv, r)
                                end) kw in
  let* missing := omap (fun p => let* r := init_prop p None in Val (q_name p, r))
                       (filter (fun p => eager p && negb (has_name (q_name p) kw)) ps) in
  Val (PObj c (pre ++ in_order ps (given ++ missing))).

(** coll.py:134-150, coerce_value *)
Definition coerce_item (c : nat) (v : pyv) : out pyv :=
  if isinstance v (w_item W c) then Val v
  else match run_coerce (w_item W c) v with
       | Val x => Val x
       | Exc _ _ => Exc [] CollItemCoerceErr
       end.

(** coll.py:309-338, ListCollection.coll_to_tuples, without the indices; [hasattr(v, "__iter__")] holds
    of collections, which give their underlying container's elements (coll.py:106-110). *)
Definition list_items (v : pyv) : out (list pyv) :=
  match v with
  | PStr _ => Exc [] CollCoerceErr
  | PDict l => Val (map snd (by_key l))
  | PList l | PTuple l => Val l
  | PNone | PBool false => Val []
  | PInt z => if Z.eqb z 0 then Val [] else Exc [] CollCoerceErr
  | PObj _ sl => match find_name (s2l "_values") sl with
                 | Some (PList l) => Val l
                 | Some (PDict l) => Val (map (fun kv => PStr (fst kv)) l)
                 | _ => Exc [] CollCoerceErr
                 end
  | _ => Exc [] CollCoerceErr
  end.

(** coll.py:217-241, DictCollection.coll_to_tuples: anything else than text, mappings, sequences and
    iterators is taken as empty.  (A sequence gets integer keys, which this model has not:
    OtherErr 72 stands for it.) *)
Definition dict_items (v : pyv) : out (list (str * pyv)) :=
  match v with
  | PStr _ => Exc [] CollCoerceErr
  | PDict l => Val l
  | PList (_ :: _) | PTuple (_ :: _) => Exc [] (OtherErr 72)
  | _ => Val []
  end.

Definition is_list_kind (k : kind) : bool := match k with KList | KJsonList => true | _ => false end.

(** coll.py:86-104, Collection.__init__ *)
Definition coll_init (c : nat) (values : pyv) (kw : list (str * pyv)) : out pyv :=
  let* vs :=
    (if is_list_kind (w_kind W c) then
       let* l := list_items values in
       let* l' := omap (coerce_item c) l in Val (PList l')
     else
       let* l := dict_items values in
       let* l' := omap (fun kv => let* x := coerce_item c (snd kv) in Val (fst kv, x)) l in
       Val (PDict l')) in
  record_init c [(s2l "_values", vs)] kw.

(** json.py:40-49, _json_to_value_initializer.  [isinstance(proptype, JsonRecord)] and
    [isinstance(proptype, Record)] ask whether the class object itself is a record, and never hold. *)
Definition value_init (t : vtype) (v : pyv) : out pyv :=
  match t with
  | TCls c _ => if is_json c then rec c v else Val v
  | _ => Val v
  end.

Fixpoint drop_key (k : str) (l : list str) : option (list str) :=
  match l with
  | [] => None
  | k' :: t => if str_eqb k k' then Some t
               else match drop_key k t with Some t' => Some (k' :: t') | None => None end
  end.

(** The key a property reads (json.py:89-103). *)
Definition key_in_doc (p : prop) : option str :=
  if q_json p then q_jname p else Some (q_name p).

(** One round of the loop json.py:87-113.  [st]: keyword arguments so far and keys not yet known. *)
Definition read_prop (doc : list (str * pyv)) (p : prop) (st : list (str * pyv) * list str)
  : out (list (str * pyv) * list str) :=
  let (kw, unknown) := st in
  match key_in_doc p with
  | None => Val st
  | Some k =>
      match find_name k doc with
      | None => Val st
      | Some x =>
          if q_json p then
            let* kw' :=
              (if has_name (q_name p) kw then Val kw
               else let* v := box (SKey k)
                      (let* y := match q_in p with Some f => f x | None => Val x end in
                       value_init (q_type p) y) in
                    Val (kw ++ [(q_name p, v)])) in
            match drop_key k unknown with
            | Some u => Val (kw', u)
            | None => Exc [] KeyErr
            end
          else
            match drop_key k unknown with
            | None => Exc [] KeyErr
            | Some u =>
                let* kw' :=
                  (if has_name (q_name p) kw then Val kw
                   else let* v := box (SKey k) (value_init (q_type p) x) in
                        Val (kw ++ [(q_name p, v)])) in
                Val (kw', u)
            end
      end
  end.

Fixpoint read_props (doc : list (str * pyv)) (ps : list prop) (st : list (str * pyv) * list str)
  : out (list (str * pyv) * list str) :=
  match ps with
  | [] => Val st
  | p :: t => let* st' := read_prop doc p st in read_props doc t st'
  end.

(** json.py:64-118, json_to_initkwargs.  The unknown keys come out of a set; the order of the document
    is used here. *)
Definition initkwargs (c : nat) (j : pyv) (kw : list (str * pyv)) : out (list (str * pyv)) :=
  match (match j with PNone => PDict [] | _ => j end) with
  | PDict doc =>
      let* (kw', unknown) := read_props doc (w_props W c) (kw, map fst doc) in
      match unknown with
      | [] => Val kw'
      | _ => Val (dset unknown_name
                    (PDict (filter (fun kv => existsb (str_eqb (fst kv)) unknown) doc)) kw')
      end
  | _ => Exc [] JsonRecordCoerce
  end.

(** [record_type] called with keyword arguments only, for classes which are not JsonRecord. *)
Definition construct_kw (c : nat) (kw : list (str * pyv)) : out pyv :=
  match w_kind W c with
  | KList | KDict => coll_init c PNone kw
  | _ => record_init c [] kw
  end.

(** json.py:137-159, the function from_json *)
Definition from_json (c : nat) (j : pyv) : out pyv :=
  let* j' := decode j in
  if is_json c then rec c j'
  else let* kw := initkwargs c j' [] in construct_kw c kw.

(** An item of a JsonRecordList or JsonRecordDict, json.py:399-417, 472-489; [i] its index or key. *)
Definition item_in (t : vtype) (i : step) (x : pyv) : out pyv :=
  match t with
  | TCls c' _ =>
      if isinstance x t then Val x
      else box i (if is_json c' then rec c' x else from_json c' x)
  | _ => Val x
  end.

Fixpoint number (i : nat) {A} (l : list A) : list (step * A) :=
  match l with [] => [] | x :: t => (SIdx i, x) :: number (S i) t end.

(** json.py:381-420, JsonRecordList.json_to_initkwargs: the argument [values]. *)
Definition list_values (c : nat) (j : pyv) : out pyv :=
  match j with
  | PList l | PTuple l =>
      let* l' := omap (fun ix => item_in (w_item W c) (fst ix) (snd ix)) (number 0 l) in Val (PList l')
  | _ => Exc [] JsonCollectionCoerce
  end.

(** json.py:454-492, JsonRecordDict.json_to_initkwargs *)
Definition dict_values (c : nat) (j : pyv) : out pyv :=
  match j with
  | PDict l =>
      let* l' := omap (fun kv => let* x := item_in (w_item W c) (SKey (fst kv)) (snd kv) in
                                 Val (fst kv, x)) l in Val (PDict l')
  | _ => Exc [] JsonCollectionCoerce
  end.

(** A class called with one positional argument: Record.__init__ (record/__init__.py:32-67; an argument
    that is false is ignored, one that is no mapping has no [items]), JsonRecord.__init__
    (json.py:282-311), Collection.__init__ (coll.py:86), JsonRecordList.__init__ (json.py:363-379),
    JsonRecordDict.__init__ (json.py:436-452). *)
Definition call_class (c : nat) (v : pyv) : out pyv :=
  match w_kind W c with
  | KRecord =>
      match v with
      | PDict l => record_init c [] l
      | PNone | PBool false | PList [] | PTuple [] | PStr [] => record_init c [] []
      | PInt z => if Z.eqb z 0 then record_init c [] [] else Exc [] AttrErr
      | _ => Exc [] AttrErr
      end
  | KJson =>
      let* j := decode v in
      match j with
      | PNone => record_init c [] []
      | _ => let* j' := decode j in                     (* again, json.py:310 *)
             let* kw := initkwargs c j' [] in record_init c [] kw
      end
  | KList | KDict => coll_init c v []
  | KJsonList =>
      let* j := decode v in
      match j with
      | PNone => coll_init c PNone []
      | _ => let* vs := list_values c j in coll_init c vs []
      end
  | KJsonDict =>
      let* j := decode v in
      match j with
      | PNone => coll_init c PNone []
      | _ => let* vs := dict_values c j in coll_init c vs []
      end
  end.
End Rec.

(** [fuel] bounds the nesting of constructor calls. *)
Fixpoint call (fuel : nat) (c : nat) (v : pyv) : out pyv :=
  match fuel with
  | 0 => Exc [] RecursionErr
  | S n => call_class (call n) c v
  end.

(** ** Marshalling out *)

(** json.py:192-250 for records: one property after the other; [slots] gives for every entry the value
    and what [_json_data] makes of it.  A property is left out when it is extraneous (unless asked
    for), has no entry, has json_name None, or when its conversion raises AttributeError. *)
Fixpoint emit (extraneous : bool) (ps : list prop) (slots : list (str * (pyv * res pyv)))
              (acc : list (str * pyv)) : res (list (str * pyv)) :=
  match ps with
  | [] => Ok acc
  | p :: t =>
      if negb extraneous && q_extraneous p then emit extraneous t slots acc
      else match find_name (q_name p) slots, key_in_doc p with
           | Some (v, jd), Some k =>
               match (if q_json p then match q_out p with Some f => f v | None => jd end else jd) with
               | Ok j => emit extraneous t slots (dset k j acc)
               | Err e => if is_attr_err e then emit extraneous t slots acc else Err e
               end
           | _, _ => emit extraneous t slots acc
           end
  end.

(** json.py:328-335: unknown keys are added unless there already. *)
Fixpoint add_unknown (u : list (str * res pyv)) (jd : list (str * pyv)) : res (list (str * pyv)) :=
  match u with
  | [] => Ok jd
  | (k, r) :: t =>
      if has_name k jd then add_unknown t jd
      else do j <- r; add_unknown t (jd ++ [(k, j)])
  end.

(** [marshal true x v] is [_json_data(v, x)] (json.py:167-189), which calls the method json_data where
    there is one; [marshal false x v] is [to_json(v, x)] (json.py:192-264).  JsonRecord.json_data is
    json.py:320-336; JsonRecordList and JsonRecordDict have [to_json] as theirs. *)
Fixpoint marshal (full extraneous : bool) (v : pyv) : res pyv :=
  match v with
  | PInt z => if Z.ltb (2 ^ 50) (Z.abs z) then Ok (PStr (show z)) else Ok v
  | PNone | PBool _ | PNum _ | PStr _ => Ok v
  | PList l | PTuple l => do l' <- mapm (marshal true extraneous) l; Ok (PList l')
  | PDict l =>
      do l' <- mapm (fun kv => do x <- marshal true extraneous (snd kv); Ok (fst kv, x)) l;
      Ok (PDict l')
  | POpaque _ => Err TypeErr
  | PObj c sl =>
      match w_kind W c with
      | KList | KDict | KJsonList | KJsonDict =>
          match find_name (s2l "_values")
                  (map (fun kv => (fst kv,
                     match snd kv with
                     | PList l => do l' <- mapm (marshal true extraneous) l; Ok (PList l')
                     | PDict l =>
                         do l' <- mapm (fun e => do x <- marshal true extraneous (snd e); Ok (fst e, x)) l;
                         Ok (PDict l')
                     | _ => Err AttrErr
                     end)) sl) with
          | Some r => r
          | None => Err AttrErr
          end
      | k =>
          let slots := map (fun kv => (fst kv, (snd kv, marshal true extraneous (snd kv)))) sl in
          do jd <- emit extraneous (w_props W c) slots [];
          match full, k with
          | true, KJson =>
              match find_name unknown_name
                      (map (fun kv => (fst kv,
                         match snd kv with
                         | PDict l => Some (map (fun e => (fst e, marshal false extraneous (snd e))) l)
                         | _ => None
                         end)) sl) with
              | None => Ok (PDict jd)
              | Some u =>
                  if extraneous || match find_prop unknown_name (w_props W c) with
                                   | Some p => negb (q_extraneous p)
                                   | None => false
                                   end
                  then match u with
                       | None => Err AttrErr
                       | Some u => do jd' <- add_unknown u jd; Ok (PDict jd')
                       end
                  else Ok (PDict jd)
              end
          | _, _ => Ok (PDict jd)
          end
      end
  end.

(** The method json_data and the function to_json. *)
Definition json_data (extraneous : bool) (v : pyv) : res pyv := marshal true extraneous v.
Definition to_json (extraneous : bool) (v : pyv) : res pyv := marshal false extraneous v.
End Json.
