(** Describing types: normalize/visitor.py:482-560 (reflect, scantypes, propinfo, itemtypes, typeinfo),
    with map, map_record, map_collection, map_prop and map_type_union (591-758) as they run for it. *)
From Coq Require Import String List NArith ZArith Arith Bool.
From Verif Require Import Prelude GenModel PickleModel AutoModel JsonModel VisitModel.
Import ListNotations.
Local Open Scope string_scope.
Local Open Scope list_scope.

Section Reflect.
Variable W : world.
(** [__name__] of record classes, of the plain type of a property, of the plain item type of a
    collection *)
Variable cname : nat -> str.
Variable pname : prop -> str.
Variable iname : nat -> str.
(** The members of [prop.valuetype] when it is a tuple: record classes or names of plain types; [] when
    it is none.  (Of a record class in the tuple the name is [cname].) *)
Variable alts : prop -> list (nat + str).
(** The option extraneous; a filter is not modelled. *)
Variable extraneous : bool.

(** A dict, as made of pairs *)
Definition entry (k : string) (v : pyv) : str * pyv := (s2l k, v).

Definition alt_name (a : nat + str) : str := match a with inl c => cname c | inr n => n end.

(** visitor.py:518-533, propinfo for a property *)
Definition propinfo (p : prop) : pyv :=
  PDict (entry "name" (PStr (q_name p)) ::
         match alts p, q_type p with
         | [], TAny => []
         | [], TPrim _ _ => [entry "type" (PStr (pname p))]
         | [], TCls c _ => [entry "type" (PStr (cname c))]
         | l, _ => [entry "type" (PList (map (fun a => PStr (alt_name a)) l))]
         end).
(** visitor.py:525, propinfo for an item type *)
Definition iteminfo (c : nat) : pyv := PDict [entry "name" (PStr (iname c))].

(** visitor.py:722-730; no value is an instance of a class here: the value is the property *)
Fixpoint record_types (l : list (nat + str)) : list nat :=
  match l with
  | [] => []
  | inl c :: t => c :: record_types t
  | inr _ :: t => record_types t
  end.

(** visitor.py:743-756: the first that gives something true *)
Fixpoint try_types (rec : nat -> res pyv) (p : prop) (l : list nat) : res pyv :=
  match l with
  | [] => Ok (propinfo p)
  | c :: t => match rec c with
              | Err TypeErr => try_types rec p t
              | Err e => Err e
              | Ok x => if py_true x then Ok x else try_types rec p t
              end
  end.

(** visitor.py:692-708, map_prop *)
Definition reflect_prop (rec : nat -> res pyv) (p : prop) : res pyv :=
  match alts p, q_type p with
  | [], TCls c _ => rec c
  | [], _ => Ok (propinfo p)
  | l, _ => try_types rec p (record_types l)
  end.

(** visitor.py:88-91 without filter *)
Definition visible (p : prop) : bool := extraneous || negb (q_extraneous p).

(** visitor.py:543-557, typeinfo *)
Definition typeinfo (c : nat) (props : list (str * pyv)) (item : option pyv) : pyv :=
  let spec := dict_of_pairs props in
  PDict (entry "name" (PStr (cname c)) ::
         match spec with [] => [] | _ => [entry "properties" (PDict spec)] end ++
         match item with
         | Some x => if py_true x then [entry "itemtype" x] else []
         | None => []
         end).

(** visitor.py:591-689 with scantypes.  [fuel]: the stack; without end RecursionError.  An item type
    that is a tuple (which collections do not support) is not modelled. *)
Fixpoint reflect (fuel : nat) (c : nat) : res pyv :=
  match fuel with
  | O => Err RecursionErr
  | S n =>
      do item <- (if is_coll W c then
                    do x <- match w_item W c with
                            | TCls d _ => reflect n d
                            | _ => Ok (iteminfo c)
                            end;
                    Ok (Some x)
                  else Ok None);
      do infos <- mapm (fun p => do i <- reflect_prop (reflect n) p; Ok (q_name p, i))
                       (filter visible (w_props W c));
      Ok (typeinfo c infos item)
  end.
End Reflect.
