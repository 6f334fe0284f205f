(** What marshalling out is expected to give (C69): specification only. *)
From Coq Require Import String List NArith ZArith Arith Bool.
From Verif Require Import Prelude GenModel JsonModel JsonSpec.
Import ListNotations.
Local Open Scope string_scope.
Local Open Scope list_scope.

(** A JSON document: null, true, false, numbers (integers of at most 50 bits), text, lists and
    objects with distinct keys. *)
Inductive document : pyv -> Prop :=
| doc_none : document PNone
| doc_bool b : document (PBool b)
| doc_int z : (Z.abs z <= 2 ^ 50)%Z -> document (PInt z)
| doc_num n : document (PNum n)
| doc_str s : document (PStr s)
| doc_list l : (forall x, In x l -> document x) -> document (PList l)
| doc_dict l : NoDup (map fst l) -> (forall k x, In (k, x) l -> document x) -> document (PDict l).

(** Every dict within the value has distinct keys, as Python's dicts do. *)
Inductive proper : pyv -> Prop :=
| pr_leaf v : match v with PList _ | PTuple _ | PDict _ | PObj _ _ => False | _ => True end -> proper v
| pr_list l : (forall x, In x l -> proper x) -> proper (PList l)
| pr_tuple l : (forall x, In x l -> proper x) -> proper (PTuple l)
| pr_dict l : NoDup (map fst l) -> (forall k x, In (k, x) l -> proper x) -> proper (PDict l)
| pr_obj c sl : (forall n x, In (n, x) sl -> proper x) -> proper (PObj c sl).

(** The functions given as json_out return JSON documents (if they return). *)
Definition outs_are_documents (W : world) : Prop :=
  forall c p f x j, In p (w_props W c) -> conv_out p = Some f -> f x = Ok j -> document j.

(** The value without its extraneous attributes, at any depth.  What goes to a json_out function is
    left as it is. *)
Section Strip.
Variable W : world.
Fixpoint strip (v : pyv) : pyv :=
  match v with
  | PList l => PList (map strip l)
  | PTuple l => PTuple (map strip l)
  | PDict l => PDict (map (fun kv => (fst kv, strip (snd kv))) l)
  | PObj c sl =>
      match w_kind W c with
      | KRecord | KJson =>
          PObj c (flat_map (fun kv =>
            match find (fun p => str_eqb (q_name p) (fst kv)) (w_props W c) with
            | None => []
            | Some p => if q_extraneous p then []
                        else match conv_out p with
                             | Some _ => [kv]
                             | None => [(fst kv, strip (snd kv))]
                             end
            end) sl)
      | _ => PObj c (map (fun kv => (fst kv, strip (snd kv))) sl)
      end
  | _ => v
  end.
End Strip.
