(** Names of composed property types (property/meta.py:116-128) and the informal text of a record (record/__init__.py:85-101). *)
From Coq Require Import String List NArith Arith Bool.
From Verif Require Import Prelude SelPathModel FSModel PySeq MFSModel ValModel EqModel.
Import ListNotations.
Local Open Scope list_scope.

Section Camel.
(** [\d] of a regular expression beyond 0-9: the other decimal digits of Unicode *)
Variable other_digit : N -> bool.

(** [[a-z\d]], [[A-Z]] *)
Definition small (c : N) : bool := (N.leb 97 c && N.leb c 122) || (N.leb 48 c && N.leb c 57) || other_digit c.
Definition capital (c : N) : bool := N.leb 65 c && N.leb c 90.

(** [re.sub(r'([a-z\d])([A-Z])', "%s,%s", name)] (meta.py:118-120, 123-125): matches are found from the left and do not overlap, so the capital
    of one is passed over *)
Fixpoint with_commas (s : str) : str :=
  match s with
  | [] => []
  | a :: r => match r with
              | [] => [a]
              | b :: t => if small a && capital b then a :: 44%N :: b :: with_commas t else a :: with_commas r
              end
  end.

(** [.split(",")] *)
Fixpoint split_commas (s : str) : list str :=
  match s with
  | [] => [[]]
  | c :: t => if N.eqb c 44 then [] :: split_commas t
              else match split_commas t with
                   | [] => [[c]]
                   | p :: ps => (c :: p) :: ps
                   end
  end.
Definition name_parts (s : str) : list str := split_commas (with_commas s).

(** _merge_camel_case_names (meta.py:116-128) *)
Definition merge_names (base new : str) : str :=
  let parts := name_parts base in
  concat (filter (fun x => negb (existsb (str_eqb x) parts)) (name_parts new) ++ parts).
End Camel.

Section Str.
Context {A C : Type}.
Notation val := (val A C).
(** [repr()] of keys and their parts, and [self.__pk__] (record/__init__.py:138-145), which is [record_id] *)
Variable repr : val -> str.
Variable pk : val -> res val.

(** Record.__str__ (record/__init__.py:85-101); the name of the class is passed in.  [len(pk)] of what is no tuple: record_id gives a tuple for
    records. *)
Definition record_str (name : str) (v : val) : res str :=
  do k <- pk v;
  match k with
  | VSeq true l =>
      let key := match l with [x] => repr x | _ => repr k end in
      Ok (s2l "<" ++ name ++ s2l " " ++ (if Nat.ltb 32 (length key) then firstn 30 key ++ s2l "..." else key) ++ s2l ">")
  | _ => Err TypeErr
  end.
End Str.
