(** Which objects a record and a JSON document have in common after marshalling in and out: normalize/record/json.py with the objects of Python.
    Modelled: json_to_initkwargs (json.py:64-118), JsonRecord.__init__ and from_json (282-318), the json_to_initkwargs of
    JsonRecordList (381-420) and JsonRecordDict (454-492), Collection.__init__ (coll.py:101-103), to_json (192-264), JsonRecord.json_data (320-336).
    Simplifications: all classes are JsonRecord, JsonRecordList and JsonRecordDict classes without json_in, json_out, coercions, defaults and
    keyword arguments; collections have no properties of their own; values under unknown keys are written with json_data() if they have it
    (to_json, line 335, leaves the unknown keys of a record among them out); properties have distinct names and JSON names; documents are loaded already (no text); copy.deepcopy copies an object
    as often as it is met (it has no memo); [None] is an error or the end of the fuel. *)
From Coq Require Import String List Arith Bool NArith.
From Verif Require Import Prelude.
Import ListNotations.
Local Open Scope list_scope.

Section Alias.
Context {A C : Type}.

(** values: what cannot change, and references to objects *)
Inductive val := Atom (a : A) | Ref (i : nat).
(** objects: Python lists and dicts; records with their slots; collections with their items *)
Inductive cell :=
| DList (l : list val)
| DDict (l : list (str * val))
| ORec (c : C) (sl : list (str * val))
| OList (c : C) (l : list val)
| ODict (c : C) (l : list (str * val)).
Definition heap := list cell.

(** a property: name, json_name (None: not in documents), its JsonRecord type if it has one, extraneous *)
Record prop := Prop_ { p_name : str; p_json : option str; p_type : option C; p_extra : bool }.
(** the properties of a class, or the item type of a collection if that is a JsonRecord type *)
Inductive kind := KRec (ps : list prop) | KList (item : option C) | KDict (item : option C).
Variable W : C -> kind.
Variable unknown_extra : C -> bool.      (* unknown_json_keys of this class is extraneous (json.py:281) *)
Variable isinst : C -> C -> bool.        (* issubclass *)
Variable is_none : A -> bool.
Variable out : A -> A.                   (* integers beyond 2**50 become text (json.py:246-247) *)
Variable json_error : A -> bool.         (* neither None, text nor number: "I don't know how to marshall" (json.py:261) *)

Definition unknown : str := s2l "unknown_json_keys".
Definition alloc (x : cell) (h : heap) : val * heap := (Ref (length h), h ++ [x]).
Definition cell_of (h : heap) (v : val) : option cell := match v with Ref i => nth_error h i | Atom _ => None end.
Fixpoint get {X} (k : str) (l : list (str * X)) : option X :=
  match l with [] => None | (k', x) :: t => if str_eqb k k' then Some x else get k t end.
Fixpoint put {X} (k : str) (x : X) (l : list (str * X)) : list (str * X) :=
  match l with [] => [(k, x)] | (k', y) :: t => if str_eqb k k' then (k, x) :: t else (k', y) :: put k x t end.

(** one after the other; pairs keep their key *)
Fixpoint each {X Y} (f : X -> heap -> option (Y * heap)) (l : list X) (h : heap) : option (list Y * heap) :=
  match l with
  | [] => Some ([], h)
  | x :: t => match f x h with
              | Some (y, h) => match each f t h with Some (ys, h) => Some (y :: ys, h) | None => None end
              | None => None
              end
  end.
Definition keyed {X} (f : X -> heap -> option (val * heap)) (kx : str * X) (h : heap) : option ((str * val) * heap) :=
  match f (snd kx) h with Some (w, h) => Some ((fst kx, w), h) | None => None end.

(** copy.deepcopy *)
Fixpoint copy (n : nat) (v : val) (h : heap) : option (val * heap) :=
  match n, v with
  | 0, _ => None
  | S n, Atom a => Some (Atom a, h)
  | S n, Ref i =>
      match nth_error h i with
      | None => None
      | Some (DList l) => match each (copy n) l h with Some (ws, h) => Some (alloc (DList ws) h) | None => None end
      | Some (DDict l) => match each (keyed (copy n)) l h with Some (ws, h) => Some (alloc (DDict ws) h) | None => None end
      | Some (ORec c l) => match each (keyed (copy n)) l h with Some (ws, h) => Some (alloc (ORec c ws) h) | None => None end
      | Some (OList c l) => match each (copy n) l h with Some (ws, h) => Some (alloc (OList c ws) h) | None => None end
      | Some (ODict c l) => match each (keyed (copy n)) l h with Some (ws, h) => Some (alloc (ODict c ws) h) | None => None end
      end
  end.

(** an item of a collection (json.py:400-419, 473-491): as it is if the item type is no record type, or if it is such a record *)
Definition load_item (load : C -> val -> heap -> option (val * heap)) (it : option C) (x : val) (h : heap) : option (val * heap) :=
  match it with
  | None => Some (x, h)
  | Some d =>
      match cell_of h x with
      | Some (ORec c _) | Some (OList c _) | Some (ODict c _) => if isinst c d then Some (x, h) else load d x h
      | _ => load d x h
      end
  end.
(** the properties which the document has, with their values (json.py:86-112) *)
Fixpoint found (ps : list prop) (l : list (str * val)) : list (str * (option C * val)) :=
  match ps with
  | [] => []
  | p :: ps => match p_json p with
               | None => found ps l
               | Some j => match get j l with Some x => (p_name p, (p_type p, x)) :: found ps l | None => found ps l end
               end
  end.
(** the keys which are no unknown_keys (json.py:85, 102, 105) *)
Definition known (ps : list prop) (k : str) : bool :=
  existsb (fun p => match p_json p with Some j => str_eqb j k | None => false end) ps.

(** cls.from_json(v), cls a JsonRecord class (json.py:64-118, 282-318, 381-420, 454-492); a property with a type is loaded by its from_json
    (44-45), another is taken as it is (49); unknown keys are deep copies (113-117) *)
Fixpoint load (n : nat) (c : C) (v : val) (h : heap) : option (val * heap) :=
  match n with
  | 0 => None
  | S n =>
      match W c, v with
      | KRec _, Atom a => if is_none a then Some (alloc (ORec c []) h) else None
      | KList _, Atom a => if is_none a then Some (alloc (OList c []) h) else None
      | KDict _, Atom a => if is_none a then Some (alloc (ODict c []) h) else None
      | KRec ps, Ref i =>
          match nth_error h i with
          | Some (DDict l) =>
              match each (keyed (fun tx => match fst tx with Some d => load n d (snd tx) | None => fun h => Some (snd tx, h) end)) (found ps l) h with
              | None => None
              | Some (sl, h) =>
                  match filter (fun kx => negb (known ps (fst kx))) l with
                  | [] => Some (alloc (ORec c sl) h)
                  | rest =>
                      match each (keyed (copy n)) rest h with
                      | None => None
                      | Some (us, h) => let (u, h) := alloc (DDict us) h in Some (alloc (ORec c (sl ++ [(unknown, u)])) h)
                      end
                  end
              end
          | _ => None
          end
      | KList it, Ref i =>
          match nth_error h i with
          | Some (DList l) => match each (load_item (load n) it) l h with Some (ws, h) => Some (alloc (OList c ws) h) | None => None end
          | _ => None
          end
      | KDict it, Ref i =>
          match nth_error h i with
          | Some (DDict l) => match each (keyed (load_item (load n) it)) l h with Some (ws, h) => Some (alloc (ODict c ws) h) | None => None end
          | _ => None
          end
      end
  end.

(** the slots which are written, under their JSON names (json.py:230-244) *)
Fixpoint written (extra : bool) (ps : list prop) (sl : list (str * val)) : list (str * val) :=
  match ps with
  | [] => []
  | p :: ps => match p_json p, get (p_name p) sl with
               | Some j, Some x => if p_extra p && negb extra then written extra ps sl else (j, x) :: written extra ps sl
               | _, _ => written extra ps sl
               end
  end.
(** the unknown keys do not replace others (json.py:333-335) *)
Definition merge (jd us : list (str * val)) : list (str * val) :=
  fold_left (fun jd ku => match get (fst ku) jd with Some _ => jd | None => put (fst ku) (snd ku) jd end) us jd.

(** to_json(v, extra), of records x.json_data(extra) (json.py:192-264, 320-336, 422-425, 494-497) *)
Fixpoint dump (n : nat) (extra : bool) (v : val) (h : heap) : option (val * heap) :=
  match n, v with
  | 0, _ => None
  | S n, Atom a => if json_error a then None else Some (Atom (out a), h)
  | S n, Ref i =>
      match nth_error h i with
      | None => None
      | Some (DList l) | Some (OList _ l) =>
          match each (dump n extra) l h with Some (ws, h) => Some (alloc (DList ws) h) | None => None end
      | Some (DDict l) | Some (ODict _ l) =>
          match each (keyed (dump n extra)) l h with Some (ws, h) => Some (alloc (DDict ws) h) | None => None end
      | Some (ORec c sl) =>
          match each (keyed (dump n extra)) (written extra (match W c with KRec ps => ps | _ => [] end) sl) h with
          | None => None
          | Some (jd, h) =>
              let jd := fold_left (fun a kx => put (fst kx) (snd kx) a) jd [] in
              match get unknown sl with
              | Some (Ref u) =>
                  if extra || negb (unknown_extra c) then
                    match nth_error h u with
                    | Some (DDict us) =>
                        match each (keyed (dump n extra)) (filter (fun ku => match get (fst ku) jd with Some _ => false | None => true end) us) h with
                        | Some (us, h) => Some (alloc (DDict (merge jd us)) h)
                        | None => None
                        end
                    | _ => None
                    end
                  else Some (alloc (DDict jd) h)
              | _ => Some (alloc (DDict jd) h)
              end
          end
      end
  end.
End Alias.
Arguments val : clear implicits.
Arguments cell : clear implicits.
Arguments heap : clear implicits.
Arguments kind : clear implicits.
Arguments prop : clear implicits.
