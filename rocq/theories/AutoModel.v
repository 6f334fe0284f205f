(** AutoJsonRecord and NCAutoJsonRecord: normalize/record/json.py:519-625. *)
From Coq Require Import String List NArith ZArith Bool.
From Verif Require Import Prelude PickleModel.
Import ListNotations.
Local Open Scope string_scope.
Local Open Scope list_scope.

(** ** Key conversion *)

Section Keys.
(** Which characters outside ASCII [\d] matches (Unicode category Nd). *)
Variable udigit : N -> bool.

Definition is_lower (c : N) : bool := N.leb 97 c && N.leb c 122.          (* [a-z] *)
Definition is_upper (c : N) : bool := N.leb 65 c && N.leb c 90.           (* [A-Z] *)
Definition is_digit (c : N) : bool :=                                     (* \d *)
  (N.leb 48 c && N.leb c 57) || (N.ltb 127 c && udigit c).
Definition is_ld (c : N) : bool := is_lower c || is_digit c.              (* [a-z\d] *)
Definition underscore : N := 95%N.
(** [str.lower] and [str.upper] on one ASCII letter *)
Definition to_lower (c : N) : N := (c + 32)%N.
Definition to_upper (c : N) : N := (c - 32)%N.

(** json.py:544-550: re.sub of [([a-z\d])([A-Z])]: leftmost matches, not overlapping. *)
Fixpoint key_in (k : str) : str :=
  match k with
  | [] => []
  | x :: t =>
      match t with
      | y :: t' =>
          if is_ld x && is_upper y then x :: underscore :: to_lower y :: key_in t'
          else x :: key_in t
      | [] => [x]
      end
  end.

(** json.py:552-558: re.sub of [([a-z\d])_([a-z])]. *)
Fixpoint key_out (k : str) : str :=
  match k with
  | [] => []
  | x :: t =>
      match t with
      | u :: y :: t' =>
          if is_ld x && N.eqb u underscore && is_lower y then x :: to_upper y :: key_out t'
          else x :: key_out t
      | _ => x :: key_out t
      end
  end.
End Keys.

(** ** Automatic records *)

(** JSON data as loaded by [json.loads]; [JNum] stands for floats. *)
Inductive json :=
| JNull
| JBool (b : bool)
| JInt (z : Z)
| JNum (n : nat)
| JStr (s : str)
| JList (l : list json)
| JObj (l : list (str * json)).

(** What a slot of an AutoJsonRecord holds: JSON data as it came, a record (by its
    [unknown_json_keys]), or a list_of(AutoJsonRecord). *)
Inductive auto :=
| ALeaf (j : json)
| ARec (unknown : list (str * auto))
| ARecs (items : list auto).

Section Auto.
(** [convert_json_key_in] and [_out]: those above, or the identity (json.py:604-614). *)
Variables conv_in conv_out : str -> str.
(** [json.loads] of text (json.py:121-134) *)
Variable parse : str -> res json.

(** exc.JsonRecordCoerceError, exc.py:415 *)
Definition JsonRecordCoerce : exn := OtherErr 70.

(** dict comprehension: a later entry of the same key replaces the value of the earlier one. *)
Fixpoint dset {A} (k : str) (a : A) (l : list (str * A)) : list (str * A) :=
  match l with
  | [] => [(k, a)]
  | (k', a') :: t => if str_eqb k k' then (k', a) :: t else (k', a') :: dset k a t
  end.
Definition dict_of_pairs {A} (l : list (str * A)) : list (str * A) :=
  fold_left (fun d kv => dset (fst kv) (snd kv) d) l [].

Definition is_obj (j : json) : bool := match j with JObj _ => true | _ => false end.

(** [AutoJsonRecord(thing)] (json.py:282-304, 560-572), with [upgrade] for auto_upgrade_any: the class
    has no property with a JSON name, so every key is unknown.  None gives a record without keys,
    text is parsed first (twice if that gives text again: json.py:301, 310), anything
    else is JsonRecordCoerceError (json.py:81-84).  The keys come out of
    a set (json.py:86); the order of the document is used here. *)
Definition auto_record (upgrade : json -> res auto) (thing : json) : res auto :=
  let of_dict l :=
    do l' <- mapm (fun kv => do a <- upgrade (snd kv); Ok (conv_in (fst kv), a)) l;
    Ok (ARec (dict_of_pairs l')) in
  let of_struct j :=
    match j with
    | JNull => Ok (ARec [])
    | JObj l => of_dict l
    | _ => Err JsonRecordCoerce
    end in
  match thing with
  | JStr s =>
      do j <- parse s;
      match j with
      | JStr s' => do j' <- parse s'; of_struct j'
      | _ => of_struct j
      end
  | _ => of_struct thing
  end.

(** json.py:524-542: auto_upgrade_any, auto_upgrade_list, auto_upgrade_dict; [fuel] bounds the
    nesting (parsed text can nest further). *)
Fixpoint upgrade (fuel : nat) (j : json) : res auto :=
  match fuel with
  | 0 => Err RecursionErr
  | S n =>
      match j with
      | JObj _ => auto_record (upgrade n) j
      | JList (x :: t) =>
          if is_obj x then
            do items <- mapm (fun y => match auto_record (upgrade n) y with
                                       | Ok a => Ok a
                                       | Err _ => Err CollItemCoerceErr   (* coll.py:134-150 *)
                                       end) (x :: t);
            Ok (ARecs items)
          else Ok (ALeaf j)
      | _ => Ok (ALeaf j)
      end
  end.

(** The class itself called with a document. *)
Definition load (fuel : nat) (doc : json) : res auto := auto_record (upgrade fuel) doc.

(** [str] of an integer *)
Variable show : Z -> str.

(** json.py:192-264, to_json on plain data: integers beyond 2**50 become text. *)
Fixpoint plain_json (j : json) : json :=
  match j with
  | JInt z => if Z.ltb (2 ^ 50) (Z.abs z) then JStr (show z) else JInt z
  | JList l => JList (map plain_json l)
  | JObj l => JObj (map (fun kv => (fst kv, plain_json (snd kv))) l)
  | _ => j
  end.

(** [AutoJsonRecord.json_data] (json.py:574-583).  It starts from [to_json(self)], which is empty as
    the class has no property with a JSON name, and adds [to_json(v)] (json.py:192-264) for every
    unknown key: for plain data that is [plain_json], for a collection a list of [_json_data] of the
    items (json.py:162-189, their json_data), and for a record – not its json_data but again only the
    properties with a JSON name, of which there are none. *)
Fixpoint json_data (a : auto) : json :=
  match a with
  | ALeaf j => plain_json j
  | ARecs items => JList (map json_data items)
  | ARec unknown =>
      JObj (fold_left (fun jd kv =>
              let k := conv_out (fst kv) in
              if existsb (fun e : str * json => str_eqb k (fst e)) jd then jd
              else jd ++ [(k, snd kv)])
            (map (fun kv => (fst kv, match snd kv with
                                     | ALeaf j => plain_json j
                                     | ARec _ => JObj []
                                     | ARecs items => JList (map json_data items)
                                     end)) unknown)
            [])
  end.
End Auto.
