(** Text form of field selectors: formatting and parsing.
    Models normalize/selector.py:483-543 and 546-551, 920-973. *)
From Coq Require Import List Arith NArith ZArith Bool Lia.
From Verif Require Import Prelude Regex.
Import ListNotations.
Local Open Scope N_scope.

(** An element of a field selector expression (selector.py:43-53: a string names an
    attribute or key, an integer an index, [None] the full collection).
    Simplification: [bool], a subclass of [int], is identified with the integers. *)
Inductive elem : Type :=
| EStr (s : str)
| EInt (z : Z)
| ENone.

Definition elem_eq_dec (a b : elem) : {a = b} + {a <> b}.
Proof. decide equality; [apply str_eq_dec | apply Z.eq_dec]. Defined.

Definition elem_eqb (a b : elem) : bool := if elem_eq_dec a b then true else false.

Section Unicode.
  (** The part of Python's Unicode tables outside ASCII: which code points [\w]
      accepts, and which ones [\d] accepts with what digit value.  Arbitrary. *)
  Variable uword : char -> bool.
  Variable udigit : char -> option N.

  (** [\d] and the digit value used by [int()] *)
  Definition digit_val (x : char) : option N :=
    if x <? 128 then
      if (48 <=? x) && (x <=? 57) then Some (x - 48) else None
    else udigit x.

  Definition is_digit (x : char) : bool :=
    match digit_val x with Some _ => true | None => false end.

  (** [a-zA-Z_] *)
  Definition is_ident_start (x : char) : bool :=
    ((97 <=? x) && (x <=? 122)) || ((65 <=? x) && (x <=? 90)) || (x =? 95).

  (** [\w] (Unicode): alphanumeric or underscore *)
  Definition is_word (x : char) : bool :=
    if x <? 128 then is_ident_start x || ((48 <=? x) && (x <=? 57))
    else uword x.

  (** ** Formatting *)

  (** digits of ["%d" % n] for a natural number, most significant first *)
  Fixpoint digits (fuel : nat) (n : N) : str :=
    match fuel with
    | O => []
    | S k => if n <? 10 then [48 + n] else digits k (n / 10) ++ [48 + n mod 10]
    end.

  Definition fmt_N (n : N) : str := digits (S (N.size_nat n)) n.

  (** ["%d" % z].  Simplification: CPython's limit on the number of digits of an
      integer conversion (4300 by default) is not modelled. *)
  Definition fmt_int (z : Z) : str :=
    match z with
    | Z0 => fmt_N 0
    | Zpos p => fmt_N (Npos p)
    | Zneg p => 45 :: fmt_N (Npos p)
    end.

  (** [re.match(r'^[a-zA-Z_]\w*$', selector)] — selector.py:507 *)
  Definition ident_re : re :=
    RSeq (RSet is_ident_start) (RSeq (RStar (RSet is_word)) RDollar).

  Definition is_plain (s : str) : bool :=
    match re_match ident_re s with Some _ => true | None => false end.

  (** [selector.replace("\\", "\\\\").replace("'", "\\'")] — selector.py:508.
      The two replacements are on distinct single characters, and the second does not
      touch backslashes, so the composition is character-wise. *)
  Definition replace1 (x : char) (by_ : str) (s : str) : str :=
    flat_map (fun y => if y =? x then by_ else [y]) s.

  Definition esc (s : str) : str := replace1 39 [92; 39] (replace1 92 [92; 92] s).

  (** [_fmt_selector_path] — selector.py:502-510 *)
  Definition fmt_elem (e : elem) : str :=
    match e with
    | EInt z => [91] ++ fmt_int z ++ [93]
    | ENone => [91; 42; 93]
    | EStr s =>
        if negb (is_plain s) then [91; 39] ++ esc s ++ [39; 93]
        else [46] ++ s
    end.

  (** [FieldSelector.path] — selector.py:483-493 *)
  Definition fs_path (sels : list elem) : str := flat_map fmt_elem sels.

  (** ** Parsing *)

  Definition g_attr := 1%nat.
  Definition g_idx := 2%nat.
  Definition g_wild := 3%nat.
  Definition g_key := 4%nat.
  Definition g_branch := 5%nat.
  Definition g_one := 6%nat.

  Definition notq (x : char) : bool := negb (x =? 39).

  (** [(?:[^']+|\\')*] *)
  Definition key_re : re :=
    RStar (RAlt (plus (RSet notq)) (RSeq (lit 92) (lit 39))).

  (** [\.(?P<attr>\w+)] *)
  Definition attr_re : re := RSeq (lit 46) (RGrp g_attr (plus (RSet is_word))).

  (** the bracketed alternative: [idx] (digits), [wild] (a star) or a quoted [key] *)
  Definition bracket_re : re :=
    RSeq (lit 91)
      (RSeq (RAlt (RGrp g_idx (plus (RSet is_digit)))
            (RAlt (RGrp g_wild (lit 42))
                  (RSeq (lit 39) (RSeq (RGrp g_key key_re) (lit 39)))))
         (lit 93)).

  (** [_PATH_TOK] — selector.py:513-521 *)
  Definition path_tok : re := RAlt attr_re bracket_re.

  (** [re.sub(r'\\(.)', lambda m: m.group(1), text)] — selector.py:530, 957.
      [.] does not match a newline. *)
  Definition unesc_re : re := RSeq (lit 92) (RGrp g_one (RSet (fun x => negb (x =? 10)))).

  Definition unesc (s : str) : str :=
    re_sub unesc_re (fun c => match group g_one c with Some x => x | None => [] end) s.

  (** [int(text)] for a non-empty string of digits *)
  Fixpoint int_of (s : str) (acc : N) : N :=
    match s with
    | [] => acc
    | x :: t => int_of t (10 * acc + match digit_val x with Some d => d | None => 0 end)
    end.

  (** Body of the [finditer] loops — selector.py:528-541 and 955-968: the element, if
      any, appended for one match. *)
  Definition tok_elem (c : caps) : list elem :=
    let text_item :=
      match group g_key c with
      | Some k => Some (unesc k)
      | None => group g_attr c
      end in
    match text_item with
    | Some (x :: t) => [EStr (x :: t)]
    | _ =>
        match group g_idx c with
        | Some (d :: ds) => [EInt (Z.of_N (int_of (d :: ds) 0))]
        | _ => match group g_wild c with
               | Some (_ :: _) => [ENone]
               | _ => []
               end
        end
    end.

  (** [_scan_selector_path] / [FieldSelector.from_path] — selector.py:524-543, 495-499 *)
  Definition scan_path (path : str) : list elem :=
    flat_map tok_elem (finditer path_tok path).

End Unicode.
