(** Normalisation of text before comparison: normalize/diff.py:185-240. *)
From Coq Require Import List NArith Bool.
From Verif Require Import Prelude Regex.
Import ListNotations.

Section Text.
(** Python's character tables: [\s], [str.upper], [unicodedata.normalize('NFC', _)].
    Arbitrary functions. *)
Variable ws : char -> bool.
Variable upper : str -> str.
Variable nfc : str -> str.

(** [re.compile(r'\s+')] *)
Definition ws_re : re := plus (RSet ws).

(** [sep.join(l)] *)
Fixpoint str_join (sep : str) (l : list str) : str :=
  match l with
  | [] => []
  | [x] => x
  | x :: t => x ++ sep ++ str_join sep t
  end.

(** DiffOptions.normalize_whitespace (diff.py:190-198), the branch for text; the other
    branch is for values that are not text, for which it is not called. *)
Definition normalize_whitespace (v : str) : str :=
  str_join [32%N] (filter (fun x => negb (Nat.eqb (length x) 0)) (re_split ws_re v)).

(** The options that matter here (diff.py:127-183) *)
Record text_options := { ignore_ws : bool; ignore_case : bool; unicode_normal : bool }.

(** DiffOptions.normalize_text (diff.py:223-234) with the stock methods *)
Definition normalize_text (o : text_options) (v : str) : str :=
  let v := if ignore_ws o then normalize_whitespace v else v in
  let v := if ignore_case o then upper v else v in
  if unicode_normal o then nfc v else v.

End Text.
