(** Common vocabulary of the model: text, exceptions as values, small list tools. *)
From Coq Require Import List NArith ZArith Bool Lia Ascii String.
Import ListNotations.

(** Python [str] is a sequence of Unicode code points. *)
Notation char := N (only parsing).
Notation str := (list N) (only parsing).

Fixpoint s2l (s : string) : str :=
  match s with
  | EmptyString => []
  | String a t => N_of_ascii a :: s2l t
  end.

Definition str_eqb (a b : str) : bool :=
  if list_eq_dec N.eq_dec a b then true else false.

Lemma str_eqb_eq a b : str_eqb a b = true <-> a = b.
Proof. unfold str_eqb; destruct (list_eq_dec N.eq_dec a b); split; congruence. Qed.

Lemma str_eqb_refl a : str_eqb a a = true.
Proof. now apply str_eqb_eq. Qed.

Lemma str_eqb_neq a b : str_eqb a b = false <-> a <> b.
Proof. unfold str_eqb; destruct (list_eq_dec N.eq_dec a b); split; congruence. Qed.

Definition str_eq_dec : forall a b : str, {a = b} + {a <> b} := list_eq_dec N.eq_dec.

(** The exception classes that the modelled code raises or catches.
    normalize/exc.py:27-495 and Python builtins.  Only the class is kept; message
    texts are not modelled. *)
Inductive exn : Type :=
| TypeErr            (* builtin TypeError *)
| ValueErr           (* builtin ValueError *)
| KeyErr             (* builtin KeyError *)
| IndexErr           (* builtin IndexError *)
| AttrErr            (* builtin AttributeError *)
| AssertErr          (* builtin AssertionError *)
| RecursionErr       (* builtin RecursionError; also used when model fuel runs out *)
| UserErr            (* any exception raised by user supplied code *)
| FSKeyErr           (* exc.FieldSelectorKeyError (a FieldSelectorException and KeyError) *)
| FSAttrErr          (* exc.FieldSelectorAttributeError (FieldSelectorException, AttributeError) *)
| FSErr              (* exc.FieldSelectorException proper *)
| PropRequired       (* exc.PropertyRequired, an AttributeValueError (ValueError) *)
| CoerceErr          (* exc.CoerceError, a CoercionError *)
| ValueCoercionErr   (* exc.ValueCoercionError, a CoercionError *)
| ValueCheckErr      (* exc.ValueCheckError, an AttributeValueError (ValueError) *)
| ReadOnlyErr        (* exc.ReadOnlyAttributeError, an AttributeError *)
| PropNotKnown       (* exc.PropertyNotKnown *)
| AmbiguousCons      (* exc.AmbiguousConstruction *)
| CollItemCoerceErr  (* exc.CollectionItemCoerceError *)
| CollCoerceErr      (* exc.CollectionCoerceError *)
| SubtypeCoerceErr   (* exc.SubtypeCoerceError *)
| SubtypeNoCoerce    (* exc.SubtypeNoCoerceFunc *)
| OtherErr (n : nat).

(** Which [except] clauses catch which class; normalize/exc.py:78-129 for the bases. *)
(** [except FieldSelectorException] (exc.py:94, 250, 254) *)
Definition is_fs_exc (e : exn) : bool :=
  match e with FSKeyErr | FSAttrErr | FSErr => true | _ => false end.
(** [except AttributeError] / [hasattr] (exc.py:250, 315, 398) *)
Definition is_attr_err (e : exn) : bool :=
  match e with AttrErr | FSAttrErr | ReadOnlyErr => true | _ => false end.
(** [except KeyError] (exc.py:254) *)
Definition is_key_err (e : exn) : bool :=
  match e with KeyErr | FSKeyErr => true | _ => false end.
(** [except LookupError]: KeyError or IndexError *)
Definition is_lookup_err (e : exn) : bool :=
  match e with KeyErr | FSKeyErr | IndexErr => true | _ => false end.
(** [except CoercionError] (exc.py:82, 145, 159, 166, 426, 437, 449) *)
Definition is_coercion_err (e : exn) : bool :=
  match e with
  | CoerceErr | ValueCoercionErr | CollItemCoerceErr | CollCoerceErr
  | SubtypeCoerceErr | SubtypeNoCoerce => true
  | _ => false
  end.

Inductive res (A : Type) : Type :=
| Ok (a : A)
| Err (e : exn).
Arguments Ok {A} a.
Arguments Err {A} e.

Definition bind {A B} (x : res A) (f : A -> res B) : res B :=
  match x with Ok a => f a | Err e => Err e end.

Notation "'do' x <- a ; b" := (bind a (fun x => b))
  (at level 200, x pattern, a at level 100, b at level 200).

Definition is_ok {A} (x : res A) : bool := match x with Ok _ => true | Err _ => false end.

(** First hit of a partial function along a list. *)
Fixpoint firstm {A B} (f : A -> option B) (l : list A) : option B :=
  match l with
  | [] => None
  | x :: t => match f x with Some b => Some b | None => firstm f t end
  end.

Lemma hd_error_app {A} (l1 l2 : list A) :
  hd_error (l1 ++ l2) = match hd_error l1 with Some x => Some x | None => hd_error l2 end.
Proof. destruct l1; reflexivity. Qed.

Lemma hd_error_flat_map {A B} (f : A -> list B) l :
  hd_error (flat_map f l) = firstm (fun x => hd_error (f x)) l.
Proof.
  induction l as [|x t IH]; simpl; auto.
  rewrite hd_error_app, IH. reflexivity.
Qed.

Lemma firstm_app {A B} (f : A -> option B) l1 l2 :
  firstm f (l1 ++ l2) = match firstm f l1 with Some b => Some b | None => firstm f l2 end.
Proof. induction l1 as [|x t IH]; simpl; auto. destruct (f x); auto. Qed.

Lemma firstm_map {A B C} (f : B -> option C) (g : A -> B) l :
  firstm f (map g l) = firstm (fun x => f (g x)) l.
Proof. induction l as [|x t IH]; simpl; auto. destruct (f (g x)); auto. Qed.

Lemma firstm_ext {A B} (f g : A -> option B) l :
  (forall x, In x l -> f x = g x) -> firstm f l = firstm g l.
Proof.
  induction l as [|x t IH]; simpl; intros H; auto.
  rewrite (H x) by auto. destruct (g x); auto.
Qed.

Lemma firstm_none {A B} (f : A -> option B) l :
  (forall x, In x l -> f x = None) -> firstm f l = None.
Proof.
  induction l as [|x t IH]; simpl; intros H; auto.
  rewrite (H x) by auto. auto.
Qed.

Lemma hd_error_map {A B} (f : A -> B) l : hd_error (map f l) = option_map f (hd_error l).
Proof. destruct l; reflexivity. Qed.
