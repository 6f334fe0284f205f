(** What the text of a structured exception should be (C48), apart from the model. *)
From Coq Require Import String List NArith Bool.
From Verif Require Import Prelude ExcModel.
Import ListNotations.
Local Open Scope string_scope.
Local Open Scope list_scope.

(** A message is made of literal text and fields [{name}], [{name.attribute}], [{name!r}]. *)
Inductive piece := Text (s : str) | Slot (name : str) (path : list str) (quoted : bool).

Definition written (p : piece) : str :=
  match p with
  | Text s => s
  | Slot n path q =>
      s2l "{" ++ n ++ flat_map (fun a => s2l "." ++ a) path ++ (if q then s2l "!r" else []) ++ s2l "}"
  end.

(** Neither of the characters that mean something between braces. *)
Definition wordly (s : str) : Prop := Forall (fun c => ~ In c (s2l "{}!.:[")) s.
Definition simple (p : piece) : Prop :=
  match p with
  | Text s => Forall (fun c => ~ In c (s2l "{}")) s
  | Slot n path _ => (exists c, In c n /\ ~ (48 <= c <= 57)%N) /\ wordly n /\ Forall wordly path
  end.

Section Spec.
Context {val : Type}.
Variable fmt rep : val -> str + ferr val.
Variable attr : val -> str -> val + ferr val.

Inductive reaches : val -> list str -> val -> Prop :=
| R_here v : reaches v [] v
| R_attr v a w t x : attr v a = inl w -> reaches w t x -> reaches v (a :: t) x.

(** What a piece becomes. *)
Definition becomes (kw : list (str * val)) (p : piece) (t : str) : Prop :=
  match p with
  | Text s => t = s
  | Slot n path q =>
      exists v w, In (n, v) kw /\ reaches v path w /\ (if q then rep w else fmt w) = inl t
  end.

(** [t] is the message [m] with every field replaced. *)
Definition Renders (kw : list (str * val)) (m t : str) : Prop :=
  exists ps ts, m = flat_map written ps /\ Forall simple ps
                /\ Forall2 (becomes kw) ps ts /\ t = concat ts.

(** The attributes that values of a sort have. *)
Definition sort_attrs (s : sort) : list string :=
  match s with
  | VStr | VAny => []
  | VType | VItem => ["__name__"]
  | VProp => ["name"; "fullname"]
  | VFs => ["path"]
  | VJColl => ["__name__"; "json_coll_name"]
  | VVisitor => ["field_selector"]
  end.

(** [v] can be printed, and has the attributes of its sort, which can be printed as well.  ([VItem]:
    for item types which are classes.) *)
Definition of_sort (s : sort) (v : val) : Prop :=
  (exists t, fmt v = inl t) /\ (exists t, rep v = inl t) /\
  Forall (fun a => exists w t, attr v (s2l a) = inl w /\ fmt w = inl t) (sort_attrs s).

Definition keywords (s : site) (vs : list val) : list (str * val) :=
  combine (map (fun k => s2l (fst k)) (s_kw s)) vs.
End Spec.
