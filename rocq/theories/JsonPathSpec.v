(** Where loading fails (C39): specification only. *)
From Coq Require Import String List NArith ZArith Arith Bool.
From Verif Require Import Prelude GenModel JsonModel JsonSpec.
Import ListNotations.
Local Open Scope string_scope.
Local Open Scope list_scope.

(** Distinct attribute names and distinct JSON keys. *)
Definition distinct_props (W : world) (c : nat) : Prop :=
  NoDup (map q_name (w_props W c)) /\
  forall p p' k, In p (w_props W c) -> In p' (w_props W c) ->
    json_key p = Some k -> json_key p' = Some k -> p = p'.

(** What loading is about at some position of a document: a class called with the value there, the
    value of a property, or the function [from_json] for a class that is not a JSON class. *)
Inductive task :=
| Load (c : nat) (v : pyv)
| Read (p : prop) (x : pyv)
| Doc (c : nat) (v : pyv).

Section Path.
Variable W : world.
Variable parse : str -> res pyv.
Variable by_key : list (str * pyv) -> list (str * pyv).

Definition run (n : nat) (t : task) : out pyv :=
  match t with
  | Load c v => call W parse by_key n c v
  | Doc c v => from_json W parse by_key (call W parse by_key n) c v
  | Read p x =>
      match (match conv_in p with Some f => f x | None => Val x end) with
      | Exc path e => Exc path e
      | Val y => match q_type p with
                 | TCls c _ => if is_json W c then call W parse by_key n c y else Val y
                 | _ => Val y
                 end
      end
  end.

(** [v] is the JSON data [j], or JSON text for it (text within text for [twice]). *)
Inductive stands : pyv -> pyv -> Prop :=
| st_self j : (forall s, j <> PStr s) -> stands j j
| st_text s j : parse s = Ok j -> stands (PStr s) j.
Inductive stands2 : pyv -> pyv -> Prop :=
| st_once v j : stands v j -> (forall s, j <> PStr s) -> stands2 v j
| st_twice v s j : stands v (PStr s) -> parse s = Ok j -> stands2 v j.

(** In [doc], [p] is the property to read [x] under key [k], and those before it in [ps] are fine. *)
Definition first_at (n : nat) (ps : list prop) (doc : list (str * pyv)) (p : prop) (k : str) (x : pyv)
  : Prop :=
  exists ps1 ps2, ps = ps1 ++ p :: ps2 /\ json_key p = Some k /\ find_name k doc = Some x /\
    forall p' k' x', In p' ps1 -> json_key p' = Some k' -> find_name k' doc = Some x' ->
      exists y, run n (Read p' x') = Val y.

(** The task for an item of a collection: only records are loaded, and only if they are not already. *)
Inductive item_task : vtype -> pyv -> task -> Prop :=
| it_json c co x : json_class W c -> isinstance W x (TCls c co) = false ->
    item_task (TCls c co) x (Load c x)
| it_plain c co x : ~ json_class W c -> isinstance W x (TCls c co) = false ->
    item_task (TCls c co) x (Doc c x).
Definition item_fine (n : nat) (t : vtype) (x : pyv) : Prop :=
  forall s, item_task t x s -> exists y, run n s = Val y.

(** [reach n t path n' t']: loading [t] comes to [t'] at [path], everything before it being fine. *)
Inductive reach : nat -> task -> list step -> nat -> task -> Prop :=
| r_here n t : reach n t [] n t
| r_record n c v doc p k x path n' t' :
    w_kind W c = KJson -> stands2 v (PDict doc) -> first_at n (w_props W c) doc p k x ->
    reach n (Read p x) path n' t' -> reach (S n) (Load c v) (SKey k :: path) n' t'
| r_doc n c v doc p k x path n' t' :
    ~ json_class W c -> stands v (PDict doc) -> first_at n (w_props W c) doc p k x ->
    reach n (Read p x) path n' t' -> reach n (Doc c v) (SKey k :: path) n' t'
| r_list n c v l l1 x l2 s path n' t' :
    w_kind W c = KJsonList -> stands v l -> (l = PList (l1 ++ x :: l2) \/ l = PTuple (l1 ++ x :: l2)) ->
    (forall y, In y l1 -> item_fine n (w_item W c) y) -> item_task (w_item W c) x s ->
    reach n s path n' t' -> reach (S n) (Load c v) (SIdx (length l1) :: path) n' t'
| r_dict n c v l1 k x l2 s path n' t' :
    w_kind W c = KJsonDict -> stands v (PDict (l1 ++ (k, x) :: l2)) ->
    (forall k' y, In (k', y) l1 -> item_fine n (w_item W c) y) -> item_task (w_item W c) x s ->
    reach n s path n' t' -> reach (S n) (Load c v) (SKey k :: path) n' t'
| r_value n p x y c co path n' t' :
    match conv_in p with Some f => f x = Val y | None => y = x end ->
    q_type p = TCls c co -> json_class W c ->
    reach n (Load c y) path n' t' -> reach n (Read p x) path n' t'.

(** The error [e] is raised by the task itself: by a json_in function, in which case [path] is what
    that function reports; or by the class, for the value it is called with as a whole. *)
Inductive raised : nat -> task -> list step -> exn -> Prop :=
| ra_json_in n p x f path e : conv_in p = Some f -> f x = Exc path e -> raised n (Read p x) path e
| ra_load n c v e : run n (Load c v) = Exc [] e -> raised n (Load c v) [] e
| ra_doc n c v e : run n (Doc c v) = Exc [] e -> raised n (Doc c v) [] e.

(** The value at a position of a document (seeing through JSON text). *)
Inductive leads : pyv -> list step -> pyv -> Prop :=
| le_here v : leads v [] v
| le_text s j path w : parse s = Ok j -> leads j path w -> leads (PStr s) path w
| le_key l k x path w : In (k, x) l -> leads x path w -> leads (PDict l) (SKey k :: path) w
| le_list l i x path w : nth_error l i = Some x -> leads x path w -> leads (PList l) (SIdx i :: path) w
| le_tuple l i x path w : nth_error l i = Some x -> leads x path w -> leads (PTuple l) (SIdx i :: path) w.

Definition task_value (t : task) : pyv :=
  match t with Load _ v => v | Read _ x => x | Doc _ v => v end.
End Path.
