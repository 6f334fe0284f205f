(** The reports of differences: the text of a DiffInfo and of a Diff, and the JSON form of a
    JsonDiff, out and in.  normalize/diff.py:39-61, 63-108, 1020-1079;
    normalize/record/json.py:167-189, 223-229, 504-516; normalize/selector.py:54-83. *)
From Coq Require Import String List Arith NArith ZArith Bool.
From Verif Require Import Prelude SelPathModel FSModel MFSModel SeqDiffModel DiffModel AutoModel.
Import ListNotations.

(** DiffTypes: index, canonical name, display name (diff.py:47-51) *)
Definition dt_index (t : dtype) : Z :=
  match t with NoChange => 1 | Added => 2 | Removed => 3 | Modified => 4 | Moved => 5 end.
Definition dt_canonical (t : dtype) : str :=
  s2l (match t with
       | NoChange => "none" | Added => "added" | Removed => "removed"
       | Modified => "modified" | Moved => "moved"
       end).
Definition dt_display (t : dtype) : str :=
  s2l (match t with
       | NoChange => "UNCHANGED" | Added => "ADDED" | Removed => "REMOVED"
       | Modified => "MODIFIED" | Moved => "MOVED"
       end).
Definition dtypes : list dtype := [NoChange; Added; Removed; Modified; Moved].

Section Text.
Variable uword : char -> bool.
Notation path := (fs_path uword).

(** DiffInfo.__str__ (diff.py:94-108).  [self.base.startswith(self.other)] is
    [fs_startswith other base]. *)
Definition entry_text (e : dentry) : res str :=
  let '(t, p, q) := e in
  do info <-
    (if str_eqb (path p) (path q) then Ok (path q)
     else
       do b <- (if Nat.ltb (length q) (length p) then fs_startswith q p else Ok false);
       if b then Ok (path p)
       else
         do o <- (if Nat.ltb (length p) (length q) then fs_startswith p q else Ok false);
         if o then Ok (path q)
         else Ok (s2l "(" ++ path p ++ s2l "/" ++ path q ++ s2l ")"));
  Ok (s2l "<DiffInfo: " ++ dt_display t ++ s2l " " ++ info ++ s2l ">").

(** The dictionary [diffstate], in order of insertion; [diffstate[k].append(p)] *)
Definition state : Type := list (str * list (list elem)).
Fixpoint append (k : str) (p : list elem) (d : state) : state :=
  match d with
  | [] => [(k, [p])]
  | (j, ps) :: t => if str_eqb k j then (j, ps ++ [p]) :: t else (j, ps) :: append k p t
  end.

(** The loop over the entries (diff.py:1036-1049) *)
Definition put (d : state) (e : dentry) : state :=
  let '(t, p, q) := e in
  match t with
  | Added => append (s2l "+NEW") q d
  | Removed => append (s2l "-OLD") p d
  | Modified =>
      if str_eqb (path p) (path q) then append (s2l "<>X") p d
      else append (s2l "<+>NEW") q (append (s2l "<->OLD") p d)
  | NoChange => append (s2l "==X") p d
  | Moved => d
  end.
Definition collect (l : list dentry) : state := fold_left put l [].

(** [MultiFieldSelector( *v ).path] *)
Definition paths_text (ord : list arg -> list arg) (ps : list (list elem)) : res str :=
  do m <- make ord (map AFS ps); Ok (mfs_path uword m).
Definition group_text (ord : list arg -> list arg) (g : str * list (list elem)) : res str :=
  do t <- paths_text ord (snd g); Ok (fst g ++ s2l "(" ++ t ++ s2l ")").

(** Diff.__str__ (diff.py:1030-1071): the type names may be unset; the selectors are built
    twice (diff.py:1051-1058 and 1060-1071), in whatever orders of sets. *)
Definition report (ord1 ord2 : list arg -> list arg) (base_type other_type : option str) (l : list dentry) : res str :=
  match base_type, other_type with
  | Some bt, Some ot =>
      let what := if str_eqb bt ot then bt else bt ++ s2l " vs " ++ ot in
      let d := collect l in
      do _ <- mapM (group_text ord1) d;
      do gs <- mapM (group_text ord2) d;
      Ok (s2l "<Diff [" ++ what ++ s2l "]; " ++ fmt_N (N.of_nat (length l)) ++ s2l " diff(s)" ++
          (match d with [] => [] | _ => s2l ": " ++ join (s2l "; ") gs end) ++ s2l ">")
  | _, _ => Err AttrErr
  end.
End Text.

(** ** JSON *)

(** JsonDiffInfo.json_data (json.py:506-511); through _json_data (json.py:167-189), which
    finds that the method does not take [extraneous] *)
Definition elem_json (e : elem) : json :=
  match e with EStr s => JStr s | EInt z => JInt z | ENone => JNull end.
Definition entry_json (e : dentry) : json :=
  let '(t, p, q) := e in
  JObj [(s2l "diff_type", JStr (dt_canonical t)); (s2l "base", JList (map elem_json p));
        (s2l "other", JList (map elem_json q))].
(** JsonDiff.json_data: JsonRecordList.json_data, to_json of a list collection
    (json.py:223-229, 422-425) *)
Definition diff_json (l : list dentry) : json := JList (map entry_json l).

(** Entries as loaded: selectors may hold what the constructor lets pass ([raw]). *)
Definition loaded : Type := (dtype * list raw * list raw)%type.

(** _coerce_diff (diff.py:54-60), inside type_safe_value: whatever is raised becomes a
    CoerceError.  [bool] is an [int].  from_index and from_canonical: the member with that
    index or name, or LookupError. *)
Definition coerce_diff (j : json) : res dtype :=
  let find f := match find f dtypes with Some t => Ok t | None => Err CoerceErr end in
  match j with
  | JInt z => find (fun t => Z.eqb (dt_index t) z)
  | JBool b => find (fun t => Z.eqb (dt_index t) (if b then 1 else 0))
  | JStr s => find (fun t => str_eqb (dt_canonical t) s)
  | _ => Err CoerceErr
  end.

(** An element given to the FieldSelector constructor (selector.py:72-77).
    [JNum n] stands for the floating point numbers, here [JNum 0] is 0.0. *)
Definition raw_of (j : json) : raw :=
  match j with
  | JStr s => Good (EStr s)
  | JInt z => Good (EInt z)
  | JBool b => Good (EInt (if b then 1 else 0))
  | JNull => Good ENone
  | JNum n => Bad (negb (Nat.eqb n 0))
  | JList l => Bad (match l with [] => false | _ => true end)
  | JObj l => Bad (match l with [] => false | _ => true end)
  end.

(** FieldSelector(expr) (selector.py:54-83) as coercion: a false value makes the empty
    selector, [list()] of text is its characters and of a dict its keys. *)
Definition coerce_fs (j : json) : res (list raw) :=
  let init l := match fs_init l with Ok l => Ok l | Err _ => Err CoerceErr end in
  match j with
  | JNull => Ok []
  | JBool b => if b then Err CoerceErr else Ok []
  | JInt z => if Z.eqb z 0 then Ok [] else Err CoerceErr
  | JNum n => if Nat.eqb n 0 then Ok [] else Err CoerceErr
  | JStr s => init (map (fun c => Good (EStr [c])) s)
  | JList l => init (map raw_of l)
  | JObj l => init (map (fun kv => Good (EStr (fst kv))) l)
  end.

Fixpoint jget (k : str) (l : list (str * json)) : option json :=
  match l with [] => None | (j, v) :: t => if str_eqb k j then Some v else jget k t end.

(** JsonDiffInfo(json_data) (json.py:64-114, 282-305): null is read as an empty dict; the
    three properties are required; unknown keys are kept aside.  The properties are set in
    an order which only decides which error is raised. *)
Definition load_entry (j : json) : res loaded :=
  match (match j with JNull => Some [] | JObj l => Some l | _ => None end) with
  | None => Err TypeErr                     (* exc.JsonRecordCoerceError *)
  | Some l =>
      match jget (s2l "diff_type") l, jget (s2l "base") l, jget (s2l "other") l with
      | Some t, Some p, Some q =>
          do t <- coerce_diff t; do p <- coerce_fs p; do q <- coerce_fs q; Ok (t, p, q)
      | _, _, _ => Err PropRequired
      end
  end.

(** JsonDiff(json_data) (json.py:345-420): a list of entries, or null *)
Definition load_diff (j : json) : res (list loaded) :=
  match j with
  | JNull => Ok []
  | JList l => mapM load_entry l
  | _ => Err TypeErr                        (* exc.JsonCollectionCoerceError *)
  end.
