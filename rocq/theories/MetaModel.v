(** Declaration of record types: RecordMeta.__new__, normalize/record/meta.py:27-99, with
    the parts of normalize/property/__init__.py it uses.

    Simplifications, for the whole file:
    - property objects are numbered; the heap maps a number to the fields used here;
    - of a base class only its [properties] mapping matters ([None]: it has none);
    - creating the class itself ([super().__new__], meta.py:91) succeeds: the bases are
      such that Python finds a method resolution order;
    - the class attributes are given without [primary_key], which is a separate argument. *)
From Coq Require Import String List NArith Bool Arith Lia.
Import ListNotations.
From Verif Require Import Prelude TraitModel.

(** A property object: [name], [class_] (the number of the class it is bound to),
    [empty_attr] ([None]: not given; [Some None]: disabled), [extraneous] and what
    [eager_init()] looks at: [required], a [default], the trait lazy.
    property/__init__.py:124-157, 176-188, 274, 341 *)
Record pobj := {
  po_name : option str; po_class : option nat; po_empty : option (option str);
  po_extraneous : bool; po_required : bool; po_default : bool; po_lazy : bool
}.
Notation heap := (nat -> pobj) (only parsing).
Definition upd_heap (h : nat -> pobj) (i : nat) (o : pobj) : nat -> pobj :=
  fun j => if Nat.eqb i j then o else h j.

(** eager_init (property/__init__.py:274-275; LazyProperty 353-354) *)
Definition eager_init (o : pobj) : bool := if po_lazy o then false else po_required o || po_default o.

(** [bound] (property/__init__.py:172-174) *)
Definition bound (o : pobj) : bool := match po_class o with Some _ => true | None => false end.

(** set_name (property/__init__.py:176-181): the accessor name is the name with a zero
    appended unless the name ends in a digit. *)
Definition is_digit (c : N) : bool := (N.leb 48 c && N.leb c 57)%N.
Definition set_name (o : pobj) (n : str) : pobj :=
  {| po_name := Some n; po_class := po_class o;
     po_empty := match po_empty o with
                 | Some e => Some e
                 | None => Some (if is_digit (last n 0%N) then None else Some (n ++ [48%N]))
                 end;
     po_extraneous := po_extraneous o; po_required := po_required o;
     po_default := po_default o; po_lazy := po_lazy o |}.

(** bind (property/__init__.py:183-184) *)
Definition bind (o : pobj) (c : nat) : pobj :=
  {| po_name := po_name o; po_class := Some c; po_empty := po_empty o;
     po_extraneous := po_extraneous o; po_required := po_required o;
     po_default := po_default o; po_lazy := po_lazy o |}.

(** aux_props (property/__init__.py:296-309) *)
Definition aux_props (o : pobj) : list str :=
  match po_empty o with Some (Some e) => [e] | _ => [] end.

(** A value in the class body: a property, the accessor object of one, anything else. *)
Inductive attr := AProp (p : nat) | AAux (p : nat) | AOther.

(** Python dicts with string keys, in insertion order; assignment keeps the place of an
    existing key. *)
Fixpoint dget {X} (n : str) (d : list (str * X)) : option X :=
  match d with
  | [] => None
  | (m, x) :: d => if str_eqb n m then Some x else dget n d
  end.
Fixpoint dset {X} (n : str) (x : X) (d : list (str * X)) : list (str * X) :=
  match d with
  | [] => [(n, x)]
  | (m, y) :: d => if str_eqb n m then (m, x) :: d else (m, y) :: dset n x d
  end.
Definition dupdate {X} (d e : list (str * X)) : list (str * X) :=
  fold_left (fun d nx => dset (fst nx) (snd nx) d) e d.

Inductive merr := MClash      (* exc.MultipleInheritanceClash *)
                | MReserved   (* exc.ReservedPropertyName *)
                | MUnknown    (* exc.PropertiesNotKnown *)
                | MKeyErr.    (* KeyError *)
Inductive mres (X : Type) := MOk (x : X) | MErr (e : merr).
Arguments MOk {X}. Arguments MErr {X}.

(** The properties of the bases (meta.py:37-47). *)
Fixpoint add_props (acc ps : list (str * nat)) : mres (list (str * nat)) :=
  match ps with
  | [] => MOk acc
  | (n, p) :: ps => match dget n acc with
                    | Some _ => MErr MClash
                    | None => add_props (acc ++ [(n, p)]) ps
                    end
  end.
Fixpoint base_props (acc : list (str * nat)) (bases : list (option (list (str * nat)))) : mres (list (str * nat)) :=
  match bases with
  | [] => MOk acc
  | None :: bases => base_props acc bases
  | Some ps :: bases => match add_props acc ps with
                        | MErr e => MErr e
                        | MOk acc => base_props acc bases
                        end
  end.

Definition reserved (n : str) : bool :=
  str_eqb n (s2l "properties") || str_eqb n (s2l "eager_properties").

(** The loop over the class body (meta.py:52-63): the heap, [properties], [local_props]
    and [aux_props]. *)
Record loop := { l_heap : nat -> pobj; l_props : list (str * nat); l_local : list (str * nat); l_aux : list (str * nat) }.
Fixpoint body_loop (s : loop) (attrs : list (str * attr)) : loop * mres unit :=
  match attrs with
  | [] => (s, MOk tt)
  | (n, v) :: attrs =>
      if reserved n then (s, MErr MReserved)
      else match v with
           | AProp p =>
               let o := l_heap s p in
               let props := dset n p (l_props s) in
               if bound o then body_loop {| l_heap := l_heap s; l_props := props; l_local := l_local s; l_aux := l_aux s |} attrs
               else
                 let o' := set_name o n in
                 body_loop {| l_heap := upd_heap (l_heap s) p o'; l_props := props;
                              l_local := dset n p (l_local s);
                              l_aux := fold_left (fun d e => dset e p d) (aux_props o') (l_aux s) |} attrs
           | _ => body_loop s attrs
           end
  end.

(** An element of [primary_key]: a string, a property object, anything else. *)
Inductive pk_elem := PkName (n : str) | PkProp (p : nat) | PkOther.

(** coerce_prop_list (meta.py:67-82) *)
Fixpoint coerce_props (props : list (str * nat)) (l : list pk_elem) : mres (list nat) :=
  match l with
  | [] => MOk []
  | e :: l =>
      match (match e with
             | PkName n => match dget n props with Some p => MOk p | None => MErr MKeyErr end
             | PkProp p => if existsb (fun x => Nat.eqb p (snd x)) props then MOk p else MErr MUnknown
             | PkOther => MErr MUnknown
             end) with
      | MErr x => MErr x
      | MOk p => match coerce_props props l with MErr x => MErr x | MOk ps => MOk (p :: ps) end
      end
  end.

(** [sorted(_, key=lambda x: x.name)] (meta.py:87-90): stable insertion sort by name; a
    property that is in the mapping always has one. *)
Definition name_of (o : pobj) : str := match po_name o with Some n => n | None => [] end.
Fixpoint sins (h : nat -> pobj) (p : nat) (l : list nat) : list nat :=
  match l with
  | [] => [p]
  | q :: t => match str_cmp (name_of (h p)) (name_of (h q)) with Gt => q :: sins h p t | _ => p :: l end
  end.
Definition ssort (h : nat -> pobj) (l : list nat) : list nat := fold_right (sins h) [] l.

(** A record type. *)
Record rtype := {
  c_props : list (str * nat); c_pk : list nat; c_sorted : list nat; c_eager : list str;
  c_attrs : list (str * attr)
}.

(** RecordMeta.__new__ (meta.py:27-99) for the class number [id]; [pk] is
    [attrs.get('primary_key')]. *)
Definition declare_type (h : nat -> pobj) (id : nat) (bases : list (option (list (str * nat))))
    (attrs : list (str * attr)) (pk : list pk_elem) : (nat -> pobj) * mres rtype :=
  match base_props [] bases with
  | MErr e => (h, MErr e)
  | MOk inherited =>
      match body_loop {| l_heap := h; l_props := inherited; l_local := []; l_aux := [] |} attrs with
      | (s, MErr e) => (l_heap s, MErr e)
      | (s, MOk _) =>
          match coerce_props (l_props s) pk with
          | MErr e => (l_heap s, MErr e)
          | MOk pks =>
              let h1 := l_heap s in
              let h2 := fold_left (fun h np => upd_heap h (snd np) (bind (h (snd np)) id)) (l_local s) h1 in
              (h2, MOk {| c_props := l_props s; c_pk := pks;
                          c_sorted := ssort h1 (filter (fun p => negb (po_extraneous (h1 p))) (map snd (l_props s)));
                          c_eager := map fst (filter (fun np => eager_init (h1 (snd np))) (l_props s));
                          c_attrs := dupdate attrs (map (fun np => (fst np, AAux (snd np))) (l_aux s)) |})
          end
      end
  end.
