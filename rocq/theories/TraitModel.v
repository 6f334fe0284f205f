(** Property types and their traits: how [Property(...)] finds or composes the
    sub-class which has the wanted traits.  normalize/property/meta.py:23-266.

    Simplifications, for the whole file:
    - classes are numbered in the order they are created; the class [object] is left
      out of every MRO (it is always last);
    - class names, which are cosmetic (_merge_camel_case_names, meta.py:116-128), are
      left out;
    - there is one metaclass, MetaProperty, so the [isinstance(_, type(self))] tests
      (meta.py:71, 108) always succeed;
    - of an argument value only [looks_like_v1_none(value)] (meta.py:32-33) is kept;
    - exception classes only, no messages. *)
From Coq Require Import String List NArith Bool Lia Arith.
Import ListNotations.
From Verif Require Import Prelude.

(** Tuples of trait names and their order, as used by [sorted]. *)
Notation key := (list str) (only parsing).

(** Comparison of str: by code points. *)
Fixpoint str_cmp (a b : str) : comparison :=
  match a, b with
  | [], [] => Eq
  | [], _ :: _ => Lt
  | _ :: _, [] => Gt
  | x :: a, y :: b => match N.compare x y with Eq => str_cmp a b | c => c end
  end.

(** Comparison of tuples of str: lexicographic. *)
Fixpoint key_cmp (a b : key) : comparison :=
  match a, b with
  | [], [] => Eq
  | [], _ :: _ => Lt
  | _ :: _, [] => Gt
  | x :: a, y :: b => match str_cmp x y with Eq => key_cmp a b | c => c end
  end.

(** [tuple(sorted(set(l)))] *)
Fixpoint ins (s : str) (l : key) : key :=
  match l with
  | [] => [s]
  | x :: t => match str_cmp s x with Lt => s :: l | Eq => l | Gt => x :: ins s t end
  end.
Definition key_of (l : list str) : key := fold_right ins [] l.

Definition key_eq_dec : forall a b : key, {a = b} + {a <> b} := list_eq_dec str_eq_dec.
Definition key_eqb (a b : key) : bool := if key_eq_dec a b then true else false.
Definition smem (s : str) (l : list str) : bool := existsb (str_eqb s) l.
Definition subset (a b : list str) : bool := forallb (fun s => smem s b) a.

(** [sorted(keys)] for a collection of tuples. *)
Fixpoint kins (k : key) (l : list key) : list key :=
  match l with
  | [] => [k]
  | x :: t => match key_cmp k x with Gt => x :: kins k t | _ => k :: l end
  end.
Definition ksort (l : list key) : list key := fold_right kins [] l.

(** The keyword arguments of a property declaration: the [traits] argument and the
    names of the others, each with whether its value [looks_like_v1_none]. *)
Record kwargs := { kw_traits : option (list str); kw_args : list (str * bool) }.
Definition no_kwargs : kwargs := {| kw_traits := None; kw_args := [] |}.

(** A property class.  [p_own] is the [__trait__] of its own body, [p_traits] the
    [traits] attribute, [p_duck]/[p_all_duck] [duckwargs]/[all_duckwargs], [p_defaults]
    [default_kwargs], [p_safe] what [__safe_unless_ro__] reads as, [p_mro] its method
    resolution order (its own number first).  meta.py:224-266 *)
Record ptype := {
  p_id : nat; p_own : option str; p_traits : key; p_all_duck : list str;
  p_defaults : kwargs; p_safe : bool; p_mro : list nat
}.

(** PROPERTY_TYPES and DUCKWARGS (meta.py:23-27); a DUCKWARGS entry is an argument
    name with the (traits, type) pair. *)
Record reg := { r_types : list (key * ptype); r_ducks : list (str * (key * ptype)) }.

Inductive terr : Type :=
| TKeyErr           (* KeyError *)
| TAttrErr          (* AttributeError *)
| TTypeErr          (* TypeError: no consistent MRO; super(type, obj) mismatch *)
| TValueErr         (* ValueError: max() of nothing *)
| TClash            (* exc.PropertyTypeClash *)
| TNotPossible      (* exc.PropertyTypeMixinNotPossible *)
| TFailure          (* exc.PropertyTypeMixinFailure *)
| TPositional       (* exc.PositionalArgumentsProhibited *)
| TArgNotKnown      (* exc.PropertyArgumentNotKnown *)
| TDiverges.        (* the model's fuel ran out *)

Inductive tres (X : Type) : Type := TOk (x : X) | TErr (e : terr).
Arguments TOk {X}. Arguments TErr {X}.

Fixpoint assoc {X} (k : key) (l : list (key * X)) : option X :=
  match l with
  | [] => None
  | (k', x) :: l => if key_eqb k k' then Some x else assoc k l
  end.
Definition lookup (R : reg) (k : key) : option ptype := assoc k (r_types R).
Definition registered (R : reg) (k : key) : bool :=
  match lookup R k with Some _ => true | None => false end.
Definition keys (R : reg) : list key := map fst (r_types R).

(** The C3 linearisation of Python's [type(name, bases, attrs)]: repeatedly take the
    first head which is in no tail. *)
Definition nmem (n : nat) (l : list nat) : bool := existsb (Nat.eqb n) l.
Definition in_tails (h : nat) (ls : list (list nat)) : bool := existsb (fun l => nmem h (tl l)) ls.
Fixpoint good_head (cands ls : list (list nat)) : option nat :=
  match cands with
  | [] => None
  | [] :: cands => good_head cands ls
  | (h :: _) :: cands => if in_tails h ls then good_head cands ls else Some h
  end.
Definition drop_head (h : nat) (l : list nat) : list nat :=
  match l with [] => [] | x :: t => if Nat.eqb x h then t else l end.
Fixpoint c3_merge (fuel : nat) (ls : list (list nat)) : option (list nat) :=
  match fuel with
  | O => None
  | S n => if forallb (fun l => match l with [] => true | _ => false end) ls then Some []
           else match good_head ls ls with
                | None => None
                | Some h => match c3_merge n (map (drop_head h) ls) with
                            | Some l => Some (h :: l)
                            | None => None
                            end
                end
  end.
Definition c3 (self : nat) (bases : list ptype) : option (list nat) :=
  let ls := map p_mro bases ++ [map p_id bases] in
  match c3_merge (S (length (concat ls))) ls with
  | Some l => Some (self :: l)
  | None => None
  end.

Definition class_of (R : reg) (id : nat) : option ptype :=
  match find (fun kt => Nat.eqb (p_id (snd kt)) id) (r_types R) with
  | Some (_, t) => Some t
  | None => None
  end.

(** What [__safe_unless_ro__] reads as when not defined by the class itself: the value
    of the first class of the rest of the MRO ([p_safe] is already resolved). *)
Definition inherited_safe (R : reg) (mro : list nat) : bool :=
  match mro with
  | [] => false
  | i :: _ => match class_of R i with Some t => p_safe t | None => false end
  end.

(** The body of a class statement as far as it matters: [__trait__],
    [__safe_unless_ro__], the argument names of [__init__] ([self] included) and
    [default_kwargs]. *)
Record body := { b_trait : option str; b_safe : option bool; b_init : list str; b_defaults : kwargs }.
Definition empty_body : body :=
  {| b_trait := None; b_safe := None; b_init := []; b_defaults := no_kwargs |}.

(** MetaProperty.__new__ (meta.py:224-266).  An attribute [__trait__ = ''] counts as none.
    Simplification: [__safe_unless_ro__] is inherited from the first base in MRO order,
    which has it resolved already; exact as long as no class later in the MRO of that
    base, but before the definition it inherits, redefines it. *)
Definition new_type (R : reg) (bases : list ptype) (b : body) : reg * tres ptype :=
  let own := match b_trait b with Some [] => None | o => o end in
  let traits := key_of ((match own with Some s => [s] | None => [] end) ++ flat_map p_traits bases) in
  let all_duck := b_init b ++ flat_map p_all_duck bases in
  if registered R traits then (R, TErr TClash)
  else
    let id := length (r_types R) in
    match c3 id bases with
    | None => (R, TErr TTypeErr)
    | Some mro =>
        let t := {| p_id := id; p_own := own; p_traits := traits; p_all_duck := all_duck;
                    p_defaults := b_defaults b;
                    p_safe := match b_safe b with Some x => x | None => inherited_safe R (tl mro) end;
                    p_mro := mro |} in
        ({| r_types := r_types R ++ [(traits, t)];
            r_ducks := r_ducks R ++ (match own with
                                     | Some _ => map (fun a => (a, (traits, t))) (b_init b)
                                     | None => [] end) |},
         TOk t)
    end.

(** The inner loop of create_property_type_from_traits (meta.py:182-195): which of the
    stock keys to mix into [base].  Returns [mix_in] with [mixed_in_product], and the
    value the loop variable [other] is left with. *)
Fixpoint pick (R : reg) (wanted base : key) (others : list key) (shortfall : nat)
    (mix : option (key * key)) (other : option key) : option (key * key) * option key :=
  match others with
  | [] => (mix, other)
  | o :: rest =>
      let mixed := key_of (base ++ o) in
      if registered R mixed then pick R wanted base rest shortfall mix (Some o)
      else
        let this := length (filter (fun s => negb (smem s (base ++ o))) wanted) in
        if this <? shortfall then
          if this =? 0 then (Some (o, mixed), Some o)
          else pick R wanted base rest this (Some (o, mixed)) (Some o)
        else pick R wanted base rest shortfall mix (Some o)
  end.

(** The loop over the bases (meta.py:173-205).  [stock] are the keys of [stock_types]
    (its values are never used); [made] is [made_type].  Note that meta.py:200 looks up
    [other], the loop variable, and not [mix_in]. *)
Fixpoint mix_bases (R : reg) (wanted : key) (longest : nat) (bases stock : list key) (made : bool)
    : reg * tres (list key * bool) :=
  match bases with
  | [] => (R, TOk (stock, made))
  | base :: bases =>
      if negb (length base =? longest) then mix_bases R wanted longest bases stock made
      else
        match pick R wanted base (ksort stock) (length wanted - length base) None None with
        | (Some (_ :: _, product), Some other) =>
            match lookup R base, lookup R other with
            | Some bt, Some ot =>
                match new_type R [bt; ot] empty_body with
                | (R', TOk _) =>
                    mix_bases R' wanted longest bases
                      (if existsb (key_eqb product) stock then stock else stock ++ [product]) true
                | (R', TErr e) => (R', TErr e)
                end
            | _, _ => (R, TErr TKeyErr)
            end
        | _ => mix_bases R wanted longest bases stock made
        end
  end.

(** [k and k[0] == trait_set[0]] (meta.py:165-167) *)
Definition starts (wanted k : key) : bool :=
  match k, wanted with
  | x :: _, y :: _ => str_eqb x y
  | _, _ => false
  end.

(** The [while] loop (meta.py:161-212). *)
Fixpoint mix_loop (fuel : nat) (R : reg) (wanted : key) (stock : list key) : reg * tres unit :=
  match fuel with
  | O => (R, TErr TDiverges)
  | S n =>
      if registered R wanted then (R, TOk tt)
      else
        let start_with := filter (starts wanted) stock in
        match start_with with
        | [] => (R, TErr TValueErr)
        | _ =>
            let longest := list_max (map (@length str) start_with) in
            match mix_bases R wanted longest (ksort start_with) stock false with
            | (R', TErr e) => (R', TErr e)
            | (R', TOk (stock', true)) => mix_loop n R' wanted stock'
            | (R', TOk (_, false)) => (R', TErr TFailure)
            end
        end
  end.

(** create_property_type_from_traits (meta.py:131-216), for a sorted tuple without
    repetitions, which is what [has] passes. *)
Definition create_with (fuel : nat) (R : reg) (wanted : key) : reg * tres unit :=
  let stock := filter (fun k => subset k wanted) (keys R) in
  if forallb (fun s => existsb (smem s) stock) wanted then mix_loop fuel R wanted stock
  else (R, TErr TNotPossible).

(** At most [2 ^ n] trait sets can be made from [n] traits. *)
Definition create (R : reg) (wanted : key) : reg * tres unit :=
  create_with (S (2 ^ length wanted)) R wanted.

(** The names given a meaning by [has]. *)
Local Open Scope string_scope.
Local Open Scope list_scope.
Definition safe_s := s2l "safe".
Definition unsafe_s := s2l "unsafe".
Definition ro_s := s2l "ro".
Definition v1_s := s2l "v1".
Definition default_s := s2l "default".
Definition traits_s := s2l "traits".

Definition has_arg (s : str) (k : kwargs) : bool := smem s (map fst (kw_args k)).

(** [implies_traits] (meta.py:68-74): the trait tuples of the types that declare the
    argument, without repetitions; and whether one of these is [__safe_unless_ro__]. *)
Definition ducks_of (R : reg) (arg : str) : list (key * ptype) :=
  map snd (filter (fun d => str_eqb (fst d) arg) (r_ducks R)).
Definition implied (R : reg) (arg : str) : list key :=
  nodup key_eq_dec (map fst (ducks_of R arg)).

(** The loop over the arguments (meta.py:65-92).  When several traits declare the
    argument, building the message of AmbiguousPropertyTraitArg asks a tuple for its
    [__name__], which is an AttributeError. *)
Fixpoint duck_traits (R : reg) (known : list str) (args : list (str * bool)) (extra : list str) (safe : bool)
    : tres (list str * bool) :=
  match args with
  | [] => TOk (extra, safe)
  | (a, _) :: args =>
      if smem a known then duck_traits R known args extra safe
      else match implied R a with
           | [] => TErr TArgNotKnown
           | [ts] => duck_traits R known args (extra ++ ts)
                       (safe || existsb (fun d => p_safe (snd d)) (ducks_of R a))
           | _ => TErr TAttrErr
           end
  end.

(** The adjustments of meta.py:94-105. *)
Definition adjust (all : list str) (safe_unless_ro v1_default : bool) : list str :=
  let all :=
    if smem unsafe_s all && negb (smem safe_s all) then filter (fun s => negb (str_eqb s unsafe_s)) all
    else if negb (smem ro_s all) && safe_unless_ro then safe_s :: all
    else all in
  if negb (smem v1_s all) && v1_default then v1_s :: safe_s :: all else all.

(** [has] up to the choice of the type (meta.py:54-107). *)
Definition has (R : reg) (self : ptype) (positional : bool) (k : kwargs) : reg * tres ptype :=
  if positional then (R, TErr TPositional)
  else
    let extra := match kw_traits k with Some l => l | None => [] end in
    let safe := p_safe self || has_arg (s2l "required") k || has_arg (s2l "isa") k || has_arg (s2l "check") k in
    match duck_traits R (p_all_duck self) (kw_args k) extra safe with
    | TErr e => (R, TErr e)
    | TOk (extra, safe) =>
        let v1 := existsb (fun a => str_eqb (fst a) default_s && snd a) (kw_args k) in
        let wanted := key_of (adjust (p_traits self ++ extra) safe v1) in
        match (if registered R wanted then (R, TOk tt) else create R wanted) with
        | (R, TErr e) => (R, TErr e)
        | (R, TOk _) => match lookup R wanted with
                        | Some t => (R, TOk t)
                        | None => (R, TErr TKeyErr)
                        end
        end
    end.

(** [mixed_kwargs] (meta.py:231-232) *)
Definition mix_kwargs (d k : kwargs) : kwargs :=
  {| kw_traits := match kw_traits k with Some l => Some l | None => kw_traits d end;
     kw_args := map (fun a => match find (fun b => str_eqb (fst b) (fst a)) (kw_args k) with
                              | Some b => b | None => a end) (kw_args d)
                ++ filter (fun a => negb (smem (fst a) (map fst (kw_args d)))) (kw_args k) |}.

(** The class after [id] in an MRO, as [super(id, _)] looks for it; [None] if [id] is not
    in it. *)
Fixpoint after (id : nat) (mro : list nat) : option (list nat) :=
  match mro with
  | [] => None
  | i :: rest => if Nat.eqb i id then Some rest else after id rest
  end.

(** [_has] as [__new__] of the class [selfie] called for [self] (meta.py:230-233): the
    last line of [has] (meta.py:113) calls the [__new__] of the class after [selfie] in
    the MRO of [self], with the chosen type and no arguments; behind the last class comes
    [object.__new__]. *)
Fixpoint new_chain (fuel : nat) (R : reg) (selfie self : ptype) (positional : bool) (k : kwargs)
    : reg * tres ptype :=
  match fuel with
  | O => (R, TErr TDiverges)
  | S n =>
      match has R self positional (mix_kwargs (p_defaults selfie) k) with
      | (R, TErr e) => (R, TErr e)
      | (R, TOk t) =>
          match after (p_id selfie) (p_mro self) with
          | None => (R, TErr TTypeErr)
          | Some [] => (R, TOk t)
          | Some (i :: _) =>
              match class_of R i with
              | None => (R, TErr TTypeErr)
              | Some next => new_chain n R next t false no_kwargs
              end
          end
      end
  end.

Definition subclass (t u : ptype) : bool := nmem (p_id u) (p_mro t).

(** Declaring a property by calling a property type: [type.__call__] creates the object
    and runs its [__init__] only if the object is an instance of the type called.
    Returns the type of the object and whether it got initialised.  The [__init__]
    itself is not modelled here. *)
Definition declare (R : reg) (t : ptype) (k : kwargs) : reg * tres (ptype * bool) :=
  match new_chain 100 R t t false k with
  | (R, TErr e) => (R, TErr e)
  | (R, TOk u) => (R, TOk (u, subclass u t))
  end.

(** The property types of the library in import order: property/__init__.py:47-495,
    property/coll.py:26-108, property/json.py:34-122, property/types.py:52-165. *)
Definition T (s : String.string) : option str := Some (s2l s).
Definition kw (l : list String.string) : kwargs :=
  {| kw_traits := None; kw_args := map (fun s => (s2l s, false)) l |}.
Definition bd (t : option str) (safe : option bool) (init : list String.string) (d : kwargs) : body :=
  {| b_trait := t; b_safe := safe; b_init := map s2l init; b_defaults := d |}.

(** A class statement whose bases are given by their traits. *)
Definition stmt (R : reg) (d : list (list String.string) * body) : reg :=
  let bases := flat_map (fun k => match lookup R (map s2l k) with Some t => [t] | None => [] end) (fst d) in
  fst (new_type R bases (snd d)).

Definition statements : list (list (list string) * body) := [
  (* property/__init__.py *)
  ([], bd None (Some false) ["self"; "isa"; "coerce"; "check"; "required"; "default"; "traits";
                             "extraneous"; "empty_attr"; "doc"] no_kwargs);
  ([[]], bd (T "lazy") None ["self"; "lazy"] no_kwargs);
  ([[]], bd (T "ro") None [] no_kwargs);
  ([["lazy"]; ["ro"]], bd None None [] no_kwargs);
  ([[]], bd (T "safe") None [] no_kwargs);
  ([["safe"]; ["lazy"]], bd None None [] no_kwargs);
  ([["safe"]], bd (T "v1") None ["self"; "v1_none"] no_kwargs);
  ([[]], bd (T "diffas") None ["self"; "compare_as"] no_kwargs);
  (* property/coll.py *)
  ([[]], bd (T "coll") (Some true) ["self"; "of"; "coll"; "isa"] no_kwargs);
  ([["coll"]; ["safe"]], bd None None [] no_kwargs);
  ([["coll"]], bd (T "list") None ["self"; "list_of"] no_kwargs);
  ([["coll"]], bd (T "dict") None ["self"; "dict_of"] no_kwargs);
  (* property/json.py *)
  ([[]], bd (T "json") None ["self"; "json_name"; "json_in"; "json_out"] no_kwargs);
  ([["json"]; ["safe"]], bd None None [] no_kwargs);
  ([["coll"; "list"]; ["json"]], bd None None [] no_kwargs);
  ([["coll"; "dict"]; ["json"]], bd None None [] no_kwargs);
  (* property/types.py *)
  ([[]], bd (T "int") None ["self"] (kw ["isa"]));
  ([[]], bd (T "long") None ["self"] (kw ["isa"]));
  ([[]], bd (T "integer") None ["self"] (kw ["isa"; "coerce"]));
  ([[]], bd (T "number") None ["self"] (kw ["isa"; "coerce"]));
  ([[]], bd (T "str") None ["self"] (kw ["isa"]));
  ([[]], bd (T "float") None ["self"] (kw ["isa"]));
  ([["str"]], bd (T "unicode") None ["self"] (kw ["isa"; "coerce"]));
  ([[]], bd (T "date") None ["self"] (kw ["isa"; "coerce"; "json_out"]));
  ([[]], bd (T "datetime") None ["self"] (kw ["isa"; "coerce"; "json_out"]))
].
Definition stock : reg := fold_left stmt statements {| r_types := []; r_ducks := [] |}.
