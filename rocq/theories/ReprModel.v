(** Records as Python source: [__repr__] (normalize/record/__init__.py:103-119, coll.py:283-290,
    415-421, record/json.py:427-429, 499-501), and what Python makes of such source. *)
From Coq Require Import String List NArith ZArith Arith Bool.
From Verif Require Import Prelude SelPathModel GenModel PickleModel AutoModel JsonModel.
Import ListNotations.
Local Open Scope list_scope.

(** ** [repr] of text (CPython, unicode_repr) *)
Section Text.
Local Open Scope N_scope.
(** [str.isprintable] of a character beyond ASCII *)
Variable printable : N -> bool.

(** Single quotes, unless the text has some and no double quotes. *)
Definition quote (s : str) : N :=
  if existsb (N.eqb 39) s && negb (existsb (N.eqb 34) s) then 34 else 39.

Definition hex_char (n : N) : N := if n <? 10 then 48 + n else 87 + n.
Fixpoint hex (k : nat) (n : N) : str :=
  match k with O => [] | S j => hex j (n / 16) ++ [hex_char (n mod 16)] end.

Definition esc_char (q c : N) : str :=
  if (c =? q) || (c =? 92) then [92; c]
  else if c =? 9 then [92; 116]
  else if c =? 10 then [92; 110]
  else if c =? 13 then [92; 114]
  else if (c <? 32) || (c =? 127) then [92; 120] ++ hex 2 c
  else if c <? 127 then [c]
  else if printable c then [c]
  else if c <? 256 then [92; 120] ++ hex 2 c
  else if c <? 65536 then [92; 117] ++ hex 4 c
  else [92; 85] ++ hex 8 c.
Definition str_repr (s : str) : str := quote s :: flat_map (esc_char (quote s)) s ++ [quote s].

(** *** Reading a literal *)
Definition unhex (c : N) : option N :=
  if (48 <=? c) && (c <=? 57) then Some (c - 48)
  else if (97 <=? c) && (c <=? 102) then Some (c - 87)
  else if (65 <=? c) && (c <=? 70) then Some (c - 55)
  else None.
Fixpoint read_hex (k : nat) (acc : N) (s : str) : option (N * str) :=
  match k, s with
  | O, _ => Some (acc, s)
  | S j, c :: r => match unhex c with Some d => read_hex j (16 * acc + d) r | None => None end
  | S _, [] => None
  end.

(** The character after a backslash; octal escapes, \a, \b, \f, \v, \N and \ before a line end are left
    out ([repr] never writes them). *)
Definition read_esc (s : str) : option (N * str) :=
  match s with
  | [] => None
  | c :: r =>
      if (c =? 92) || (c =? 39) || (c =? 34) then Some (c, r)
      else if c =? 116 then Some (9, r)
      else if c =? 110 then Some (10, r)
      else if c =? 114 then Some (13, r)
      else if c =? 120 then read_hex 2 0 r
      else if c =? 117 then read_hex 4 0 r
      else if c =? 85 then read_hex 8 0 r
      else None
  end.

(** The literal after its opening quote [q]; a line end is an error. *)
Fixpoint read_lit (fuel : nat) (q : N) (s : str) : option (str * str) :=
  match fuel with
  | O => None
  | S n =>
      match s with
      | [] => None
      | c :: r =>
          if c =? q then Some ([], r)
          else if (c =? 10) || (c =? 13) then None
          else match (if c =? 92 then read_esc r else Some (c, r)) with
               | Some (x, r') => match read_lit n q r' with
                                 | Some (t, r'') => Some (x :: t, r'')
                                 | None => None
                                 end
               | None => None
               end
      end
  end.
End Text.

Definition comma_sep : str := s2l ", ".
(** [", ".join(l)] *)
Fixpoint join (l : list str) : str :=
  match l with
  | [] => []
  | [x] => x
  | x :: t => x ++ comma_sep ++ join t
  end.

(** [sorted] of names *)
Fixpoint str_le (a b : str) : bool :=
  match a, b with
  | [], _ => true
  | _, [] => false
  | x :: a', y :: b' => N.ltb x y || (N.eqb x y && str_le a' b')
  end.
Fixpoint insert_name (n : str) (l : list str) : list str :=
  match l with
  | [] => [n]
  | m :: t => if str_le n m then n :: l else m :: insert_name n t
  end.
Definition sort_names (l : list str) : list str := fold_right insert_name [] l.

(** [s.replace(c, t, 1)] for one character *)
Fixpoint replace1 (c : N) (t s : str) : str :=
  match s with
  | [] => []
  | x :: r => if N.eqb x c then t ++ r else x :: replace1 c t r
  end.
(** [s.endswith("()")] *)
Fixpoint ends_empty (s : str) : bool :=
  match s with
  | [] => false
  | x :: r => match r with
              | [y] => N.eqb x 40 && N.eqb y 41
              | _ => ends_empty r
              end
  end.

Section Repr.
Variable W : world.
Variable printable : N -> bool.
(** [cls.__name__] *)
Variable cname : nat -> str.
(** [repr] of floats and of other objects *)
Variable num_text : nat -> str.
Variable opaque_text : nat -> str.

Definition tuple_text (l : list str) : str :=
  match l with
  | [x] => s2l "(" ++ x ++ s2l ",)"
  | _ => s2l "(" ++ join l ++ s2l ")"
  end.

(** record/__init__.py:103-119.  [parts]: the entries of [__dict__] with their text. *)
Definition record_repr (c : nat) (parts : list (str * res str)) : res str :=
  do vs <- mapm (fun n => match find_name n parts with
                          | Some r => do t <- r; Ok [n ++ s2l "=" ++ t]
                          | None => Ok []
                          end) (sort_names (map q_name (w_props W c)));
  Ok (cname c ++ s2l "(" ++ join (concat vs) ++ s2l ")").

(** coll.py:283-290, 415-421; the items are printed as those of a list or dict are *)
Definition coll_repr (c : nat) (parts : list (str * res str)) : res str :=
  do info <- record_repr c parts;
  match find_name (s2l "_values") parts with
  | None => Err AttrErr
  | Some r =>
      do items <- r;
      Ok (replace1 40 (s2l "(" ++ items ++ (if ends_empty info then [] else comma_sep)) info)
  end.

(** [PTuple] is a tuple here. *)
Fixpoint repr (v : pyv) : res str :=
  match v with
  | PNone => Ok (s2l "None")
  | PBool true => Ok (s2l "True")
  | PBool false => Ok (s2l "False")
  | PInt z => Ok (fmt_int z)
  | PNum n => Ok (num_text n)
  | PStr s => Ok (str_repr printable s)
  | PList l => do ts <- mapm repr l; Ok (s2l "[" ++ join ts ++ s2l "]")
  | PTuple l => do ts <- mapm repr l; Ok (tuple_text ts)
  | PDict l =>
      do ts <- mapm (fun kv => do t <- repr (snd kv);
                               Ok (str_repr printable (fst kv) ++ s2l ": " ++ t)) l;
      Ok (s2l "{" ++ join ts ++ s2l "}")
  | POpaque n => Ok (opaque_text n)
  | PObj c sl =>
      let parts := map (fun kv => (fst kv, repr (snd kv))) sl in
      match w_kind W c with
      | KRecord | KJson => record_repr c parts
      | KList | KDict => coll_repr c parts
      (* json.py:427-429 *)
      | KJsonList => do t <- coll_repr c parts; Ok (replace1 91 (s2l "values=[") t)
      (* json.py:499-501: [super(JsonRecordList, self)] of something that is none *)
      | KJsonDict => Err TypeErr
      end
  end.
End Repr.

(** ** Python expressions: the part without operators, attributes, subscripts and comprehensions *)
Inductive ast :=
| ANone | ABool (b : bool) | AInt (z : Z) | ANum (n : nat) | AStr (s : str)
| AList (l : list ast) | ATuple (l : list ast) | ADict (l : list (str * ast))
| ACall (f : str) (pos : list ast) (kw : list (str * ast)).

Section Parse.
Local Open Scope N_scope.
(** The value of a numeral that is not all digits. *)
Variable num_value : str -> option nat.

Definition is_dig (c : N) : bool := (48 <=? c) && (c <=? 57).
(** Identifiers: everything beyond ASCII counts as a letter. *)
Definition is_alpha (c : N) : bool :=
  ((97 <=? c) && (c <=? 122)) || ((65 <=? c) && (c <=? 90)) || (c =? 95) || (128 <=? c).
Definition is_alnum (c : N) : bool := is_alpha c || is_dig c.
(** Numerals: digits, point, exponent, signs. *)
Definition is_numch (c : N) : bool :=
  is_dig c || (c =? 45) || (c =? 43) || (c =? 46) || (c =? 101).

Fixpoint span (p : N -> bool) (s : str) : str * str :=
  match s with
  | c :: r => if p c then let (a, b) := span p r in (c :: a, b) else ([], s)
  | [] => ([], [])
  end.
Fixpoint skip (s : str) : str :=
  match s with
  | c :: r => if c =? 32 then skip r else s
  | [] => []
  end.

Definition numeral (t : str) : option ast :=
  let (neg, ds) := match t with c :: r => if c =? 45 then (true, r) else (false, t) | [] => (false, t) end in
  match ds with
  | [] => None
  | _ => if forallb is_dig ds
         then let n := Z.of_N (int_of (fun _ => None) ds 0) in Some (AInt (if neg then - n else n)%Z)
         else option_map ANum (num_value t)
  end.

Definition word (w : str) : option ast :=
  if str_eqb w (s2l "None") then Some ANone
  else if str_eqb w (s2l "True") then Some (ABool true)
  else if str_eqb w (s2l "False") then Some (ABool false)
  else None.

(** One expression; the rest of the text.  [items]: up to the closing bracket, and whether there is a
    comma; [pairs]: of a dict, with literal keys; [args]: positional, then keyword arguments. *)
Fixpoint expr (fuel : nat) (s : str) {struct fuel} : option (ast * str) :=
  match fuel with
  | O => None
  | S n =>
      match s with
      | [] => None
      | c :: r =>
          if c =? 91 then
            match items n 93 r with Some (l, _, r') => Some (AList l, r') | None => None end
          else if c =? 40 then
            match items n 41 r with
            | Some ([e], false, r') => Some (e, r')
            | Some (l, _, r') => Some (ATuple l, r')
            | None => None
            end
          else if c =? 123 then
            match pairs n r with Some (l, r') => Some (ADict l, r') | None => None end
          else if (c =? 39) || (c =? 34) then
            match read_lit (S (List.length r)) c r with Some (t, r') => Some (AStr t, r') | None => None end
          else if is_dig c || (c =? 45) then
            let (t, r') := span is_numch s in
            match numeral t with Some e => Some (e, r') | None => None end
          else if is_alpha c then
            let (w, r') := span is_alnum s in
            match r' with
            | d :: r'' =>
                if d =? 40 then
                  match args n r'' with
                  | Some (pos, kw, r3) => Some (ACall w pos kw, r3)
                  | None => None
                  end
                else match word w with Some e => Some (e, r') | None => None end
            | [] => match word w with Some e => Some (e, r') | None => None end
            end
          else None
      end
  end
with items (fuel : nat) (close : N) (s : str) {struct fuel} : option (list ast * bool * str) :=
  match fuel with
  | O => None
  | S n =>
      match skip s with
      | [] => None
      | c :: r =>
          if c =? close then Some ([], false, r)
          else match expr n (c :: r) with
               | None => None
               | Some (e, s1) =>
                   match skip s1 with
                   | [] => None
                   | c1 :: r1 =>
                       if c1 =? 44 then
                         match items n close r1 with
                         | Some (l, _, r2) => Some (e :: l, true, r2)
                         | None => None
                         end
                       else if c1 =? close then Some ([e], false, r1)
                       else None
                   end
               end
      end
  end
with pairs (fuel : nat) (s : str) {struct fuel} : option (list (str * ast) * str) :=
  match fuel with
  | O => None
  | S n =>
      match skip s with
      | [] => None
      | c :: r =>
          if c =? 125 then Some ([], r)
          else match expr n (c :: r) with
               | Some (AStr k, s1) =>
                   match skip s1 with
                   | d :: s2 =>
                       if d =? 58 then
                         match expr n (skip s2) with
                         | None => None
                         | Some (e, s3) =>
                             match skip s3 with
                             | [] => None
                             | c1 :: r1 =>
                                 if c1 =? 44 then
                                   match pairs n r1 with
                                   | Some (l, r2) => Some ((k, e) :: l, r2)
                                   | None => None
                                   end
                                 else if c1 =? 125 then Some ([(k, e)], r1)
                                 else None
                             end
                         end
                       else None
                   | [] => None
                   end
               | _ => None
               end
      end
  end
with args (fuel : nat) (s : str) {struct fuel} : option (list ast * list (str * ast) * str) :=
  match fuel with
  | O => None
  | S n =>
      match skip s with
      | [] => None
      | c :: r =>
          if c =? 41 then Some ([], [], r)
          else
            let (w, r') := span is_alnum (c :: r) in
            let key := match r' with
                       | d :: r'' => if (d =? 61) && is_alpha c then Some r'' else None
                       | [] => None
                       end in
            match expr n (match key with Some r'' => r'' | None => c :: r end) with
            | None => None
            | Some (e, s1) =>
                match (match skip s1 with
                       | c1 :: r1 => if c1 =? 44 then args n r1
                                     else if c1 =? 41 then Some ([], [], r1) else None
                       | [] => None
                       end) with
                | None => None
                | Some (pos, kw, r2) =>
                    match key, pos with
                    | Some _, [] => Some ([], (w, e) :: kw, r2)
                    | Some _, _ => None            (* positional argument follows keyword argument *)
                    | None, _ => Some (e :: pos, kw, r2)
                    end
                end
            end
      end
  end.

(** The whole text. *)
Definition parse_source (s : str) : option ast :=
  match expr (2 * List.length s + 2) s with Some (e, []) => Some e | _ => None end.
End Parse.

Section Eval.
Variable W : world.
Variable parse : str -> res pyv.
Variable by_key : list (str * pyv) -> list (str * pyv).
(** bound on nested constructor calls, as in [JsonModel.call] *)
Variable fuel : nat.
Notation call_fuel := (call W parse by_key fuel).

Definition remove_name {A} (n : str) (l : list (str * A)) : list (str * A) :=
  filter (fun kv => negb (str_eqb n (fst kv))) l.
Definition truthy (v : pyv) : bool :=
  match v with
  | PNone | PBool false | PStr [] | PList [] | PTuple [] | PDict [] => false
  | PInt z => negb (Z.eqb z 0)
  | _ => true
  end.

(** The parameter of the constructor that comes first: record/__init__.py:32, json.py:282, coll.py:86,
    json.py:363, 436. *)
Definition first_param (k : kind) : str :=
  match k with
  | KRecord => s2l "init_dict"
  | KJson | KJsonList | KJsonDict => s2l "json_data"
  | KList | KDict => s2l "values"
  end.

(** A class called with positional and keyword arguments; the constructors as in [JsonModel.call_class].
    OtherErr 73: init_dict passed on to Record.__init__ by another constructor is not modelled. *)
Definition call_py (c : nat) (pos : list pyv) (kw : list (str * pyv)) : out pyv :=
  let k := w_kind W c in
  if has_name (s2l "self") kw then Exc [] TypeErr
  else
    let* first :=
      match pos, find_name (first_param k) kw with
      | [], o => Val (match o with Some v => v | None => PNone end)
      | [v], None => Val v
      | _, _ => Exc [] TypeErr
      end in
    let rest := remove_name (first_param k) kw in
    match k with
    | KRecord =>
        if negb (truthy first) then record_init W call_fuel c [] rest
        else match rest with
             | [] => call_class W parse by_key call_fuel c first
             | _ => Exc [] AmbiguousCons
             end
    | _ =>
        if has_name (s2l "init_dict") rest then Exc [] (OtherErr 73)
        else match k with
             | KJson =>
                 let* j := decode parse first in
                 match j with
                 | PNone => record_init W call_fuel c [] rest
                 | _ => let* j' := decode parse j in
                        let* kw' := initkwargs W call_fuel c j' rest in
                        record_init W call_fuel c [] kw'
                 end
             | KList | KDict => coll_init W by_key call_fuel c first rest
             | _ =>
                 let* j := decode parse first in
                 let given := match find_name (s2l "values") rest with Some v => v | None => PNone end in
                 let rest' := remove_name (s2l "values") rest in
                 match j, given with
                 | PNone, _ => coll_init W by_key call_fuel c given rest'
                 | _, PNone =>
                     let* vs := (if is_list_kind k then list_values W parse by_key call_fuel c j
                                 else dict_values W parse by_key call_fuel c j) in
                     coll_init W by_key call_fuel c vs rest'
                 | _, _ => coll_init W by_key call_fuel c given rest'
                 end
             end
    end.

(** What names stand for; OtherErr 74: NameError, OtherErr 75: SyntaxError (keyword repeated). *)
Variable scope : str -> option nat.

Fixpoint eval (e : ast) : out pyv :=
  match e with
  | ANone => Val PNone
  | ABool b => Val (PBool b)
  | AInt z => Val (PInt z)
  | ANum n => Val (PNum n)
  | AStr s => Val (PStr s)
  | AList l => let* l' := omap eval l in Val (PList l')
  | ATuple l => let* l' := omap eval l in Val (PTuple l')
  | ADict l => let* l' := omap (fun kv => let* x := eval (snd kv) in Val (fst kv, x)) l in
               Val (PDict (dict_of_pairs l'))
  | ACall f pos kw =>
      match scope f with
      | None => Exc [] (OtherErr 74)
      | Some c =>
          let* ps := omap eval pos in
          let* ks := omap (fun kv => let* x := eval (snd kv) in Val (fst kv, x)) kw in
          if existsb (fun n => negb (Nat.eqb (List.length (filter (str_eqb n) (map fst kw))) 1)) (map fst kw)
          then Exc [] (OtherErr 75)
          else call_py c ps ks
      end
  end.
End Eval.

(** [eval(text)] *)
Definition eval_source W num_value parse by_key fuel scope (s : str) : out pyv :=
  match parse_source num_value s with
  | Some e => eval W parse by_key fuel scope e
  | None => Exc [] (OtherErr 75)
  end.
