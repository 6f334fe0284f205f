(** C53: numeric and text property types. *)
From Coq Require Import String List NArith ZArith Arith Bool Lia.
From Coq Require Import SpecFloat.
From Verif Require Import Prelude SelPathModel PropModel NumModel NumSpec NumProofs NumFloat.
Import ListNotations.
Local Open Scope list_scope.
Local Open Scope Z_scope.

Section Props.
Variable O : Type.
Variable o_integral o_number : O -> bool.
Variable o_int : O -> res Z.
Variable o_float : O -> res spec_float.
Variable o_str : O -> res str.
Variable udec : N -> option N.
Variable uspace : N -> bool.
Variable lim : option N.
Variable ftext : str -> option spec_float.
Variable fstr : spec_float -> str.
Variable W : Type.
Notation V := (pval (num O)).
Notation typed := (typed O o_integral o_number o_int o_float o_str udec uspace lim ftext fstr).
Notation set := (type_safe_value (num O) W).
Notation checked := (run_check (num O) W).

(** [s] is an integer literal for [z], not longer than Python permits *)
Definition spelled (s : str) (z : Z) : Prop :=
  exists t n, Forall2 (ascii_of udec uspace) s t /\ writes t n z /\
    match lim with None => True | Some k => (N.of_nat n <= k)%N end.

Definition integer_type (t : ptype) : Prop := t = TInt \/ t = TLong \/ t = TInteger.

Lemma spelled_int s z : NumModel.int_text udec uspace lim s = Ok z <-> spelled s z.
Proof. apply int_text_spec. Qed.

(** Text given to an integer property is converted if and only if it is an integer literal, and
    then to that integer, whatever its size. *)
Theorem C53_integer_text t p s (w : W) ok : integer_type t ->
  (forall z, spelled s z -> set (typed t p) (PV (VStr s)) ok w = (checked p (PV (VInt z)), w)) /\
  ((forall z, ~ spelled s z) -> set (typed t p) (PV (VStr s)) ok w = (Err CoerceErr, w)).
Proof.
  intros T. split.
  - intros z Sp. apply spelled_int in Sp.
    destruct T as [->|[->| ->]]; unfold type_safe_value; cbn; rewrite Sp; reflexivity.
  - intros Nz. destruct (NumModel.int_text udec uspace lim s) as [z|e] eqn:E.
    { apply spelled_int in E. now apply Nz in E. }
    destruct T as [->|[->| ->]]; unfold type_safe_value; cbn; rewrite E; reflexivity.
Qed.

(** A number property reads text as an integer if it can, else as a float. *)
Theorem C53_number_text p s (w : W) ok :
  (forall z, spelled s z -> set (typed TNumber p) (PV (VStr s)) ok w = (checked p (PV (VInt z)), w)) /\
  ((forall z, ~ spelled s z) ->
     set (typed TNumber p) (PV (VStr s)) ok w =
     (match ftext s with Some f => checked p (PV (VFloat f)) | None => Err CoerceErr end, w)).
Proof.
  split.
  - intros z Sp. apply spelled_int in Sp. unfold type_safe_value; cbn. rewrite Sp. reflexivity.
  - intros Nz. destruct (NumModel.int_text udec uspace lim s) as [z|e] eqn:E.
    { apply spelled_int in E. now apply Nz in E. }
    pose proof (int_text_err _ _ _ _ _ E) as ->.
    unfold type_safe_value; cbn. rewrite E. cbn. destruct (ftext s); reflexivity.
Qed.

(** An integer put through a text property comes back, from every type of number that holds
    integers. *)
Theorem C53_text_round_trip t p q (z : Z) (w : W) ok x : t = TNumber \/ integer_type t ->
  p_check _ _ p = None ->
  set (typed TString p) (PV (VInt z)) ok w = (Ok x, w) ->
  set (typed t q) x ok w = (checked q (PV (VInt z)), w).
Proof.
  intros T C. unfold type_safe_value at 1. cbn.
  destruct (int_str lim z) as [s|e] eqn:E; cbn; [|intros H; discriminate].
  unfold run_check. cbn. rewrite C. intros H. injection H as <-.
  apply (int_str_back udec uspace lim) in E.
  destruct T as [->|[->|[->| ->]]]; unfold type_safe_value; cbn; rewrite E; reflexivity.
Qed.

(** What has the type already is stored as it is. *)
Theorem C53_kept t p v (w : W) ok :
  (match t, v with
   | (TInt | TLong | TInteger | TNumber), PV (VInt _ | VBool _) => True
   | (TFloat | TNumber), PV (VFloat _) => True
   | TInteger, PV (VObj o) => o_integral o = true
   | TNumber, PV (VObj o) => o_number o = true
   | (TString | TUnicode), PV (VStr _) => True
   | _, _ => False
   end) ->
  set (typed t p) v ok w = (checked p v, w).
Proof.
  unfold type_safe_value.
  destruct t, v as [| |[z|b|f|s|o]]; cbn; try tauto; try reflexivity; intros ->; reflexivity.
Qed.

(** An integer given to a float property becomes a float within a relative error of 2^-53,
    exactly the integer if and only if that has at most 53 significant bits; beyond the largest
    float it is refused. *)
Theorem C53_float_of_int p z (w : W) ok :
  (Z.abs z < 2 ^ 1024 - 2 ^ 970 ->
     exists f y, set (typed TFloat p) (PV (VInt z)) ok w = (checked p (PV (VFloat f)), w) /\
       denotes f y /\ 2 ^ 53 * Z.abs (y - z) <= Z.abs z /\ (y = z <-> fits53 z)) /\
  (2 ^ 1024 - 2 ^ 970 <= Z.abs z ->
     set (typed TFloat p) (PV (VInt z)) ok w = (Err CoerceErr, w)).
Proof.
  split; intros H.
  - destruct (float_int_ok z H) as (f & y & E & D & C & F & X).
    exists f, y. split; [|split; [auto|split; [auto|]]].
    + unfold type_safe_value; cbn [NumModel.typed p_isa p_required p_check isa no_isa is_none andb p_coerce coerce py_float].
      rewrite E. reflexivity.
    + split; [intros <-; auto|auto].
  - apply float_int_over in H.
    unfold type_safe_value; cbn [NumModel.typed p_isa p_required p_check isa no_isa is_none andb p_coerce coerce py_float].
    rewrite H. reflexivity.
Qed.

(** ... and back. *)
Theorem C53_float_round_trip t p q z (w : W) ok x : integer_type t -> fits53 z ->
  p_check _ _ p = None ->
  set (typed TFloat p) (PV (VInt z)) ok w = (Ok x, w) ->
  set (typed t q) x ok w = (checked q (PV (VInt z)), w).
Proof.
  intros T F C H.
  destruct (Z_lt_ge_dec (Z.abs z) (2 ^ 1024 - 2 ^ 970)) as [L|L].
  - destruct (proj1 (C53_float_of_int p z w ok) L) as (f & y & E & D & _ & X).
    rewrite E in H. unfold run_check in H. rewrite C in H. injection H as <-.
    apply X in F. subst y. apply denotes_whole, trunc_whole in D.
    destruct T as [->|[->| ->]]; unfold type_safe_value;
      cbn [NumModel.typed p_isa p_required p_check isa no_isa is_none andb p_coerce coerce py_int];
      rewrite D; reflexivity.
  - rewrite (proj2 (C53_float_of_int p z w ok)) in H by lia. discriminate.
Qed.

(** A float given to an integer property loses its fractional part; infinities and NaN are
    refused. *)
Theorem C53_int_of_float t p f (w : W) ok : integer_type t ->
  (forall z, whole_part f z ->
     set (typed t p) (PV (VFloat f)) ok w = (checked p (PV (VInt z)), w)) /\
  ((forall s m e, f <> S754_finite s m e) -> (forall s, f <> S754_zero s) ->
     set (typed t p) (PV (VFloat f)) ok w = (Err CoerceErr, w)).
Proof.
  intros T. split.
  - intros z Hz. apply trunc_whole in Hz.
    destruct T as [->|[->| ->]]; unfold type_safe_value;
      cbn [NumModel.typed p_isa p_required p_check isa no_isa is_none andb p_coerce coerce py_int];
      rewrite Hz; reflexivity.
  - intros A B. destruct f as [s|s| |s m e]; [now destruct (B s)| | |now destruct (A s m e)];
      destruct T as [->|[->| ->]]; reflexivity.
Qed.

(** Whatever is given, a property of a named type holds a value of that type; only an unset
    optional attribute may result instead, and only from None passed to the constructor of
    a record with a unicode property. *)
Theorem C53_typed t p v (w w' : W) ok x :
  set (typed t p) v ok w = (Ok x, w') ->
  isa O o_integral o_number t x = true \/
  (x = PUnset /\ t = TUnicode /\ v = PNone /\ ok = true /\ p_required _ _ p = false).
Proof.
  unfold type_safe_value. cbn [NumModel.typed p_isa p_required p_check no_isa p_coerce].
  rewrite andb_false_r.
  assert (RC : forall y, checked (typed t p) y = Ok x -> y = x).
  { intros y. unfold run_check. destruct (p_check _ _ _) as [c|]; [|congruence].
    destruct (c y) as [[]|]; congruence. }
  destruct (isa O o_integral o_number t v) eqn:I.
  - intros H. apply (f_equal fst) in H. cbn [fst] in H. apply RC in H. subst x. auto.
  - destruct (coerce _ _ _ _ _ _ _ _ _ t v) as [nv|e] eqn:Cv; [|intros H; discriminate].
    destruct (isa O o_integral o_number t nv) eqn:Inv; cbn [negb].
    + intros H. apply (f_equal fst) in H. cbn [fst] in H. apply RC in H. subst x. auto.
    + destruct (ok && is_none (num O) nv && negb (p_required _ _ p)) eqn:G; [|intros H; discriminate].
      intros H. injection H as <- _. apply andb_true_iff in G as [G G3].
      apply andb_true_iff in G as [G1 G2]. right.
      destruct nv; cbn [is_none] in G2; try discriminate.
      destruct (p_required _ _ p); [discriminate|].
      destruct t; cbn [coerce] in Cv; unfold bind in Cv;
        try (match type of Cv with match ?m with _ => _ end = _ => destruct m; discriminate end).
      injection Cv as ->. auto.
Qed.

(** A unicode property refuses everything but text (None at construction leaves it unset). *)
Theorem C53_unicode p v (w : W) : (forall s, v <> PV (VStr s)) ->
  set (typed TUnicode p) v false w = (Err ValueCoercionErr, w).
Proof.
  intros H. unfold type_safe_value. cbn [NumModel.typed p_isa no_isa]. rewrite andb_false_r.
  destruct v as [| |[z|b|f|s|o]]; try reflexivity. now destruct (H s).
Qed.

(** It is not true that a text property ("must be a basestring or unicode, and if not, throws a
    coerce error") refuses what is no text: it takes nearly everything, None as the text "None". *)
Theorem C53_string_refuted (p : prop (num O) W) (w : W) : p_check _ _ p = None ->
  set (typed TString p) PNone false w = (Ok (PV (VStr (s2l "None"))), w) /\
  set (typed TString p) (PV (VBool true)) false w = (Ok (PV (VStr (s2l "True"))), w) /\
  (forall f, set (typed TString p) (PV (VFloat f)) false w = (Ok (PV (VStr (fstr f))), w)).
Proof.
  intros C. unfold type_safe_value, run_check. cbn [NumModel.typed p_isa no_isa]. rewrite !andb_false_r. cbn. rewrite C. auto.
Qed.

(** It is not true that "must be an int" is insisted on: 3.75 is stored as 3. *)
Theorem C53_truncates_refuted (p : prop (num O) W) (w : W) : p_check _ _ p = None ->
  set (typed TInt p) (PV (VFloat (S754_finite false 15 (-2)))) false w = (Ok (PV (VInt 3)), w).
Proof. intros C. unfold type_safe_value, run_check. cbn. rewrite C. auto. Qed.

(** It is not true that different integers stay different in a float property. *)
Theorem C53_float_refuted (p : prop (num O) W) (w : W) : p_check _ _ p = None ->
  set (typed TFloat p) (PV (VInt (2 ^ 53))) false w
  = set (typed TFloat p) (PV (VInt (2 ^ 53 + 1))) false w /\
  exists x, set (typed TFloat p) (PV (VInt (2 ^ 53))) false w = (Ok x, w).
Proof.
  intros C. unfold type_safe_value, run_check. cbn. rewrite C. eauto.
Qed.

End Props.

(** ** Examples *)
Definition plain_prop : prop (num unit) unit :=
  mkProp _ _ false Safe false None (fun v w => (CRet v, w)) None (DNone _ _) PNone (fun _ => false).
Definition ex (t : ptype) : prop (num unit) unit :=
  typed unit (fun _ => false) (fun _ => false) (fun _ => Err TypeErr) (fun _ => Err TypeErr)
    (fun _ => Ok (s2l "<object>")) (fun c => if N.eqb c 1633 then Some 1%N else None) (N.eqb 160)
    (Some 4300%N) (fun s => if str_eqb s (s2l "1.5") then Some (S754_finite false 3 (-1)) else None)
    (fun _ => s2l "?") t plain_prop.
Definition given (t : ptype) (v : pval (num unit)) : res (pval (num unit)) :=
  fst (type_safe_value _ _ (ex t) v false tt).

(** " -1_000\n", an Arabic digit, rejected forms *)
Example C53_ex_text :
  given TInt (PV (VStr ([32; 45; 49; 95; 48; 48; 48; 10]%N))) = Ok (PV (VInt (-1000))) /\
  given TInt (PV (VStr ([160; 49; 1633]%N))) = Ok (PV (VInt 11)) /\
  given TInt (PV (VStr (s2l "1__0"))) = Err CoerceErr /\
  given TInt (PV (VStr (s2l "_1"))) = Err CoerceErr /\
  given TInt (PV (VStr (s2l "- 1"))) = Err CoerceErr /\
  given TInt (PV (VStr (s2l ""))) = Err CoerceErr /\
  given TInt (PV (VStr (s2l "1.5"))) = Err CoerceErr /\
  given TNumber (PV (VStr (s2l "1.5"))) = Ok (PV (VFloat (S754_finite false 3 (-1)))) /\
  given TNumber (PV (VStr (s2l "0015"))) = Ok (PV (VInt 15)) /\
  given TNumber (PV (VStr (s2l "one"))) = Err CoerceErr.
Proof. vm_compute. repeat split. Qed.

(** the literal of [C53_integer_text] *)
Example C53_ex_spelled : spelled (fun _ => None) (fun _ => false) None (s2l " -1_000 ") (-1000).
Proof.
  exists (s2l " -1_000 "), 4%nat. split; [|split; [|exact I]].
  - cbn. repeat (constructor; [constructor; reflexivity|]). constructor.
  - exists [32%N], [45%N], (-1), [[1%N]; [0%N; 0%N; 0%N]], [32%N].
    assert (W : Forall white [32%N]) by (constructor; [unfold white; cbn [In]; auto 10|constructor]).
    split; [reflexivity|]. split; [exact W|]. split; [exact W|].
    split; [constructor|]. split; [discriminate|].
    split; [|split; reflexivity].
    repeat constructor; try discriminate.
Qed.

Example C53_ex_values :
  given TInt (PV (VBool true)) = Ok (PV (VBool true)) /\
  given TInt PNone = Err CoerceErr /\
  given TFloat (PV (VInt 3)) = Ok (PV (VFloat (S754_finite false (3 * 2 ^ 51) (-51)))) /\
  given TFloat (PV (VInt (2 ^ 1024))) = Err CoerceErr /\
  given TInt (PV (VFloat (S754_finite true 7 (-1)))) = Ok (PV (VInt (-3))) /\
  given TInt (PV (VFloat S754_nan)) = Err CoerceErr /\
  given TString (PV (VInt (-12))) = Ok (PV (VStr (s2l "-12"))) /\
  given TUnicode (PV (VInt 12)) = Err ValueCoercionErr /\
  fst (type_safe_value _ _ (ex TUnicode) PNone true tt) = Ok PUnset.
Proof. vm_compute. repeat split. Qed.

Example C53_ex_fits : fits53 (3 * 2 ^ 900) /\ ~ fits53 (2 ^ 53 + 1).
Proof.
  split.
  - exists 3, 900. split; [lia|]. split; [reflexivity|]. vm_compute. discriminate.
  - intros (a & j & Hj & E & A). destruct (Z.eq_dec j 0) as [->|N0].
    + change (2 ^ 0) with 1 in E. lia.
    + assert (Ej : 2 ^ j = 2 * 2 ^ (j - 1)) by (rewrite <- Z.pow_succ_r by lia; f_equal; lia).
      rewrite Ej in E. apply (f_equal Z.odd) in E.
      replace (a * (2 * 2 ^ (j - 1))) with (2 * (a * 2 ^ (j - 1))) in E by lia.
      rewrite Z.odd_mul in E. discriminate E.
Qed.

(** in a record: a failed assignment changes nothing, a good one stores the number *)
Example C53_ex_record :
  let C := [(s2l "n", ex TInteger)] in
  let st := mkState _ _ (fun _ => None) tt [] in
  let r1 := setattr _ _ C (s2l "n") (PV (VStr (s2l "42"))) st in
  fst r1 = Ok tt /\ slots _ _ (snd r1) (s2l "n") = Some (PV (VInt 42)) /\
  let r2 := setattr _ _ C (s2l "n") (PV (VStr (s2l "4x"))) (snd r1) in
  fst r2 = Err CoerceErr /\ slots _ _ (snd r2) (s2l "n") = Some (PV (VInt 42)).
Proof. vm_compute. repeat split. Qed.

Print Assumptions C53_integer_text.
Print Assumptions C53_number_text.
Print Assumptions C53_text_round_trip.
Print Assumptions C53_kept.
Print Assumptions C53_float_of_int.
Print Assumptions C53_float_round_trip.
Print Assumptions C53_int_of_float.
Print Assumptions C53_typed.
Print Assumptions C53_unicode.
Print Assumptions C53_string_refuted.
Print Assumptions C53_truncates_refuted.
Print Assumptions C53_float_refuted.
