(** Theorems about field selectors: C01, C02, C03, C45, C46. *)
From Coq Require Import String List Arith NArith ZArith Bool Lia Sorting.
From Verif Require Import Prelude Regex RegexCost SelPathModel SelPathProofs SelPathCost FSModel FSProofs.
Import ListNotations.

(** ASCII-only Unicode tables, for the examples. *)
Definition no_uword : char -> bool := fun _ => false.
Definition no_udigit : char -> option N := fun _ => None.
Notation S_ x := (EStr (s2l x)).

(** ** C01 *)

(** A plain identifier: an ASCII letter or underscore, then word characters. *)
Definition identifier (uword : char -> bool) (i : str) : Prop :=
  exists x t, i = x :: t /\ is_ident_start x = true /\
    forall y, In y t -> is_word uword y = true.

(** The elements whose text form is claimed to be faithful. *)
Definition faithful (uword : char -> bool) (e : elem) : Prop :=
  match e with
  | EInt z => (0 <= z)%Z
  | ENone => True
  | EStr s =>
      s <> [] /\
      (~ exists u v, s = u ++ s2l "']" ++ v) /\
      (~ exists i, identifier uword i /\ s = i ++ [10%N])
  end.

Lemma faithful_ok uword e : faithful uword e -> ok_elem uword e.
Proof.
  destruct e; cbn; auto. intros [H1 [H2 H3]]. split; [auto|]. split.
  - intros u v ->. apply H2. exists u, v. reflexivity.
  - intros i ->. destruct (identb uword i) eqn:E; auto. exfalso. apply H3. exists i. split; auto.
    destruct i as [|x t]; [discriminate|]. cbn in E. apply andb_true_iff in E as [E1 E2].
    exists x, t. repeat split; auto. rewrite forallb_forall in E2. exact E2.
Qed.

(** [FieldSelector.from_path(fs.path) == fs] *)
Theorem C01_fs_path_round_trip :
  forall (uword : char -> bool) (udigit : char -> option N) (fs : list elem),
    (forall e, In e fs -> faithful uword e) ->
    scan_path uword udigit (fs_path uword fs) = fs.
Proof.
  intros uword udigit fs H. apply scan_path_fmt. apply Forall_forall.
  intros e He. now apply faithful_ok, H.
Qed.

Example C01_example :
  let fs := [S_ "foo"; EInt 10; S_ "b'a\r"; ENone; S_ "x]y"] in
  (forall e, In e fs -> faithful no_uword e) /\
  fs_path no_uword fs = s2l ".foo[10]['b\'a\\r'][*]['x]y']" /\
  scan_path no_uword no_udigit (s2l ".foo[10]['b\'a\\r'][*]['x]y']") = fs.
Proof.
  split; [|split; vm_compute; reflexivity].
  intros e He. cbn in He.
  repeat destruct He as [<-|He]; try (cbn; lia); try exact I; try contradiction;
    cbn; (split; [discriminate|]); split.
  all: try (intros [u [v H]]; repeat (destruct u as [|? u]; cbn in H; inversion H; subst); fail).
  all: intros [i [[x [t [-> _]]] H]]; repeat (destruct t as [|? t]; cbn in H; inversion H; subst).
Qed.

(** Outside that domain the round trip fails. *)
Theorem C01_negative_index_refuted : exists fs,
  scan_path no_uword no_udigit (fs_path no_uword fs) <> fs /\ fs = [S_ "a"; EInt (-1); S_ "b"].
Proof. eexists. split; [|reflexivity]. vm_compute. discriminate. Qed.
Theorem C01_empty_key_refuted : exists fs,
  scan_path no_uword no_udigit (fs_path no_uword fs) <> fs /\ fs = [S_ "a"; EStr []; S_ "b"].
Proof. eexists. split; [|reflexivity]. vm_compute. discriminate. Qed.
Theorem C01_quote_bracket_refuted : exists fs,
  scan_path no_uword no_udigit (fs_path no_uword fs) <> fs /\ fs = [S_ "a']b"].
Proof. eexists. split; [|reflexivity]. vm_compute. discriminate. Qed.
Theorem C01_trailing_newline_refuted : exists fs,
  scan_path no_uword no_udigit (fs_path no_uword fs) <> fs /\ fs = [EStr (s2l "foo" ++ [10%N])].
Proof. eexists. split; [|reflexivity]. vm_compute. discriminate. Qed.

(** ** C02 *)

(** '<' is exactly the lexicographic order, with [TypeError] exactly when the first
    difference is between kinds. *)
Theorem C02_lt_is_lexicographic : forall a b,
  (fs_lt a b = Ok true <-> fs_less a b) /\
  (fs_lt a b = Ok false <-> ~ kinds_clash a b /\ ~ fs_less a b) /\
  (forall e, fs_lt a b = Err e <-> e = TypeErr /\ kinds_clash a b).
Proof. intros. split; [apply fs_lt_true|]. split; [apply fs_lt_ok_false | apply fs_lt_err]. Qed.

Theorem C02_strict_order : forall a b c,
  fs_lt a a = Ok false /\
  (fs_lt a b = Ok true -> fs_lt b c = Ok true -> fs_lt a c = Ok true) /\
  (~ kinds_clash a b -> a = b \/ fs_lt a b = Ok true \/ fs_lt b a = Ok true) /\
  ~ (fs_lt a b = Ok true /\ fs_lt b a = Ok true) /\
  (kinds_clash a b -> fs_lt a b = Err TypeErr /\ fs_lt b a = Err TypeErr).
Proof.
  intros a b c. repeat split.
  - apply fs_lt_ok_false. split; [|apply fs_less_irrefl].
    intros [p [x [y [u [v [H1 [H2 [H3 _]]]]]]]]. rewrite H1 in H2. apply app_inv_head in H2. congruence.
  - apply fs_lt_trans.
  - apply fs_lt_total.
  - intros [H1 H2]. pose proof (fs_lt_trans _ _ _ H1 H2) as H. apply fs_lt_true in H.
    now apply fs_less_irrefl in H.
  - apply fs_lt_err. auto.
  - apply fs_lt_err. split; auto. now apply kinds_clash_sym.
Qed.

(** the derived comparisons agree with '<' and '==' *)
Theorem C02_derived : forall a b, ~ kinds_clash a b ->
  (fs_eqb a b = true <-> a = b) /\
  (fs_gt a b = Ok true <-> fs_less b a) /\
  (fs_le a b = Ok true <-> fs_less a b \/ a = b) /\
  (fs_ge a b = Ok true <-> fs_less b a \/ a = b).
Proof.
  intros a b Hk. split; [apply fs_eqb_eq|].
  assert (Hk' : ~ kinds_clash b a) by (intros K; apply Hk; now apply kinds_clash_sym).
  assert (Hanti : fs_less a b -> fs_less b a -> False).
  { intros H1 H2. apply fs_lt_true in H1, H2. pose proof (fs_lt_trans _ _ _ H1 H2) as H.
    apply fs_lt_true in H. now apply fs_less_irrefl in H. }
  assert (Htot : a = b \/ fs_less a b \/ fs_less b a).
  { destruct (fs_lt_total a b Hk) as [H|[H|H]]; auto; apply fs_lt_true in H; auto. }
  assert (Hirr : a = b -> ~ fs_less a b /\ ~ fs_less b a) by (intros ->; split; apply fs_less_irrefl).
  assert (Heq : fs_eqb a b = true <-> a = b) by apply fs_eqb_eq.
  unfold fs_gt, fs_le, fs_ge.
  destruct (fs_lt a b) as [[]|e] eqn:E; cbn [bind negb andb orb].
  - apply fs_lt_true in E. intuition (try discriminate).
  - apply fs_lt_ok_false in E as [_ E]. destruct (fs_eqb a b); cbn [negb];
      intuition (try discriminate).
  - apply fs_lt_err in E. tauto.
Qed.

(** a sorted list visits the indices of each collection in increasing order *)
Theorem C02_sorted_indices_increase : forall l,
  StronglySorted (fun a b => fs_lt b a = Ok false) l ->
  forall p, StronglySorted Z.le (indices_below p l).
Proof. exact sorted_indices. Qed.

Example C02_example :
  fs_lt [S_ "a"; EInt 2] [S_ "a"; EInt 10] = Ok true /\
  fs_lt [S_ "a"] [S_ "a"; EInt 0] = Ok true /\
  fs_lt [S_ "a"; EInt 0] [S_ "a"; ENone] = Err TypeErr /\
  StronglySorted (fun a b => fs_lt b a = Ok false)
    [[S_ "a"]; [S_ "a"; EInt 2; S_ "z"]; [S_ "a"; EInt 10]] /\
  indices_below [S_ "a"] [[S_ "a"]; [S_ "a"; EInt 2; S_ "z"]; [S_ "a"; EInt 10]] = [2; 10]%Z.
Proof. repeat split; try (vm_compute; reflexivity). repeat constructor. Qed.

(** ** C03 *)

Theorem C03_add_is_fresh_concatenation : forall h a b,
  a < length h -> b < length h ->
  exists h' r, fs_add h a (AddFS b) = Ok (h', r) /\
    length h <= r /\
    contents h' r = contents h a ++ contents h b /\
    (forall x, x < length h -> contents h' x = contents h x).
Proof. exact fs_add_fs. Qed.

(** associativity, as a program: s = a + b; t = s + c versus u = b + c; v = a + u *)
Theorem C03_add_assoc : forall h a b c,
  a < length h -> b < length h -> c < length h ->
  exists h1 s h2 t h3 u h4 v,
    fs_add h a (AddFS b) = Ok (h1, s) /\ fs_add h1 s (AddFS c) = Ok (h2, t) /\
    fs_add h2 b (AddFS c) = Ok (h3, u) /\ fs_add h3 a (AddFS u) = Ok (h4, v) /\
    contents h4 t = contents h4 v /\
    length (contents h4 t) = length (contents h4 a) + length (contents h4 b) + length (contents h4 c) /\
    (forall x, x < length h -> contents h4 x = contents h x).
Proof.
  assert (Hgrow : forall h a b h' r, fs_add h a (AddFS b) = Ok (h', r) -> length h' = S (length h) /\ r = length h).
  { intros h a b h' r H. cbn in H. unfold fs_copy, alloc, fs_extend in H. inversion H.
    split; auto. unfold write. rewrite app_length. cbn [List.length].
    rewrite firstn_length, skipn_length, app_length. cbn [List.length]. lia. }
  intros h a b c Ha Hb Hc.
  destruct (fs_add_fs h a b Ha Hb) as [h1 [s [E1 [_ [C1 F1]]]]].
  destruct (Hgrow _ _ _ _ _ E1) as [L1 S1].
  destruct (fs_add_fs h1 s c) as [h2 [t [E2 [_ [C2 F2]]]]]; try lia.
  destruct (Hgrow _ _ _ _ _ E2) as [L2 S2].
  destruct (fs_add_fs h2 b c) as [h3 [u [E3 [_ [C3 F3]]]]]; try lia.
  destruct (Hgrow _ _ _ _ _ E3) as [L3 S3].
  destruct (fs_add_fs h3 a u) as [h4 [v [E4 [_ [C4 F4]]]]]; try lia.
  destruct (Hgrow _ _ _ _ _ E4) as [L4 S4].
  assert (F : forall x, x < length h -> contents h4 x = contents h x).
  { intros x Hx. rewrite F4, F3, F2, F1 by lia. reflexivity. }
  assert (Ct : contents h4 t = contents h a ++ contents h b ++ contents h c).
  { rewrite F4, F3 by lia. rewrite C2, C1, F1 by lia. now rewrite app_assoc. }
  exists h1, s, h2, t, h3, u, h4, v. repeat split; auto.
  - rewrite Ct, C4, C3. rewrite F3, F2, F1 by lia. rewrite (F2 b), (F1 b), (F2 c), (F1 c) by lia. reflexivity.
  - rewrite Ct, !F by lia. rewrite !app_length. lia.
Qed.

(** s = a + b; then len(s), s[:len(a)], s[len(a):], and the empty selector is neutral *)
Theorem C03_neutral_len_slices : forall h a b h' s,
  a < length h -> b < length h -> fs_add h a (AddFS b) = Ok (h', s) ->
  length (contents h' s) = length (contents h a) + length (contents h b) /\
  (let (h1, p) := fs_slice h' s None (Some (Z.of_nat (length (contents h a)))) in
   contents h1 p = contents h a /\ contents h1 s = contents h' s) /\
  (let (h1, q) := fs_slice h' s (Some (Z.of_nat (length (contents h a)))) None in
   contents h1 q = contents h b /\ contents h1 s = contents h' s) /\
  (contents h b = [] -> contents h' s = contents h a) /\
  (contents h a = [] -> contents h' s = contents h b).
Proof.
  intros h a b h' s Ha Hb E. destruct (fs_add_fs h a b Ha Hb) as [h2 [s2 [E2 [Hl [C F]]]]].
  rewrite E in E2. inversion E2; subst h2 s2.
  assert (Hs : s < length h').
  { cbn in E. unfold fs_copy, alloc, fs_extend, write in E. inversion E. subst s.
    rewrite app_length, firstn_length, app_length. cbn [length]. lia. }
  unfold fs_slice. rewrite C. repeat split.
  - apply app_length.
  - etransitivity; [apply (contents_alloc_new h')|]. apply slice_prefix.
  - etransitivity; [apply (contents_alloc_old h'); exact Hs|]. exact C.
  - etransitivity; [apply (contents_alloc_new h')|]. apply slice_suffix.
  - etransitivity; [apply (contents_alloc_old h'); exact Hs|]. exact C.
  - intros ->. apply app_nil_r.
  - intros ->. reflexivity.
Qed.

Theorem C03_startswith : forall a b,
  fs_startswith a (a ++ b) = Ok true /\
  (fs_startswith b a = Ok true -> a = b ++ py_slice a (Some (Z.of_nat (length b))) None) /\
  (fs_startswith b a = Err IndexErr <-> exists x u, b = a ++ x :: u) /\
  (forall e, fs_startswith b a = Err e -> e = IndexErr).
Proof.
  intros a b. split.
  - apply startswith_spec. exists b. reflexivity.
  - split.
    + intros H. apply startswith_spec in H as [u ->]. now rewrite slice_suffix.
    + split; apply startswith_spec.
Qed.

Example C03_example :
  let h := [[S_ "a"]; [EInt 0; S_ "b"]] in
  (exists h' r, fs_add h 0 (AddFS 1) = Ok (h', r) /\ contents h' r = [S_ "a"; EInt 0; S_ "b"] /\
                contents h' 0 = [S_ "a"]) /\
  fs_startswith [S_ "a"; EInt 0] [S_ "a"] = Err IndexErr /\
  fs_startswith [S_ "b"; EInt 0] [S_ "a"] = Ok false.
Proof. split; [eexists _, _; repeat split; vm_compute; reflexivity | split; reflexivity]. Qed.

(** ** C45 *)

(** The cost of matching one token at [[' x x ... x] (no closing quote) is exponential,
    although the parse result is "no token". *)
Theorem C45_key_parsing_exponential :
  forall uword udigit x n, x <> 39%N ->
    let text := (91 :: 39 :: repeat x n)%N in
    re_match (path_tok uword udigit) text = None /\
    2 ^ n <= snd (match_cost (path_tok uword udigit) text).
Proof. intros. now apply path_cost. Qed.

(** the cost counter is attached to an engine which finds the same match *)
Theorem C45_cost_model_adequate : forall r s, fst (match_cost r s) = re_match r s.
Proof. exact match_cost_fst. Qed.

Example C45_example :
  snd (match_cost (path_tok no_uword no_udigit) (s2l "['aaaaaaaaaa")) > 1024.
Proof. vm_compute. lia. Qed.

(** ** C46 *)

(** The constructor rejects exactly the *truthy* invalid elements ... *)
Theorem C46_fs_constructor : forall l,
  (fs_init l = Err ValueErr <-> In (Bad true) l) /\
  (~ In (Bad true) l -> fs_init l = Ok l).
Proof.
  intros l. unfold fs_init. destruct (existsb raw_bad_true l) eqn:E.
  - apply existsb_exists in E as [[e|b] [H1 H2]]; cbn in H2; [discriminate|subst]. split; [tauto|contradiction].
  - split; auto. split; [discriminate|]. intros H.
    assert (existsb raw_bad_true l = true) by (apply existsb_exists; eexists; split; [exact H|reflexivity]).
    congruence.
Qed.

(** ... so an invalid but falsy element (e.g. [0.0] or [()]) is accepted. *)
Theorem C46_rejects_every_invalid_element_refuted :
  exists l, In (Bad false) l /\ fs_init l = Ok l.
Proof. exists [Good (S_ "a"); Bad false]. split; [right; left; reflexivity | reflexivity]. Qed.

Print Assumptions C01_fs_path_round_trip.
Print Assumptions C01_negative_index_refuted.
Print Assumptions C01_empty_key_refuted.
Print Assumptions C01_quote_bracket_refuted.
Print Assumptions C01_trailing_newline_refuted.
Print Assumptions C02_lt_is_lexicographic.
Print Assumptions C02_strict_order.
Print Assumptions C02_derived.
Print Assumptions C02_sorted_indices_increase.
Print Assumptions C03_add_is_fresh_concatenation.
Print Assumptions C03_add_assoc.
Print Assumptions C03_neutral_len_slices.
Print Assumptions C03_startswith.
Print Assumptions C45_key_parsing_exponential.
Print Assumptions C45_cost_model_adequate.
Print Assumptions C46_fs_constructor.
Print Assumptions C46_rejects_every_invalid_element_refuted.
