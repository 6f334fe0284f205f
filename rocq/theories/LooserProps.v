(** C71: where stricter options find no difference, looser ones find none. *)
From Coq Require Import String List Arith NArith ZArith Bool Lia.
From Verif Require Import Prelude Regex SelPathModel FSModel PySeq MFSModel ValModel EqModel SeqDiffModel SeqDiffProofs FuzzyModel TextModel TextProps
  DiffModel DiffProofs DiffSwap DiffExample LooserSpec LooserProofs.
Import ListNotations.

Section Statement.
Context {A C : Type}.
Variable W : classes A C.
Variable ceqb : C -> C -> bool.
Variable veqb : val A C -> val A C -> bool.
Variable hashable : val A C -> bool.
Variable repr : val A C -> str.
Variable a_hash a_falsy : A -> bool.
Variable a_items : A -> res (list (elem * val A C)).
Variable strict loose : options.
Variable id1 id2 : rtype C -> option mfs -> val A C -> res (val A C).
Variable ord1 ord2 : list elem -> list elem -> dorders (A := A) (C := C).
Variable nice : val A C -> Prop.
Hypothesis ord1_ok : forall fa fb, orders_ok (ord1 fa fb).
Hypothesis ord2_ok : forall fa fb, orders_ok (ord2 fa fb).
Hypothesis veqb_ok : sane_eq veqb.
Hypothesis ceqb_ok : forall c d, ceqb c d = true -> c = d.
Hypothesis Looser : looser strict loose.
Hypothesis Nice : simple_objects W a_hash nice.
Notation diff_strict := (diff_iter W ceqb veqb hashable repr a_hash a_falsy a_items strict id1 ord1).
Notation diff_loose := (diff_iter W ceqb veqb hashable repr a_hash a_falsy a_items loose id2 ord2).

(** *** C71: two objects which are the same under the stricter options are the same under the looser ones *)
Theorem C71_silent n a b l l' : nice a -> nice b -> class_of a <> None ->
  diff_strict n a b = Ok l -> diff_loose n a b = Ok l' ->
  (forall t p q, In (t, p, q) l -> t = NoChange) -> forall t p q, In (t, p, q) l' -> t = NoChange.
Proof.
  intros Na Nb K H H' S. assert (G : changes l' = []).
  { eapply (diff_looser W ceqb veqb hashable repr a_hash a_falsy a_items strict loose id1 id2 ord1 ord2 ord1_ok ord2_ok veqb_ok Looser nice Nice ceqb_ok n a b [] [] l l');
      [right; exact Na|right; exact Nb| |exact H| |exact H'].
    - assert (R : forall v, record_iter W ceqb veqb strict v a b [] [] = Ok l \/
                  (exists x y, record_iter W ceqb veqb strict v a b [] [] = Ok x /\ y = Ok (l ++ x)) -> like ceqb a b).
      { intros v R. assert (R' : exists x, record_iter W ceqb veqb strict v a b [] [] = Ok x) by (destruct R as [R|(x & y & R & _)]; eauto).
        destruct R' as [x R']. unfold record_iter in R'. rewrite (proj1 (lo_duck _ _ Looser)) in R'. unfold like.
        destruct (types_match ceqb a b); [auto|]. destruct (is_nothing a) eqn:NA; [destruct a; try discriminate NA; auto|].
        destruct (is_nothing b) eqn:NB; [destruct b; try discriminate NB; auto|]. discriminate R'. }
      unfold diff_iter in H. destruct n as [|n]; [discriminate|]. cbn [diff] in H. unfold dispatch in H.
      destruct a as [| |s|x|t0 l0|l0|c sl|c sl l0|c sl l0]; try (exfalso; apply K; reflexivity); cbn [is_nothing] in H.
      + eapply R; left; exact H.
      + destruct (collection_iter _ _ _ _ _ _ _ _ _ _ _ _ _ _ _); cbn [bind] in H; [|discriminate].
        destruct (record_iter _ _ _ _ _ _ _ _ _) eqn:E; cbn [bind] in H; [|discriminate]. eapply R; right; eauto.
      + destruct (collection_iter _ _ _ _ _ _ _ _ _ _ _ _ _ _ _); cbn [bind] in H; [|discriminate].
        destruct (record_iter _ _ _ _ _ _ _ _ _) eqn:E; cbn [bind] in H; [|discriminate]. eapply R; right; eauto.
    - apply changes_nil. intros [[t p] q] I. exact (S t p q I). }
  rewrite changes_nil in G. intros t p q I. exact (G _ I).
Qed.

(** *** C71: the same of each attribute of two records, whatever is found in the others *)
Theorem C71_attribute n c sl sl' l l' m : nice (VRec c sl) -> nice (VRec c sl') ->
  diff_strict n (VRec c sl) (VRec c sl') = Ok l -> diff_loose n (VRec c sl) (VRec c sl') = Ok l' ->
  (forall t p q, In (t, EStr m :: p, q) l -> t = NoChange) -> forall t p q, In (t, EStr m :: p, q) l' -> t = NoChange.
Proof.
  intros Na Nb. unfold diff_iter.
  apply (attr_looser W ceqb veqb hashable repr a_hash a_falsy a_items strict loose id1 id2 ord1 ord2 ord1_ok ord2_ok veqb_ok Looser nice Nice ceqb_ok n c sl sl' l l' m Na Nb).
Qed.
End Statement.

(** ** Which text options are looser *)
Section Text.
Variable ws : char -> bool.
Variable upper nfc : str -> str.

(** every text option of the one is one of the other *)
Definition more_ignored (o o' : text_options) : Prop :=
  (ignore_ws o = true -> ignore_ws o' = true) /\ (ignore_case o = true -> ignore_case o' = true) /\
  (unicode_normal o = true -> unicode_normal o' = true).

(** Texts with one normal form still have one normal form once their blanks are squeezed or they are in upper case. *)
Record nfc_ok : Prop := {
  nfc_ws : forall s s', nfc s = nfc s' -> nfc (normalize_whitespace ws s) = nfc (normalize_whitespace ws s');
  nfc_up : forall s s', nfc s = nfc s' -> nfc (upper s) = nfc (upper s');
  nfc_nil : nfc [] = []
}.
Notation norm := (normalize_text ws upper nfc).

Lemma reads_upper s X : upper_ok ws upper -> reads ws s X -> reads ws (upper s) (map upper X).
Proof.
  intros U H. pose proof U as (U1 & U2 & U3). induction H as [|x s X Hx H IH|w s X Hw Fw Hs H IH]; cbn [map].
  - rewrite U1. constructor.
  - rewrite U1. cbn [flat_map]. rewrite <- U1, U2 by auto. now apply reads_blank.
  - assert (E : upper (w ++ s) = upper w ++ upper s) by (rewrite (U1 (w ++ s)), flat_map_app, <- !U1; reflexivity).
    rewrite E. destruct (upper_word ws upper w U Hw Fw) as [N F]. apply reads_word; auto.
    intros x u E'. destruct s as [|y s]; [rewrite U1 in E'; discriminate|].
    pose proof (Hs y s eq_refl) as Y. rewrite U1 in E'. cbn [flat_map] in E'. rewrite (U2 y Y) in E'. now injection E' as <- _.
Qed.
Lemma upper_squeezed s : ws 32%N = true -> upper_ok ws upper -> upper (normalize_whitespace ws s) = normalize_whitespace ws (upper s).
Proof.
  intros B U. destruct (reads_total ws s) as [X H].
  rewrite (C26_normal_form ws s X H), (C26_normal_form ws (upper s) (map upper X)) by (now apply reads_upper).
  now apply (upper_join ws upper).
Qed.

(** *** C71: ignoring blanks, case or Unicode normal forms as well is looser *)
Theorem C71_text o o' : ws 32%N = true -> upper_ok ws upper -> nfc_ok -> more_ignored o o' ->
  (forall s s', norm o s = norm o s' -> norm o' s = norm o' s') /\ (forall s, norm o s = [] -> norm o' s = []).
Proof.
  intros B U NF (M1 & M2 & M3).
  assert (G : forall s s', norm o s = norm o s' -> norm o' s = norm o' s').
  { intros s s' E. unfold normalize_text in *. pose proof (fun x => upper_squeezed x B U) as SQ.
    destruct o as [w c u], o' as [w' c' u']. cbn [ignore_ws ignore_case unicode_normal] in *.
    destruct w, c, u; try (rewrite (M1 eq_refl)); try (rewrite (M2 eq_refl)); try (rewrite (M3 eq_refl));
      clear M1 M2 M3; rewrite ?SQ in E; try destruct w'; try destruct c'; try destruct u'; rewrite ?SQ;
      first [congruence | rewrite <- ?SQ; congruence
            | solve [repeat first [exact E | apply (nfc_ws NF) | apply (nfc_up NF)]]
            | rewrite <- ?SQ; rewrite <- ?SQ in E; solve [repeat first [exact E | apply (nfc_ws NF) | apply (nfc_up NF)]]]. }
  assert (Z : forall o, norm o [] = []).
  { intros x. unfold normalize_text. assert (Q : normalize_whitespace ws [] = []) by reflexivity.
    assert (Q' : upper [] = []) by (rewrite (proj1 U); reflexivity).
    destruct (ignore_ws x), (ignore_case x), (unicode_normal x); rewrite ?Q, ?Q', ?(nfc_nil NF); reflexivity. }
  split; [exact G|]. intros s E. rewrite <- (Z o'). apply G. now rewrite E, Z.
Qed.
End Text.

(** ** Cases *)
Module Ex71.
Definition U (s : string) : str := s2l s.
(** the Angstrom sign has the letter as its normal form *)
Definition e_nfc (s : str) : str := flat_map (fun x => if N.eqb x 8491 then [197%N] else [x]) s.
Definition some_ws := {| ignore_ws := true; ignore_case := false; unicode_normal := false |}.
Definition all_of_it := {| ignore_ws := true; ignore_case := true; unicode_normal := true |}.
Definition as_text (o : text_options) : str -> str := normalize_text e_ws e_up e_nfc o.
Definition with_text (f : str -> str) : options := mkOptions f false false false false false false None true false.
(** blanks ignored; also case, normal forms, empty slots *)
Definition strict := with_text (as_text some_ws).
Definition loose := mkOptions (as_text all_of_it) true false true false false false None true false.

(** records of class 3 with text and with lists of text in their slots *)
Definition leaf (v : V) : bool := match v with VNothing | VNone | VText _ | VAtom _ => true | _ => false end.
Definition part (v : V) : bool := match v with VSeq _ l => forallb leaf l | _ => leaf v end.
Definition nice (v : V) : Prop :=
  match v with VRec c sl => c = 3 /\ forallb (fun kv : str * V => part (snd kv)) sl = true | _ => part v = true end.
Definition rec3 (x : string) (y : list string) : V := VRec 3 [(U "x", t x); (U "y", VSeq false (map t y))].
End Ex71.
Import Ex71.

Lemma e_up_ok : upper_ok e_ws e_up.
Proof. exact (proj1 C26_upper_case). Qed.
Lemma e_nfc_word : upper_ok e_ws e_nfc.
Proof.
  unfold e_nfc. split; [|split].
  - intros s. induction s as [|x s IH]; auto. cbn [flat_map]. rewrite app_nil_r. f_equal. exact IH.
  - intros x H. cbn [flat_map]. rewrite app_nil_r. destruct (N.eqb x 8491) eqn:E; auto. apply N.eqb_eq in E. subst x. discriminate H.
  - intros x H. cbn [flat_map]. rewrite app_nil_r. destruct (N.eqb x 8491) eqn:E; split; try discriminate; repeat constructor; auto.
Qed.
Lemma e_nfc_up s : e_nfc (e_up s) = e_up (e_nfc s).
Proof.
  unfold e_nfc, e_up. induction s as [|x s IH]; auto. cbn [flat_map]. rewrite !flat_map_app, IH. f_equal.
  destruct (N.eqb x 8491) eqn:E.
  - apply N.eqb_eq in E. subst x. reflexivity.
  - cbn [flat_map]. destruct ((97 <=? x)%N && (x <=? 122)%N) eqn:R; [|destruct (N.eqb x 223) eqn:S].
    + cbn [flat_map app]. apply andb_true_iff in R as [R1 R2]. apply N.leb_le in R1, R2.
      replace (N.eqb (x - 32) 8491) with false; auto. symmetry. apply N.eqb_neq. lia.
    + reflexivity.
    + cbn [flat_map app]. now rewrite E.
Qed.

Example C71_ex_text : nfc_ok e_ws e_up e_nfc /\ more_ignored some_ws all_of_it /\
  as_text some_ws (U " a  b") = as_text some_ws (U "a b ") /\ as_text some_ws (U "a b") <> as_text some_ws (U "A b") /\
  as_text all_of_it (U " a  b" ++ [8491%N]) = as_text all_of_it (U "A b" ++ [197%N]).
Proof.
  split; [|split; [repeat split; auto; discriminate|]].
  - split; auto; intros s s' E.
    + rewrite !(upper_squeezed e_ws e_nfc) by (auto using e_nfc_word). now rewrite E.
    + now rewrite !e_nfc_up, E.
  - split; [reflexivity|]. split; [discriminate|reflexivity].
Qed.

Lemma ex_looser : looser strict loose.
Proof.
  destruct C71_ex_text as (N & M & _).
  destruct (C71_text e_ws e_up e_nfc some_ws all_of_it eq_refl e_up_ok N M) as [T1 T2].
  split; cbn; auto; try discriminate.
Qed.
Lemma vb_sane : sane_eq vb.
Proof.
  split; intros; repeat match goal with H : vb _ _ = true |- _ => apply vb_eq in H end; subst; auto; apply vb_eq; auto.
Qed.
Lemma nice_simple : simple_objects W2 (fun _ : nat => true) nice.
Proof.
  assert (LP : forall u, leaf u = true -> has_hash (C := nat) (fun _ : nat => true) u = true) by (intros []; cbn; congruence).
  split.
  - intros v c p u N K Ip S. destruct v; cbn in K; try discriminate; cbn in N; try discriminate.
    destruct N as [-> N]. injection K as <-.
    assert (G : p_compare_as p = None) by (cbn in Ip; destruct Ip as [<-|[<-|[]]]; reflexivity).
    unfold attr_compared. rewrite G. cbn in S.
    assert (I : exists k, In (k, u) sl).
    { clear - S. revert S. generalize (p_name p). induction sl as [|[k w] sl IH]; cbn; [discriminate|]. intros n.
      destruct (str_eqb k n); [intros E; injection E as ->; eauto|]. intros E. destruct (IH n E) as [k' I]. eauto. }
    destruct I as [k I]. rewrite forallb_forall in N. specialize (N _ I). cbn in N.
    destruct u; cbn in *; auto; discriminate.
  - intros v u N I. unfold item_compared. destruct v; cbn in I; try contradiction; cbn in N; try discriminate.
    cbn [class_of]. apply LP. rewrite forallb_forall in N. auto.
  - intros v c d N K. destruct v; cbn in K; try discriminate; cbn in N; try discriminate. destruct N as [-> _]. injection K as <-. discriminate.
Qed.

(** Two records that differ in blanks only; two that differ in the case of one attribute too: ignoring case, nothing is
    left. *)
Example C71_ex_same : looser strict loose /\ sane_eq vb /\ simple_objects W2 (fun _ : nat => true) nice /\
  nice (rec3 " Big  dog" ["a b"; "c"]%string) /\ nice (rec3 "Big dog" [" a b"; "c "]%string) /\
  diff2 in_order strict (rec3 " Big  dog" ["a b"; "c"]%string) (rec3 "Big dog" [" a b"; "c "]%string) = Ok [] /\
  diff2 in_order loose (rec3 " Big  dog" ["a b"; "c"]%string) (rec3 "Big dog" [" a b"; "c "]%string)
  = Ok [(NoChange, [EStr (U "x")], [EStr (U "x")]);
        (NoChange, [EStr (U "y"); EInt 0], [EStr (U "y"); EInt 0]); (NoChange, [EStr (U "y"); EInt 1], [EStr (U "y"); EInt 1])].
Proof.
  split; [exact ex_looser|]. split; [exact vb_sane|]. split; [exact nice_simple|].
  split; [split; reflexivity|]. split; [split; reflexivity|]. split; vm_compute; reflexivity.
Qed.
Example C71_ex_attribute :
  diff2 in_order strict (rec3 "big dog" ["a"]%string) (rec3 "Big dog" [" a"]%string) = Ok [(Modified, [EStr (U "x")], [EStr (U "x")])] /\
  diff2 in_order loose (rec3 "big dog" ["a"]%string) (rec3 "Big dog" [" a"]%string)
  = Ok [(NoChange, [EStr (U "x")], [EStr (U "x")]); (NoChange, [EStr (U "y"); EInt 0], [EStr (U "y"); EInt 0])].
Proof. split; vm_compute; reflexivity. Qed.

(** ** Where it fails *)

(** Records in collections are matched by their keys: with case ignored, two keys become one, and the records that share
    it are matched in another way. *)
Theorem C71_collection_refuted : exists a b : V,
  diff2 in_order (with_text (fun s => s)) a b = Ok [] /\
  looser (with_text (fun s => s)) (with_text e_up) /\
  exists l, diff2 in_order (with_text e_up) a b = Ok l /\ exists p q, In (Modified, p, q) l.
Proof.
  exists (VLC 6 [] [kline "x" 1; kline "X" 2]), (VLC 6 [] [kline "X" 2; kline "x" 1]).
  split; [vm_compute; reflexivity|]. split; [split; cbn; auto; try discriminate; congruence|].
  eexists. split; [vm_compute; reflexivity|]. eexists. eexists. simpl. eauto.
Qed.

(** Where stricter options do find a difference, the looser ones may find more of them. *)
Theorem C71_count_refuted : exists (a b : V) l l',
  nice a /\ nice b /\ diff2 in_order (with_text (fun s => s)) a b = Ok l /\ diff2 in_order (with_text e_up) a b = Ok l' /\
  looser (with_text (fun s => s)) (with_text e_up) /\ length (changes l) < length (changes l').
Proof.
  exists (rec3 "" ["x"; "X"]%string), (rec3 "" ["z"; "X"]%string). eexists. eexists.
  split; [split; reflexivity|]. split; [split; reflexivity|].
  split; [vm_compute; reflexivity|]. split; [vm_compute; reflexivity|].
  split; [split; cbn; auto; try discriminate; congruence|]. cbn. lia.
Qed.

(** Items that have no hash are known by their repr(), which is not normalised as text is. *)
Theorem C71_repr_refuted : exists a b : V,
  let d o := diff_iter W2 Nat.eqb vb (fun _ => true) (fun _ => U "['b']") (fun _ => true) (Nat.eqb 0) (fun _ => Err TypeErr) o (id2 o) in_order 9 a b in
  d (with_text (fun s => s)) = Ok [] /\ exists l, d (with_text e_up) = Ok l /\ exists p q, In (Modified, p, q) l.
Proof.
  exists (VRec 3 [(U "y", VSeq false [VSeq false [t "b"]])]), (VRec 3 [(U "y", VSeq false [t "['b']"])]).
  cbv zeta. split; [vm_compute; reflexivity|]. eexists. split; [vm_compute; reflexivity|]. eexists. eexists. simpl. eauto.
Qed.

Print Assumptions C71_silent.
Print Assumptions C71_attribute.
Print Assumptions C71_text.
Print Assumptions C71_collection_refuted.
Print Assumptions C71_count_refuted.
Print Assumptions C71_repr_refuted.
