(** Proofs for C71. *)
From Coq Require Import List Arith NArith ZArith Bool Lia Permutation.
From Verif Require Import Prelude SelPathModel FSModel PySeq MFSModel MFSProofs ValModel EqModel EqProofs SeqDiffModel SeqDiffProofs SeqDiffProps
  FuzzyModel DiffModel DiffProofs DiffSwap DiffExact LooserSpec.
Import ListNotations.

Lemma changes_nil (l : list dentry) : changes l = [] <-> forall e, In e l -> dt_of e = NoChange.
Proof.
  unfold changes. induction l as [|e t IH]; cbn [map filter]; [split; auto; intros _ e []|].
  destruct (dt_of e) eqn:E; cbn [dt_eqb negb].
  2-5: split; [discriminate|intros H; specialize (H e (or_introl eq_refl)); congruence].
  rewrite IH. split; [intros H e' [<-|I]; auto|intros H e' I; apply H; simpl; auto].
Qed.

Section Looser.
Context {A C : Type}.
Variable W : classes A C.
Variable ceqb : C -> C -> bool.
Notation val := (val A C).
Variable veqb : val -> val -> bool.
Variable hashable : val -> bool.
Variable repr : val -> str.
Variable a_hash a_falsy : A -> bool.
Variable a_items : A -> res (list (elem * val)).
Variable o1 o2 : options.
Variable id1 id2 : rtype C -> option mfs -> val -> res val.
Variable ord1 ord2 : list elem -> list elem -> dorders (A := A) (C := C).
Hypothesis OK1 : forall fa fb, orders_ok (ord1 fa fb).
Hypothesis OK2 : forall fa fb, orders_ok (ord2 fa fb).
Hypothesis EQ : sane_eq veqb.
Hypothesis LO : looser o1 o2.
Variable nice : val -> Prop.
Hypothesis NI : simple_objects W a_hash nice.

Notation diff1 := (diff W ceqb veqb hashable repr a_hash a_falsy a_items o1 id1 ord1).
Notation diff2 := (diff W ceqb veqb hashable repr a_hash a_falsy a_items o2 id2 ord2).

(** ** Normalised values *)
Lemma norm_eq (x y : val) : veqb (normalize_val o1 x) (normalize_val o1 y) = true ->
  veqb (normalize_val o2 x) (normalize_val o2 y) = true.
Proof.
  destruct LO as [T E _ _ _ _]. destruct EQ as [R S TR ET EN EO].
  assert (EO' : forall v, veqb v VNothing = true -> v = VNothing) by (intros; apply EO; auto).
  assert (EN' : forall v, veqb v VNone = true -> v = VNone) by (intros; apply EN; auto).
  assert (ET' : forall s v, veqb v (VText s) = true -> v = VText s) by (intros; apply ET; auto).
  unfold normalize_val.
  destruct (o_empty_slots o1) eqn:E1; cbn [andb].
  - destruct (E eq_refl) as [E2 Z]. rewrite E2. cbn [andb].
    assert (TX : forall s, (o_text o1 s = [] /\ o_text o2 s = []) \/ o_text o1 s <> []).
    { intros s. destruct (o_text o1 s) eqn:Q; [left; auto|right; discriminate]. }
    assert (NT : forall s, o_text o1 s <> [] -> (match VText (C:=C) (A:=A) (o_text o1 s) with VText [] | VNone => true | _ => false end) = false)
      by (intros s H; destruct (o_text o1 s); congruence).
    destruct x as [| |s|a|b l|l|c sl|c sl l|c sl l]; destruct y as [| |s'|a'|b' l'|l'|c' sl'|c' sl' l'|c' sl' l']; cbn iota;
      auto; intros H;
      try (destruct (TX s) as [[Q1 Q2]|Q]); try (destruct (TX s') as [[Q1' Q2']|Q']);
      repeat match goal with X : _ = [] |- _ => rewrite X in *; clear X end; cbn iota in *; auto;
      try (rewrite (NT s Q) in H); try (rewrite (NT s' Q') in H);
      try (apply ET in H; try discriminate H); try (apply ET' in H; try discriminate H);
      try (apply EO in H; try discriminate H); try (apply EO' in H; try discriminate H).
    all: try (injection H as H; rewrite (T _ _ H); apply R).
    all: try (symmetry in H; injection H as H; rewrite (T _ _ H); apply R).
  - intros H.
    destruct x as [| |s|a|b l|l|c sl|c sl l|c sl l]; destruct y as [| |s'|a'|b' l'|l'|c' sl'|c' sl' l'|c' sl' l'];
      try (apply ET in H; try discriminate H); try (apply ET' in H; try discriminate H);
      try (apply EO in H; try discriminate H); try (apply EO' in H; try discriminate H);
      try (apply EN in H; try discriminate H); try (apply EN' in H; try discriminate H);
      try (injection H as H; rewrite (T _ _ (eq_sym H)));
      try (destruct (_ && _); apply R);
      destruct (o_empty_slots o2); cbn; auto.
Qed.

Lemma norm_nothing (x : val) : normalize_val o1 x = VNothing -> normalize_val o2 x = VNothing.
Proof.
  destruct LO as [T E _ _ _ _]. unfold normalize_val.
  destruct (o_empty_slots o1) eqn:E1; cbn [andb].
  - destruct (E eq_refl) as [E2 Z]. rewrite E2. cbn [andb]. destruct x as [| |s|a|b l|l|c sl|c sl l|c sl l]; cbn; auto; try discriminate.
    destruct (o_text o1 s) eqn:Q; [|discriminate]. now rewrite (Z s Q).
  - destruct x; try discriminate. intros _. destruct (o_empty_slots o2); reflexivity.
Qed.

Lemma norm_comparable o (x : val) : comparable (normalize_val o x) = comparable x /\
  (comparable x = true -> normalize_val o x = x).
Proof.
  unfold normalize_val. destruct x as [| |s|a|b l|l|c sl|c sl l|c sl l]; cbn; try (rewrite andb_false_r; auto); destruct (o_empty_slots o); cbn; auto.
  all: try (destruct (o_text o s)); cbn; split; auto; discriminate.
Qed.

(** ** Lists *)

(** the keys of items, as the loop over the items collects them *)
Definition ikey (o : options) (x : val) : option val :=
  let v := normalize_val o x in if is_nothing v && o_empty_slots o then None else Some v.

Lemma ikey_eq x y k k' : ikey o1 x = Some k -> ikey o1 y = Some k' -> veqb k k' = true ->
  match ikey o2 x, ikey o2 y with Some j, Some j' => veqb j j' = true | None, None => True | _, _ => False end.
Proof.
  unfold ikey. intros X Y V.
  assert (N : veqb (normalize_val o2 x) (normalize_val o2 y) = true).
  { apply norm_eq. destruct (is_nothing (normalize_val o1 x) && _); [discriminate|]. destruct (is_nothing (normalize_val o1 y) && _); [discriminate|]. congruence. }
  assert (Z : is_nothing (normalize_val o2 x) = is_nothing (normalize_val o2 y)).
  { destruct (is_nothing (normalize_val o2 x)) eqn:A1; destruct (is_nothing (normalize_val o2 y)) eqn:A2; auto.
    - destruct (normalize_val o2 x); try discriminate A1. apply (se_nothing _ EQ) in N. rewrite N in A2. discriminate.
    - destruct (normalize_val o2 y); try discriminate A2. apply (se_sym _ EQ), (se_nothing _ EQ) in N. rewrite N in A1. discriminate. }
  rewrite Z. destruct (is_nothing (normalize_val o2 y) && o_empty_slots o2); auto.
Qed.

Lemma ikey_none x : ikey o1 x = None -> ikey o2 x = None.
Proof.
  unfold ikey. destruct (is_nothing (normalize_val o1 x) && o_empty_slots o1) eqn:E; [|discriminate]. intros _.
  apply andb_true_iff in E as [E1 E2]. destruct (lo_empty _ _ LO E2) as [E3 _].
  rewrite norm_nothing by (destruct (normalize_val o1 x); [reflexivity|discriminate E1..]). rewrite E3. reflexivity.
Qed.

(** how many of the values have the key [k] *)
Definition cnt (o : options) (k : val) (l : list val) : nat :=
  length (filter (fun x => match ikey o x with Some k' => veqb k k' | None => false end) l).

Lemma cnt_app o k l m : cnt o k (l ++ m) = cnt o k l + cnt o k m.
Proof. unfold cnt. now rewrite filter_app, app_length. Qed.
Lemma cnt_cons o k x l : cnt o k (x :: l) = (match ikey o x with Some k' => if veqb k k' then 1 else 0 | None => 0 end) + cnt o k l.
Proof. unfold cnt. cbn [filter]. destruct (ikey o x); [destruct (veqb k v)|]; reflexivity. Qed.

Lemma cnt_pos o k l : 0 < cnt o k l -> exists l' y l'' k', l = l' ++ y :: l'' /\ ikey o y = Some k' /\ veqb k k' = true.
Proof.
  induction l as [|x l IH]; [cbn; lia|]. rewrite cnt_cons. intros P.
  destruct (ikey o x) as [k'|] eqn:E.
  - destruct (veqb k k') eqn:V; [exists [], x, l, k'; auto|].
    destruct (IH P) as (l' & y & l'' & k'' & -> & Q). exists (x :: l'), y, l'', k''. auto.
  - destruct (IH P) as (l' & y & l'' & k'' & -> & Q). exists (x :: l'), y, l'', k''. auto.
Qed.

Lemma veqb_l x y z : veqb x y = true -> veqb z x = veqb z y.
Proof.
  intros V. destruct (veqb z x) eqn:E; symmetry; [exact (se_trans _ EQ _ _ _ E V)|].
  destruct (veqb z y) eqn:F; auto. rewrite <- E. symmetry. exact (se_trans _ EQ _ _ _ F (se_sym _ EQ _ _ V)).
Qed.

Lemma cnt_looser la : forall lb, (forall k, cnt o1 k la = cnt o1 k lb) -> forall k, cnt o2 k la = cnt o2 k lb.
Proof.
  induction la as [|x la IH]; intros lb H k.
  - symmetry. assert (N : forall y, In y lb -> ikey o2 y = None).
    { intros y I. apply ikey_none. destruct (ikey o1 y) as [k'|] eqn:E; auto. exfalso.
      specialize (H k'). apply in_split in I as (l & m & ->). rewrite cnt_app, cnt_cons, E, (se_refl _ EQ) in H. cbn in H. lia. }
    clear H. induction lb as [|y lb IHb]; auto. rewrite cnt_cons, (N y) by (simpl; auto). apply IHb. intros z I. apply N. simpl; auto.
  - destruct (ikey o1 x) as [kx|] eqn:E.
    + assert (P : 0 < cnt o1 kx lb) by (rewrite <- H, cnt_cons, E, (se_refl _ EQ); lia).
      apply cnt_pos in P as (l' & y & l'' & ky & -> & Y & V).
      assert (H' : forall k, cnt o1 k la = cnt o1 k (l' ++ l'')).
      { intros j. specialize (H j). rewrite cnt_app, !cnt_cons, E, Y, (veqb_l kx ky j V) in H. rewrite cnt_app. lia. }
      specialize (IH _ H' k). rewrite cnt_app, !cnt_cons. rewrite cnt_app in IH.
      pose proof (ikey_eq x y kx ky E Y V) as Q.
      destruct (ikey o2 x) as [jx|], (ikey o2 y) as [jy|]; try tauto; try rewrite (veqb_l jx jy k Q); lia.
    + rewrite cnt_cons, (ikey_none x E). cbn. apply IH. intros j. specialize (H j). rewrite cnt_cons, E in H. exact H.
Qed.

(** the items compared of an operand *)
Definition raw (coll : val) (g : list (elem * val)) : list val := map (fun kv => item_compared W coll (snd kv)) g.

Lemma normalize_item_raw o u coll : normalize_item W o u coll = normalize_val o (item_compared W coll u).
Proof.
  unfold normalize_item, item_compared. destruct (class_of coll); auto. destruct (item_as W c); auto. destruct u; reflexivity.
Qed.

Lemma item_keys_cnt o coll g r : (forall x, In x (raw coll g) -> has_hash a_hash x = true) ->
  item_keys W hashable repr a_hash o coll g = Ok r ->
  forall k, count veqb k r = cnt o k (raw coll g).
Proof.
  revert r. induction g as [|[i u] g IH]; intros r HH E.
  - injection E as <-. reflexivity.
  - cbn [item_keys] in E. unfold item_key in E. cbv zeta in E. rewrite normalize_item_raw in E.
    assert (H1 : has_hash a_hash (normalize_val o (item_compared W coll u)) = true).
    { specialize (HH _ (or_introl eq_refl)). cbn [snd] in HH. unfold normalize_val.
      destruct (item_compared W coll u) as [| |s|?|?|?|?|?|?]; cbn [has_hash] in *; destruct (o_empty_slots o); cbn; auto.
      destruct (o_text o s); reflexivity. }
    rewrite H1 in E.
    assert (IH' : forall r, item_keys W hashable repr a_hash o coll g = Ok r -> forall k, count veqb k r = cnt o k (raw coll g)) by (intros; apply IH; auto; intros; apply HH; simpl; auto).
    assert (G : exists r', item_keys W hashable repr a_hash o coll g = Ok r' /\
       r = match ikey o (item_compared W coll u) with Some k => (i, k) :: r' | None => r' end).
    { unfold ikey. destruct (is_nothing (normalize_val o (item_compared W coll u)) && o_empty_slots o); cbn [bind] in E.
      - destruct (item_keys _ _ _ _ _ coll g) as [r'|]; cbn [bind] in E; [|discriminate]. injection E as <-. eauto.
      - destruct (hashable _); cbn [bind] in E; [|discriminate].
        destruct (item_keys _ _ _ _ _ coll g) as [r'|]; cbn [bind] in E; [|discriminate]. injection E as <-. eauto. }
    destruct G as (r' & G & ->). pose proof (IH' r' G) as B1.
    cbn [raw map snd fst]. intros k. change (map (fun kv => item_compared W coll (snd kv)) g) with (raw coll g). rewrite cnt_cons, <- B1.
    destruct (ikey o (item_compared W coll u)); [rewrite count_cons|]; reflexivity.
Qed.

Definition like (a b : val) : Prop := types_match ceqb a b = true \/ a = VNothing \/ b = VNothing.
Definition fine (v : val) : Prop := v = VNothing \/ nice v.

Definition listy (v : val) : Prop := match v with VNothing | VSeq _ _ | VMap _ | VLC _ _ _ | VDC _ _ _ => True | _ => False end.

Lemma generator_fine v g : fine v -> listy v -> generator a_items v = Ok g ->
  forall x, In x (raw v g) -> has_hash a_hash x = true.
Proof.
  intros F L G.
  assert (NN : forall l : list val, map snd (number l) = l).
  { intros l. unfold number. generalize 0 as s. induction l as [|x l IH]; intros s; cbn [length seq map combine fst snd]; auto.
    rewrite (IH (S s)). auto. }
  assert (HI : nice v -> map snd g = items_of v -> forall x, In x (raw v g) -> has_hash a_hash x = true).
  { intros N E x I. unfold raw in I. apply in_map_iff in I as ([k u] & <- & I). cbn [snd]. apply (so_item _ _ _ NI); auto.
    rewrite <- E. change u with (snd (k, u)). now apply in_map. }
  destruct v; cbn in L; try tauto; cbn in G; injection G as <-.
  - intros x [].
  - destruct F as [F|F]; [discriminate|]. apply HI; auto; apply NN.
  - destruct F as [F|F]; [discriminate|]. apply HI; auto.
  - destruct F as [F|F]; [discriminate|]. apply HI; auto; apply NN.
  - destruct F as [F|F]; [discriminate|]. apply HI; auto.
Qed.

Lemma list_iter_looser a b fa fb l1 l2 : fine a -> fine b -> listy a -> listy b ->
  list_iter W veqb hashable repr a_hash a_items o1 ord1 a b fa fb = Ok l1 -> changes l1 = [] ->
  list_iter W veqb hashable repr a_hash a_items o2 ord2 a b fa fb = Ok l2 -> changes l2 = [].
Proof.
  intros Fa Fb La Lb H1 C1 H2. unfold list_iter in *.
  destruct (lo_duck _ _ LO) as [D1 D2]. rewrite D1 in H1. rewrite D2 in H2.
  destruct (generator a_items a) as [ga|] eqn:Ga; cbn [bind] in *; [|discriminate].
  destruct (generator a_items b) as [gb|] eqn:Gb; cbn [bind] in *; [|destruct (item_keys _ _ _ _ o1 a ga); discriminate].
  pose proof (generator_fine a ga Fa La Ga) as Ha. pose proof (generator_fine b gb Fb Lb Gb) as Hb.
  destruct (item_keys W hashable repr a_hash o1 a ga) as [ka|] eqn:Ka; cbn [bind] in H1; [|discriminate].
  destruct (item_keys W hashable repr a_hash o1 b gb) as [kb|] eqn:Kb; cbn [bind] in H1; [|discriminate].
  destruct (item_keys W hashable repr a_hash o2 a ga) as [ja|] eqn:Ja; cbn [bind] in H2; [|discriminate].
  destruct (item_keys W hashable repr a_hash o2 b gb) as [jb|] eqn:Jb; cbn [bind] in H2; [|discriminate].
  injection H1 as <-. injection H2 as <-.
  pose proof (item_keys_cnt o1 a ga ka Ha Ka) as A1. pose proof (item_keys_cnt o1 b gb kb Hb Kb) as B1.
  pose proof (item_keys_cnt o2 a ga ja Ha Ja) as P1. pose proof (item_keys_cnt o2 b gb jb Hb Jb) as Q1.
  assert (EE : equalities veqb elem_eqb).
  { destruct EQ. repeat split; auto; apply elem_eqb_iff. }
  assert (CN : forall k, cnt o1 k (raw a ga) = cnt o1 k (raw b gb)).
  { rewrite changes_nil in C1.
    pose proof (exact veqb elem_eqb EE _ (proj1 (OK1 fa fb)) ka kb (o_unchanged_ o1) (o_moved o1)) as EX.
    assert (NC : forall t i j, In (t, i, j) (seq_diff veqb elem_eqb (so_seq (ord1 fa fb)) (o_unchanged_ o1) (o_moved o1) ka kb) -> t = NoChange).
    { intros t i j I. specialize (C1 (t, place fa i, place fb j)). apply C1.
      apply in_map_iff. exists (t, i, j). split; auto. }
    assert (S1 : forall i, ~ surplus veqb ka kb i).
    { intros i S. assert (S' : ~ surplus veqb kb ka i).
      { intros S'. discriminate (NC Modified (Some i) (Some i) (proj2 (EX (Modified, Some i, Some i)) (conj eq_refl (conj S S')))). }
      discriminate (NC Removed (Some i) None (proj2 (EX (Removed, Some i, None)) (conj S S'))). }
    assert (S2 : forall i, ~ surplus veqb kb ka i).
    { intros i S. discriminate (NC Added None (Some i) (proj2 (EX (Added, None, Some i)) (conj S (S1 i)))). }
    intros k. rewrite <- A1, <- B1.
    pose proof (proj1 (no_surplus veqb elem_eqb EE ka kb) S1 k). pose proof (proj1 (no_surplus veqb elem_eqb EE kb ka) S2 k). lia. }
  pose proof (cnt_looser _ _ CN) as C2.
  apply changes_nil. intros e I. apply in_map_iff in I as ([[t i] j] & <- & I). cbn [fst snd dt_of].
  apply (exact veqb elem_eqb EE _ (proj1 (OK2 fa fb)) ja jb) in I.
  assert (S1 : forall i, ~ surplus veqb ja jb i).
  { apply (no_surplus veqb elem_eqb EE). intros k. rewrite P1, Q1, C2. lia. }
  assert (S2 : forall i, ~ surplus veqb jb ja i).
  { apply (no_surplus veqb elem_eqb EE). intros k. rewrite P1, Q1, C2. lia. }
  rewrite (lo_moved _ _ LO) in I.
  destruct t, i as [i|], j as [j|]; auto; try tauto; exfalso.
  - exact (S2 _ (proj1 I)).
  - exact (S1 _ (proj1 I)).
  - exact (S1 _ (proj1 (proj2 I))).
  - destruct I as (X & _). discriminate.
Qed.

(** ** Records *)
Section Rec.
Variable rec1 rec2 : val -> val -> list elem -> list elem -> res (list dentry).
Hypothesis IH : forall a b fa fb l1 l2, fine a -> fine b -> like a b ->
  rec1 a b fa fb = Ok l1 -> changes l1 = [] -> rec2 a b fa fb = Ok l2 -> changes l2 = [].

Lemma filtered_looser (p : prop A C) fs : is_filtered o1 p fs = true -> is_filtered o2 p fs = true.
Proof.
  destruct LO as [_ _ X F _ _]. unfold is_filtered. rewrite !orb_true_iff, !andb_true_iff, !negb_true_iff.
  intros [[H1 H2]|H].
  - left. split; auto. destruct (o_extraneous o2); auto. rewrite X in H1; auto.
  - right. destruct F as [F|F]; [rewrite F in H; discriminate|rewrite <- F; exact H].
Qed.

Lemma compared_slot o (v : val) p : normalize_slot o (match slot v (p_name p) with Some u => u | None => VNothing end) p v =
  normalize_val o (match slot v (p_name p) with Some u => attr_compared v p u | None => VNothing end).
Proof.
  unfold normalize_slot, attr_compared. destruct (slot v (p_name p)) as [u|]; destruct (p_compare_as p); auto. destruct u; reflexivity.
Qed.

Lemma match_comparable (x y : val) : types_match ceqb x y = true -> comparable x = true /\ comparable y = true.
Proof. destruct x, y; cbn; auto; discriminate. Qed.

Lemma slot_looser c a b fa fb p l1 l2 : fine a -> fine b -> (class_of a = Some c \/ a = VNothing) -> (class_of b = Some c \/ b = VNothing) ->
  In p (props W c) ->
  slot_diff ceqb veqb o1 rec1 a b fa fb p = Ok l1 -> changes l1 = [] ->
  slot_diff ceqb veqb o2 rec2 a b fa fb p = Ok l2 -> changes l2 = [].
Proof.
  intros Fa Fb Ca Cb Ip H1 C1 H2. unfold slot_diff in H1, H2. cbv zeta in H1, H2.
  destruct (is_filtered o2 p _) eqn:F2; [injection H2 as <-; reflexivity|].
  destruct (is_filtered o1 p _) eqn:F1; [apply filtered_looser in F1; congruence|].
  rewrite !compared_slot in H1, H2.
  set (x := match slot a (p_name p) with Some u => attr_compared a p u | None => VNothing end) in *.
  set (y := match slot b (p_name p) with Some u => attr_compared b p u | None => VNothing end) in *.
  assert (FX : fine x).
  { unfold x. destruct (slot a (p_name p)) as [u|] eqn:S; [|left; reflexivity].
    destruct Ca as [Ca| ->]; [|discriminate S]. destruct Fa as [->|Fa]; [discriminate Ca|]. right. eapply (so_attr _ _ _ NI); eauto. }
  assert (FY : fine y).
  { unfold y. destruct (slot b (p_name p)) as [u|] eqn:S; [|left; reflexivity].
    destruct Cb as [Cb| ->]; [|discriminate S]. destruct Fb as [->|Fb]; [discriminate Cb|]. right. eapply (so_attr _ _ _ NI); eauto. }
  clearbody x y. destruct (lo_duck _ _ LO) as [D1 D2]. rewrite D1 in H1. rewrite D2 in H2. rewrite !orb_false_r in H1, H2.
  rewrite !(proj1 (norm_comparable o1 _)) in H1. rewrite !(proj1 (norm_comparable o2 _)) in H2.
  destruct (is_nothing (normalize_val o2 x) && is_nothing (normalize_val o2 y)) eqn:N2; [injection H2 as <-; reflexivity|].
  destruct (is_nothing (normalize_val o1 x) && is_nothing (normalize_val o1 y)) eqn:N1.
  { exfalso. apply andb_true_iff in N1 as [A1 A2].
    rewrite (norm_nothing x), (norm_nothing y) in N2; [discriminate N2| |];
      [destruct (normalize_val o1 y); [reflexivity|discriminate A2..]|destruct (normalize_val o1 x); [reflexivity|discriminate A1..]]. }
  assert (NV : forall o (z : val), is_nothing (normalize_val o z) = true -> normalize_val o z = VNothing)
    by (intros o z Q; destruct (normalize_val o z); [reflexivity|discriminate Q..]).
  (* what the first comparison found *)
  assert (CASES : (comparable x = true /\ comparable y = true /\ types_match ceqb x y = true /\ exists l, rec1 x y (fa ++ [EStr (p_name p)]) (fb ++ [EStr (p_name p)]) = Ok l /\ changes l = []) \/
     (o_empty_slots o1 = true /\ comparable x = true /\ normalize_val o1 y = VNothing /\ exists l, rec1 x VNothing (fa ++ [EStr (p_name p)]) (fb ++ [EStr (p_name p)]) = Ok l /\ changes l = []) \/
     (o_empty_slots o1 = true /\ comparable y = true /\ normalize_val o1 x = VNothing /\ exists l, rec1 VNothing y (fa ++ [EStr (p_name p)]) (fb ++ [EStr (p_name p)]) = Ok l /\ changes l = []) \/
     (veqb (normalize_val o1 x) (normalize_val o1 y) = true /\ ((comparable x || comparable y) = true -> types_match ceqb (normalize_val o1 x) (normalize_val o1 y) = false))).
  { destruct ((comparable x || comparable y) && _) eqn:B.
    - apply andb_true_iff in B as [B1 B2].
      destruct (rec1 _ _ _ _) as [l|] eqn:R; cbn [bind] in H1; [|discriminate].
      assert (CL : changes l = []).
      { destruct (xorb _ _); [|injection H1 as <-; exact C1].
        destruct (changes l) as [|d t] eqn:CH; auto. exfalso. destruct (forallb (dt_eqb d) t); [|discriminate].
        injection H1 as <-. assert (d <> NoChange).
        { intros ->. assert (I : In NoChange (changes l)) by (rewrite CH; simpl; auto). unfold changes in I. apply filter_In in I as [_ I]. discriminate. }
        destruct d; try discriminate C1. congruence. }
      apply orb_true_iff in B2 as [B2|B2].
      + destruct (match_comparable _ _ B2) as [M1 M2]. rewrite (proj1 (norm_comparable _ _)) in M1. rewrite (proj1 (norm_comparable _ _)) in M2.
        rewrite (proj2 (norm_comparable o1 x) M1), (proj2 (norm_comparable o1 y) M2) in *. left. eauto 6.
      + apply andb_true_iff in B2 as [B2 B3]. destruct (comparable x) eqn:CX.
        * rewrite (proj2 (norm_comparable o1 x) CX) in *. destruct (is_nothing x) eqn:NX; [destruct x; discriminate|].
          cbn [xorb] in B3. destruct (is_nothing (normalize_val o1 y)) eqn:NY; [|discriminate]. apply NV in NY. rewrite NY in R.
          right; left. eauto 6.
        * cbn [orb] in B1. rewrite (proj2 (norm_comparable o1 y) B1) in *. destruct (is_nothing y) eqn:NY; [destruct y; discriminate|].
          destruct (is_nothing (normalize_val o1 x)) eqn:NX; [|discriminate]. apply NV in NX. rewrite NX in R.
          right; right; left. eauto 6.
    - destruct (xorb _ _) eqn:X1.
      { injection H1 as <-. destruct (is_nothing (normalize_val o1 x)); discriminate C1. }
      destruct (veqb (normalize_val o1 x) (normalize_val o1 y)) eqn:V; cbn [negb] in H1; [|injection H1 as <-; discriminate C1].
      right; right; right. split; auto. intros CC. rewrite CC in B. cbn [andb] in B. apply orb_false_iff in B as [B _]. exact B. }
  clear H1 C1 l1.
  (* the second comparison *)
  assert (ONE : forall u v l, rec2 u v (fa ++ [EStr (p_name p)]) (fb ++ [EStr (p_name p)]) = Ok l -> changes l = [] ->
     forall one : bool, (if one then match changes l with
          | [] => Ok (if o_unchanged_ o2 then [(NoChange, fa ++ [EStr (p_name p)], fb ++ [EStr (p_name p)])] else [])
          | d :: t => if forallb (dt_eqb d) t then Ok [(d, fa ++ [EStr (p_name p)], fb ++ [EStr (p_name p)])] else Err AssertErr
          end else Ok l) = Ok l2 -> changes l2 = []).
  { intros u v l R CL one Q. destruct one; [|injection Q as <-; exact CL]. rewrite CL in Q. injection Q as <-. destruct (o_unchanged_ o2); reflexivity. }
  destruct CASES as [(X1 & X2 & TM & l & R & CL)|[(E1 & X1 & Y1 & l & R & CL)|[(E1 & Y1 & X1 & l & R & CL)|(V & TM)]]].
  - rewrite (proj2 (norm_comparable o2 x) X1), (proj2 (norm_comparable o2 y) X2) in *. rewrite X1, TM in H2. cbn [orb andb] in H2.
    destruct (rec2 x y _ _) as [l'|] eqn:R2; cbn [bind] in H2; [|discriminate].
    eapply ONE; [exact R2| |exact H2]. eapply IH; [exact FX|exact FY|left; exact TM|exact R|exact CL|exact R2].
  - rewrite (proj2 (norm_comparable o2 x) X1), (norm_nothing y Y1) in *. destruct (lo_empty _ _ LO E1) as [E2 _].
    assert (NX : is_nothing x = false) by (destruct x; [discriminate X1|reflexivity..]).
    rewrite X1, E2, NX in H2. cbn [orb andb xorb is_nothing] in H2. rewrite orb_true_r in H2.
    destruct (rec2 x VNothing _ _) as [l'|] eqn:R2; cbn [bind] in H2; [|discriminate].
    refine (ONE _ _ l' R2 _ true H2). eapply IH; [exact FX|left; reflexivity|right; right; reflexivity|exact R|exact CL|exact R2].
  - rewrite (proj2 (norm_comparable o2 y) Y1), (norm_nothing x X1) in *. destruct (lo_empty _ _ LO E1) as [E2 _].
    assert (NY : is_nothing y = false) by (destruct y; [discriminate Y1|reflexivity..]).
    rewrite Y1, E2, NY in H2. cbn [orb andb xorb is_nothing] in H2. rewrite !orb_true_r in H2. cbn [andb] in H2.
    destruct (rec2 VNothing y _ _) as [l'|] eqn:R2; cbn [bind] in H2; [|discriminate].
    refine (ONE _ _ l' R2 _ true H2). eapply IH; [left; reflexivity|exact FY|right; left; reflexivity|exact R|exact CL|exact R2].
  - pose proof (norm_eq x y V) as V2.
    assert (SAME : is_nothing (normalize_val o2 x) = is_nothing (normalize_val o2 y)).
    { destruct (is_nothing (normalize_val o2 x)) eqn:A1; destruct (is_nothing (normalize_val o2 y)) eqn:A2; auto.
      - apply NV in A1. rewrite A1 in V2. apply (se_nothing _ EQ) in V2. rewrite V2 in A2. discriminate.
      - apply NV in A2. rewrite A2 in V2. apply (se_sym _ EQ), (se_nothing _ EQ) in V2. rewrite V2 in A1. discriminate. }
    rewrite SAME in H2. rewrite xorb_nilpotent, andb_false_r, orb_false_r in H2.
    assert (B : (comparable x || comparable y) && types_match ceqb (normalize_val o2 x) (normalize_val o2 y) = false).
    { destruct (comparable x || comparable y) eqn:CC; auto. cbn [andb]. specialize (TM eq_refl).
      destruct (types_match ceqb (normalize_val o2 x) (normalize_val o2 y)) eqn:M; auto.
      destruct (match_comparable _ _ M) as [M1 M2]. rewrite (proj1 (norm_comparable _ _)) in M1. rewrite (proj1 (norm_comparable _ _)) in M2.
      rewrite (proj2 (norm_comparable o1 x) M1), (proj2 (norm_comparable o1 y) M2) in TM.
      rewrite (proj2 (norm_comparable o2 x) M1), (proj2 (norm_comparable o2 y) M2) in M. congruence. }
    rewrite B, V2 in H2. cbn [negb] in H2. injection H2 as <-. destruct (o_unchanged_ o2); reflexivity.
Qed.

Lemma concat_looser {X} (f g : X -> res (list dentry)) xs :
  (forall x l1 l2, In x xs -> f x = Ok l1 -> changes l1 = [] -> g x = Ok l2 -> changes l2 = []) ->
  forall l1 l2, concatM f xs = Ok l1 -> changes l1 = [] -> concatM g xs = Ok l2 -> changes l2 = [].
Proof.
  assert (AP : forall u v : list dentry, changes (u ++ v) = changes u ++ changes v).
  { intros u v. unfold changes. now rewrite map_app, filter_app. }
  induction xs as [|x xs IHx]; intros H l1 l2 E1 C1 E2; cbn [concatM] in *.
  - injection E2 as <-. reflexivity.
  - destruct (f x) as [u1|] eqn:F1; cbn [bind] in E1; [|discriminate]. destruct (concatM f xs) as [v1|] eqn:V1; cbn [bind] in E1; [|discriminate].
    destruct (g x) as [u2|] eqn:F2; cbn [bind] in E2; [|discriminate]. destruct (concatM g xs) as [v2|] eqn:V2; cbn [bind] in E2; [|discriminate].
    injection E1 as <-. injection E2 as <-. rewrite AP in *. apply app_eq_nil in C1 as [C1 C1'].
    rewrite (H x u1 u2), (IHx (fun x l1 l2 I => H x l1 l2 (or_intror I)) v1 v2); simpl; auto.
Qed.

Lemma all_properties_in c p : In p (all_properties W c) -> In p (props W c).
Proof.
  unfold all_properties.
  assert (G : forall (l acc : list (prop A C)), In p (fold_left (fun acc p => insert_prop p acc) l acc) -> In p l \/ In p acc).
  { induction l as [|q l IHl]; cbn [fold_left]; auto. intros acc I.
    destruct (IHl _ I) as [|J]; [left; now right|]. apply insert_prop_in in J as [->|]; auto. left. now left. }
  intros I. destruct (G _ _ I) as [|[]]; auto.
Qed.

Hypothesis CE : forall c d, ceqb c d = true -> c = d.

Lemma record_iter_looser a b fa fb l1 l2 : fine a -> fine b ->
  record_iter W ceqb veqb o1 rec1 a b fa fb = Ok l1 -> changes l1 = [] ->
  record_iter W ceqb veqb o2 rec2 a b fa fb = Ok l2 -> changes l2 = [].
Proof.
  intros Fa Fb H1 C1 H2. unfold record_iter in *. destruct (lo_duck _ _ LO) as [D1 D2]. rewrite D1 in H1. rewrite D2 in H2.
  cbn [negb andb] in *.
  destruct (negb (types_match ceqb a b) && negb (is_nothing a || is_nothing b)) eqn:T; [discriminate|].
  destruct (class_of (if is_nothing a then b else a)) as [c|] eqn:K; [|discriminate].
  assert (CC : (class_of a = Some c \/ a = VNothing) /\ (class_of b = Some c \/ b = VNothing)).
  { destruct (is_nothing a) eqn:NA; [destruct a; try discriminate NA; auto|].
    split; auto. destruct (is_nothing b) eqn:NB; [destruct b; try discriminate NB; auto|].
    cbn [orb negb] in T. rewrite andb_true_r in T. apply negb_false_iff in T.
    destruct a, b; cbn in T, K |- *; try discriminate; apply CE in T; subst; auto. }
  eapply concat_looser; [|exact H1|exact C1|exact H2].
  intros p m1 m2 I. apply slot_looser with (c := c); auto; try apply CC. now apply all_properties_in.
Qed.

Lemma dispatch_looser a b fa fb l1 l2 : fine a -> fine b -> like a b ->
  dispatch W ceqb veqb hashable repr a_hash a_falsy a_items o1 id1 ord1 rec1 a b fa fb = Ok l1 -> changes l1 = [] ->
  dispatch W ceqb veqb hashable repr a_hash a_falsy a_items o2 id2 ord2 rec2 a b fa fb = Ok l2 -> changes l2 = [].
Proof.
  intros Fa Fb L H1 C1 H2.
  assert (AP : forall u v : list dentry, changes (u ++ v) = changes u ++ changes v).
  { intros u v. unfold changes. now rewrite map_app, filter_app. }
  set (m := if is_nothing a then b else a).
  assert (FM : fine m) by (unfold m; destruct (is_nothing a); auto).
  assert (LL : listy m -> listy a /\ listy b).
  { unfold m. intros X. destruct (is_nothing a) eqn:NA; [split; auto; destruct a; try discriminate NA; exact I|].
    split; auto. destruct L as [L|[->| ->]]; [|discriminate NA|exact I]. destruct a, b; cbn in L, X |- *; try discriminate; auto. }
  assert (COLL : forall u v c, class_of m = Some c -> listy m ->
     (do l <- collection_iter W veqb hashable repr a_hash a_falsy a_items o1 id1 ord1 rec1 a b fa fb;
      do m <- record_iter W ceqb veqb o1 rec1 a b fa fb; Ok (l ++ m)) = Ok u -> changes u = [] ->
     (do l <- collection_iter W veqb hashable repr a_hash a_falsy a_items o2 id2 ord2 rec2 a b fa fb;
      do m <- record_iter W ceqb veqb o2 rec2 a b fa fb; Ok (l ++ m)) = Ok v -> changes v = []).
  { intros u v c K X U CU V. destruct (LL X) as [La Lb].
    unfold collection_iter in U, V. fold m in U, V. rewrite K in U, V.
    destruct FM as [FM|FM]; [rewrite FM in K; discriminate|].
    destruct (ValModel.item W c) as [|d|] eqn:IT; try discriminate.
    - exfalso. exact (so_class _ _ _ NI m c d FM K IT).
    - destruct (list_iter _ _ _ _ _ _ o1 _ _ _ _ _) as [p1|] eqn:P1; cbn [bind] in U; [|discriminate].
      destruct (list_iter _ _ _ _ _ _ o2 _ _ _ _ _) as [p2|] eqn:P2; cbn [bind] in V; [|discriminate].
      destruct (record_iter _ _ _ o1 _ _ _ _ _) as [q1|] eqn:Q1; cbn [bind] in U; [|discriminate].
      destruct (record_iter _ _ _ o2 _ _ _ _ _) as [q2|] eqn:Q2; cbn [bind] in V; [|discriminate].
      injection U as <-. injection V as <-. rewrite AP in *. apply app_eq_nil in CU as [CU1 CU2].
      rewrite (list_iter_looser a b fa fb p1 p2), (record_iter_looser a b fa fb q1 q2); auto. }
  unfold dispatch in H1, H2. fold m in H1, H2.
  destruct m as [| |s|x|t l|l|c sl|c sl l|c sl l] eqn:EM; try (injection H2 as <-; reflexivity).
  - destruct (LL I) as [La Lb]. exact (list_iter_looser a b fa fb l1 l2 Fa Fb La Lb H1 C1 H2).
  - destruct (LL I) as [La Lb]. exact (list_iter_looser a b fa fb l1 l2 Fa Fb La Lb H1 C1 H2).
  - exact (record_iter_looser a b fa fb l1 l2 Fa Fb H1 C1 H2).
  - exact (COLL l1 l2 c eq_refl I H1 C1 H2).
  - exact (COLL l1 l2 c eq_refl I H1 C1 H2).
Qed.
End Rec.

Hypothesis CE : forall c d, ceqb c d = true -> c = d.

Lemma diff_looser n : forall a b fa fb l1 l2, fine a -> fine b -> like a b ->
  diff1 n a b fa fb = Ok l1 -> changes l1 = [] -> diff2 n a b fa fb = Ok l2 -> changes l2 = [].
Proof.
  induction n as [|n IHn]; intros a b fa fb l1 l2 Fa Fb L H1 C1 H2; [discriminate|].
  cbn [diff] in H1, H2. exact (dispatch_looser (diff1 n) (diff2 n) IHn CE a b fa fb l1 l2 Fa Fb L H1 C1 H2).
Qed.

(** ** Where differences are reported *)
Section Where.
Variable opt : options.
Variable id : rtype C -> option mfs -> val -> res val.
Variable ord : list elem -> list elem -> dorders (A := A) (C := C).
Hypothesis ND : o_duck opt = false.
Notation diff_o := (diff W ceqb veqb hashable repr a_hash a_falsy a_items opt id ord).
Definition below (fa : list elem) (l : list dentry) : Prop := forall t p q, In (t, p, q) l -> exists r, p = fa ++ r.

Lemma below_sub fa k l : below (fa ++ k) l -> below fa l.
Proof. intros B t p q I. destruct (B t p q I) as [r ->]. exists (k ++ r). now rewrite app_assoc. Qed.

Lemma slot_below rec c a b fa fb p l :
  (forall a b fa fb l, fine a -> fine b -> like a b -> rec a b fa fb = Ok l -> below fa l) ->
  fine a -> fine b -> (class_of a = Some c \/ a = VNothing) -> (class_of b = Some c \/ b = VNothing) -> In p (props W c) ->
  slot_diff ceqb veqb opt rec a b fa fb p = Ok l -> below (fa ++ [EStr (p_name p)]) l.
Proof.
  intros IH Fa Fb Ca Cb Ip H. unfold slot_diff in H. cbv zeta in H.
  assert (ONE : forall d q, below (fa ++ [EStr (p_name p)]) [(d, fa ++ [EStr (p_name p)], q)]).
  { intros d q t p' q' [E|[]]. injection E as _ <- _. exists []. now rewrite app_nil_r. }
  assert (NIL : below (fa ++ [EStr (p_name p)]) []) by (intros t p' q' []).
  destruct (is_filtered opt p _); [injection H as <-; exact NIL|].
  rewrite !compared_slot in H.
  set (x := match slot a (p_name p) with Some u => attr_compared a p u | None => VNothing end) in *.
  set (y := match slot b (p_name p) with Some u => attr_compared b p u | None => VNothing end) in *.
  assert (FX : fine x).
  { unfold x. destruct (slot a (p_name p)) as [u|] eqn:S; [|left; reflexivity].
    destruct Ca as [Ca| ->]; [|discriminate S]. destruct Fa as [->|Fa]; [discriminate Ca|]. right. eapply (so_attr _ _ _ NI); eauto. }
  assert (FY : fine y).
  { unfold y. destruct (slot b (p_name p)) as [u|] eqn:S; [|left; reflexivity].
    destruct Cb as [Cb| ->]; [|discriminate S]. destruct Fb as [->|Fb]; [discriminate Cb|]. right. eapply (so_attr _ _ _ NI); eauto. }
  clearbody x y. rewrite ND in H. rewrite !orb_false_r in H.
  destruct (is_nothing _ && is_nothing _); [injection H as <-; exact NIL|].
  destruct ((comparable _ || comparable _) && _) eqn:B.
  - apply andb_true_iff in B as [B1 B2].
    destruct (rec _ _ _ _) as [l'|] eqn:R; cbn [bind] in H; [|discriminate].
    destruct (xorb _ _) eqn:X; [|].
    { destruct (changes l') as [|d t]; [destruct (o_unchanged_ opt); injection H as <-; auto|].
      destruct (forallb _ t); [injection H as <-; auto|discriminate]. }
    injection H as <-. rewrite andb_false_r, orb_false_r in B2.
    destruct (match_comparable _ _ B2) as [M1 M2]. rewrite (proj1 (norm_comparable _ _)) in M1. rewrite (proj1 (norm_comparable _ _)) in M2.
    rewrite (proj2 (norm_comparable opt x) M1), (proj2 (norm_comparable opt y) M2) in *.
    eapply IH; [exact FX|exact FY|left; exact B2|exact R].
  - destruct (xorb _ _); [injection H as <-; auto|]. destruct (negb _); [injection H as <-; auto|].
    destruct (o_unchanged_ opt); injection H as <-; auto.
Qed.

Lemma diff_below n : forall a b fa fb l, fine a -> fine b -> like a b -> diff_o n a b fa fb = Ok l -> below fa l.
Proof.
  induction n as [|n IHn]; intros a b fa fb l Fa Fb L H; [discriminate|]. cbn [diff] in H.
  assert (LI : forall l, list_iter W veqb hashable repr a_hash a_items opt ord a b fa fb = Ok l -> below fa l).
  { intros m E. unfold list_iter in E. repeat match type of E with (do x <- ?r; _) = _ => destruct r; cbn [bind] in E; [|discriminate] end.
    injection E as <-. intros t p q I. apply in_map_iff in I as ([[t' i] j] & E & _). injection E as _ <- _.
    destruct i as [i|]; cbn [place]; eauto. exists []. now rewrite app_nil_r. }
  assert (RI : forall l, record_iter W ceqb veqb opt (diff_o n) a b fa fb = Ok l -> below fa l).
  { intros m E. unfold record_iter in E. rewrite ND in E. cbn [negb andb] in E.
    destruct (negb (types_match ceqb a b) && negb (is_nothing a || is_nothing b)) eqn:T; [discriminate|].
    destruct (class_of (if is_nothing a then b else a)) as [c|] eqn:K; [|discriminate].
    assert (CC : (class_of a = Some c \/ a = VNothing) /\ (class_of b = Some c \/ b = VNothing)).
    { destruct (is_nothing a) eqn:NA; [destruct a; try discriminate NA; auto|].
      split; auto. destruct (is_nothing b) eqn:NB; [destruct b; try discriminate NB; auto|].
      cbn [orb negb] in T. rewrite andb_true_r in T. apply negb_false_iff in T.
      destruct a, b; cbn in T, K |- *; try discriminate; apply CE in T; subst; auto. }
    intros t p q I. destruct (concatM_in _ _ _ E _ I) as (pr & u & Ip & U & Iu).
    eapply below_sub; [|exact Iu]. eapply (slot_below (diff_o n) c); [exact IHn|exact Fa|exact Fb|apply CC|apply CC| |exact U].
    now apply all_properties_in. }
  unfold dispatch in H. set (m := if is_nothing a then b else a) in *.
  assert (FM : fine m) by (unfold m; destruct (is_nothing a); auto).
  assert (COLL : forall c u, class_of m = Some c ->
     (do l <- collection_iter W veqb hashable repr a_hash a_falsy a_items opt id ord (diff_o n) a b fa fb;
      do m <- record_iter W ceqb veqb opt (diff_o n) a b fa fb; Ok (l ++ m)) = Ok u -> below fa u).
  { intros c u K U. unfold collection_iter in U. fold m in U. rewrite K in U. destruct FM as [FM|FM]; [rewrite FM in K; discriminate|].
    destruct (ValModel.item W c) as [|d|] eqn:IT; try discriminate; [exfalso; exact (so_class _ _ _ NI m c d FM K IT)|].
    destruct (list_iter _ _ _ _ _ _ _ _ _ _ _ _) as [p1|] eqn:P1; cbn [bind] in U; [|discriminate].
    destruct (record_iter _ _ _ _ _ _ _ _ _) as [q1|] eqn:Q1; cbn [bind] in U; [|discriminate].
    injection U as <-. intros t p q I. apply in_app_iff in I as [I|I]; [exact (LI _ eq_refl t p q I)|exact (RI _ eq_refl t p q I)]. }
  destruct m as [| |s|x|t l0|l0|c sl|c sl l0|c sl l0] eqn:EM; try (injection H as <-; intros t' p q []); eauto.
  all: eapply COLL; [reflexivity|exact H].
Qed.
End Where.

(** Attribute by attribute *)
Lemma attr_looser n c sl sl' l1 l2 m : nice (VRec c sl) -> nice (VRec c sl') ->
  diff1 n (VRec c sl) (VRec c sl') [] [] = Ok l1 -> diff2 n (VRec c sl) (VRec c sl') [] [] = Ok l2 ->
  (forall t p q, In (t, EStr m :: p, q) l1 -> t = NoChange) -> forall t p q, In (t, EStr m :: p, q) l2 -> t = NoChange.
Proof.
  intros Na Nb H1 H2 S t p q I. destruct (lo_duck _ _ LO) as [D1 D2].
  destruct n as [|n]; [discriminate|]. cbn [diff] in H1, H2. unfold dispatch in H1, H2. cbn [is_nothing] in H1, H2.
  unfold record_iter in H1, H2. rewrite D1 in H1. rewrite D2 in H2. cbn [is_nothing class_of] in H1, H2.
  destruct (negb false && negb (types_match ceqb (VRec c sl) (VRec c sl')) && _); [discriminate|].
  destruct (concatM_in _ _ _ H2 _ I) as (pr & u2 & Ip & U2 & Iu).
  destruct (concatM_ok _ _ _ H1 pr Ip) as (u1 & U1 & In1).
  assert (F1 : fine (VRec c sl)) by (right; auto). assert (F2 : fine (VRec c sl')) by (right; auto).
  pose proof (all_properties_in c pr Ip) as Ip'.
  pose proof (slot_below o1 D1 (diff1 n) c _ _ [] [] pr u1 (diff_below o1 id1 ord1 D1 n) F1 F2 (or_introl eq_refl) (or_introl eq_refl) Ip' U1) as B1.
  pose proof (slot_below o2 D2 (diff2 n) c _ _ [] [] pr u2 (diff_below o2 id2 ord2 D2 n) F1 F2 (or_introl eq_refl) (or_introl eq_refl) Ip' U2) as B2.
  assert (EM : p_name pr = m) by (destruct (B2 _ _ _ Iu) as [r E]; cbn in E; congruence).
  assert (C1 : changes u1 = []).
  { apply changes_nil. intros [[t' p'] q'] J. destruct (B1 _ _ _ J) as [r E]. cbn in E. subst p'. rewrite EM in J. cbn [dt_of fst]. eapply S, In1, J. }
  pose proof (slot_looser (diff1 n) (diff2 n) (diff_looser n) c _ _ [] [] pr u1 u2 F1 F2 (or_introl eq_refl) (or_introl eq_refl) Ip' U1 C1 U2) as C2.
  rewrite changes_nil in C2. exact (C2 _ Iu).
Qed.
End Looser.
