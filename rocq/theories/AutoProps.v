(** C40: automatic key conversion is reversible for camelCase keys. *)
From Coq Require Import String List NArith ZArith Arith Bool Lia.
From Verif Require Import Prelude PickleModel AutoModel.
Import ListNotations.
Local Open Scope string_scope.
Local Open Scope list_scope.

(** ** Specification *)

Definition lower_letter (c : N) : Prop := (97 <= c <= 122)%N.
Definition digit (udigit : N -> bool) (c : N) : Prop :=
  (48 <= c <= 57)%N \/ (127 < c)%N /\ udigit c = true.

(** Somewhere a lower-case letter or digit is followed by an underscore and a lower-case letter. *)
Definition snake (udigit : N -> bool) (k : str) : Prop :=
  exists a x y b, k = a ++ x :: 95%N :: y :: b /\
    (lower_letter x \/ digit udigit x) /\ lower_letter y.

(** An integer occurs in the data. *)
Inductive int_in (z : Z) : json -> Prop :=
| int_here : int_in z (JInt z)
| int_list l x : In x l -> int_in z x -> int_in z (JList l)
| int_obj l k x : In (k, x) l -> int_in z x -> int_in z (JObj l).

Definition starts_with_object (j : json) : Prop :=
  exists l t, j = JList (JObj l :: t).

(** Documents that can be expected to survive, given which keys do: no key twice; values are data
    without huge integers, not objects, and not lists starting with an object – or lists of such
    documents. *)
Inductive document (okkey : str -> Prop) : json -> Prop :=
| doc l : NoDup (map fst l) ->
    (forall k v, In (k, v) l -> okkey k /\ doc_value okkey v) -> document okkey (JObj l)
with doc_value (okkey : str -> Prop) : json -> Prop :=
| dv_plain j : (forall z, int_in z j -> (Z.abs z <= 2 ^ 50)%Z) ->
    (forall l, j <> JObj l) -> ~ starts_with_object j -> doc_value okkey j
| dv_list l : l <> [] -> (forall x, In x l -> document okkey x) -> doc_value okkey (JList l).

Fixpoint depth (j : json) : nat :=
  match j with
  | JList l => S (fold_right (fun x m => max (depth x) m) 0 l)
  | JObj l => S (fold_right (fun kv m => max (depth (snd kv)) m) 0 l)
  | _ => 0
  end.

(** ** Keys *)

Section Keys.
Variable udigit : N -> bool.

Lemma is_ld_iff c : is_ld udigit c = true <-> lower_letter c \/ digit udigit c.
Proof.
  unfold is_ld, is_lower, is_digit, lower_letter, digit.
  rewrite !orb_true_iff, !andb_true_iff, !N.leb_le, N.ltb_lt. tauto.
Qed.
Lemma is_lower_iff c : is_lower c = true <-> lower_letter c.
Proof. unfold is_lower, lower_letter. rewrite andb_true_iff, !N.leb_le. tauto. Qed.
Lemma is_upper_iff c : is_upper c = true <-> (65 <= c <= 90)%N.
Proof. unfold is_upper. rewrite andb_true_iff, !N.leb_le. tauto. Qed.

Lemma ld_underscore : is_ld udigit underscore = false.
Proof. unfold is_ld, is_lower, is_digit, underscore. reflexivity. Qed.

Lemma upper_back y : is_upper y = true ->
  to_upper (to_lower y) = y /\ is_lower (to_lower y) = true.
Proof.
  rewrite is_upper_iff. rewrite is_lower_iff. unfold to_upper, to_lower, lower_letter. lia.
Qed.

Lemma key_in_head x t : exists t', key_in udigit (x :: t) = x :: t'.
Proof.
  cbn [key_in]. destruct t as [|y t]; [eauto|]. destruct (is_ld udigit x && is_upper y); eauto.
Qed.

Lemma snake_cons x t : snake udigit t -> snake udigit (x :: t).
Proof.
  intros (a & c & y & b & -> & H). exists (x :: a), c, y, b. auto.
Qed.

Lemma snake_inv x t : snake udigit (x :: t) ->
  snake udigit t \/
  exists y b, t = 95%N :: y :: b /\ is_ld udigit x = true /\ is_lower y = true.
Proof.
  intros (a & c & y & b & E & H1 & H2). destruct a as [|a0 a]; simpl in E; injection E as -> E.
  - right. exists y, b. rewrite is_ld_iff, is_lower_iff. auto.
  - left. subst t. exists a, c, y, b. auto.
Qed.

Lemma key_out_cons x t :
  (forall u y t', t = u :: y :: t' ->
     is_ld udigit x && N.eqb u underscore && is_lower y = false) ->
  key_out udigit (x :: t) = x :: key_out udigit t.
Proof.
  intros H. cbn [key_out]. destruct t as [|u [|y t']]; auto.
  rewrite (H u y t' eq_refl). reflexivity.
Qed.

Lemma key_round_aux n : forall k, length k <= n ->
  (key_out udigit (key_in udigit k) = k <-> ~ snake udigit k).
Proof.
  induction n as [|n IH]; intros k L.
  { destruct k; [|simpl in L; lia]. simpl. split; auto.
    intros _ (a & x & y & b & E & _). destruct a; discriminate. }
  destruct k as [|x t].
  { simpl. split; auto. intros _ (a & x & y & b & E & _). destruct a; discriminate. }
  simpl in L. cbn [key_in]. destruct t as [|y t].
  { simpl. split; auto. intros _ S. apply snake_inv in S.
    destruct S as [(a & c & y & b & E & _)|(y & b & E & _)]; [destruct a|]; discriminate. }
  destruct (is_ld udigit x && is_upper y) eqn:C.
  - apply andb_true_iff in C as [C1 C2]. destruct (upper_back y C2) as [B1 B2].
    cbn [key_out]. rewrite C1, N.eqb_refl, B2. simpl. rewrite B1.
    simpl in L. specialize (IH t ltac:(lia)).
    assert (S : snake udigit (x :: y :: t) <-> snake udigit t).
    { split; [|intros S; now do 2 apply snake_cons].
      intros S. apply snake_inv in S. destruct S as [S|(z & b & E & _)].
      - apply snake_inv in S. destruct S as [S|(z & b & E & Q & _)]; auto.
        apply is_ld_iff in Q. apply is_upper_iff in C2. unfold lower_letter, digit in Q. lia.
      - injection E as -> E. discriminate C2. }
    rewrite S, <- IH. split; [congruence|]. intros ->; auto.
  - (* key_in (x :: y :: t) = x :: key_in (y :: t) *)
    specialize (IH (y :: t) (le_S_n _ _ L)).
    destruct (is_ld udigit x) eqn:X; simpl in C.
    + destruct (N.eqb y underscore) eqn:Y.
      * apply N.eqb_eq in Y. subst y. destruct t as [|z t].
        { simpl. split; auto. intros _ S. apply snake_inv in S. destruct S as [S|(y & b & E & _)];
            [|discriminate]. apply snake_inv in S.
          destruct S as [(a & c & y & b & E & _)|(y & b & E & _)]; [destruct a|]; discriminate. }
        destruct (is_lower z) eqn:Z.
        -- (* a match in the key itself *)
           split.
           ++ destruct (key_in_head z t) as [t' Ht].
              cbn [key_in]. cbn [key_in] in Ht. rewrite ld_underscore. cbn [andb].
              fold (key_in udigit) in *.
              change (match t with
                      | [] => [z]
                      | y :: t'0 => if is_ld udigit z && is_upper y
                                    then z :: underscore :: to_lower y :: key_in udigit t'0
                                    else z :: key_in udigit t
                      end) with (key_in udigit (z :: t)) in *.
              rewrite Ht. cbn [key_out]. rewrite X, N.eqb_refl, Z. simpl.
              intros E. injection E as E _. apply is_lower_iff in Z.
              unfold lower_letter, to_upper, underscore in *. lia.
           ++ intros S. exfalso. apply S. exists [], x, z, t. split; auto.
              split; [now apply is_ld_iff|now apply is_lower_iff].
        -- rewrite key_out_cons.
           ++ split; intros H.
              ** injection H as H. apply IH in H. intros S. apply snake_inv in S.
                 destruct S as [S|(y & b & E & _ & Q)]; auto. injection E as -> ->. congruence.
              ** f_equal. apply IH. intros S. apply H. now apply snake_cons.
           ++ intros u y t' E. destruct (key_in_head z t) as [t2 Ht].
              cbn [key_in] in E. rewrite ld_underscore in E. cbn [andb] in E.
              change (underscore :: key_in udigit (z :: t) = u :: y :: t') in E.
              rewrite Ht in E. injection E as <- <- _. rewrite Z, !andb_false_r. reflexivity.
      * rewrite key_out_cons.
        -- split; intros H.
           ++ injection H as H. apply IH in H. intros S. apply snake_inv in S.
              destruct S as [S|(z & b & E & _)]; auto. injection E as -> _. discriminate Y.
           ++ f_equal. apply IH. intros S. apply H. now apply snake_cons.
        -- intros u z t' E. destruct (key_in_head y t) as [t2 Ht]. rewrite Ht in E.
           injection E as <- _. rewrite Y, andb_false_r. reflexivity.
    + rewrite key_out_cons.
      * split; intros H.
        -- injection H as H. apply IH in H. intros S. apply snake_inv in S.
           destruct S as [S|(z & b & E & Q & _)]; auto. congruence.
        -- f_equal. apply IH. intros S. apply H. now apply snake_cons.
      * intros u z t' E. rewrite X. reflexivity.
Qed.

(** Converting in and back out gives the key itself exactly for the keys without such a place. *)
Theorem C40_round_trip : forall k,
  key_out udigit (key_in udigit k) = k <-> ~ snake udigit k.
Proof. intros k. apply (key_round_aux (length k)). lia. Qed.

(** On these keys nothing collides. *)
Theorem C40_injective : forall k k',
  ~ snake udigit k -> ~ snake udigit k' -> key_in udigit k = key_in udigit k' -> k = k'.
Proof.
  intros k k' H H' E. apply C40_round_trip in H, H'. congruence.
Qed.
End Keys.

(** ** Documents *)

Section Docs.
Variables conv_in conv_out : str -> str.
Variable parse : str -> res json.
Variable show : Z -> str.
Let load := load conv_in parse.
Let json_data := json_data conv_out show.

Lemma json_nested (Q : json -> Prop) :
  (forall j, (forall l, j <> JList l) -> (forall l, j <> JObj l) -> Q j) ->
  (forall l, (forall x, In x l -> Q x) -> Q (JList l)) ->
  (forall l, (forall k x, In (k, x) l -> Q x) -> Q (JObj l)) ->
  forall j, Q j.
Proof.
  intros Ha Hl Ho. fix F 1. intros j. destruct j as [|b|z|n|s|l|l];
    try (apply Ha; intros; discriminate).
  - apply Hl. induction l as [|y t IH]; [intros x []|].
    intros x [<-|H]; [apply F|exact (IH _ H)].
  - apply Ho. induction l as [|[k y] t IH]; [intros k x []|].
    intros k' x [E|H]; [injection E as <- <-; apply F|exact (IH _ _ H)].
Qed.

Lemma plain_same j :
  (forall z, int_in z j -> (Z.abs z <= 2 ^ 50)%Z) -> plain_json show j = j.
Proof.
  induction j as [j H1 H2|l IH|l IH] using json_nested; intros H.
  - destruct j; auto; try (exfalso; eapply H1 + eapply H2; reflexivity).
    cbn [plain_json]. destruct (Z.ltb_spec (2 ^ 50) (Z.abs z)); auto.
    specialize (H z (int_here z)). lia.
  - cbn [plain_json]. f_equal. rewrite <- (map_id l) at 2. apply map_ext_in.
    intros x I. apply IH; auto. intros z Z. apply H. eapply int_list; eauto.
  - cbn [plain_json]. f_equal. rewrite <- (map_id l) at 2. apply map_ext_in.
    intros [k x] I. simpl. f_equal. apply (IH k x I). intros z Z. apply H. eapply int_obj; eauto.
Qed.

Lemma mapm_exists {A B} (f : A -> res B) (R : A -> B -> Prop) l :
  (forall x, In x l -> exists y, f x = Ok y /\ R x y) ->
  exists l', mapm f l = Ok l' /\ Forall2 R l l'.
Proof.
  induction l as [|x t IH]; intros H; simpl; [eauto|].
  destruct (H x (or_introl eq_refl)) as (y & -> & Ry).
  destruct IH as (l' & -> & F); [intros; apply H; simpl; auto|].
  simpl. eauto.
Qed.

Lemma dset_fresh {A} k (a : A) l : ~ In k (map fst l) -> dset k a l = l ++ [(k, a)].
Proof.
  induction l as [|[k' a'] t IH]; simpl; auto. intros H.
  destruct (str_eqb k k') eqn:E; [apply str_eqb_eq in E; subst; tauto|].
  rewrite IH; auto.
Qed.

Lemma dict_of_pairs_same {A} (l : list (str * A)) :
  NoDup (map fst l) -> dict_of_pairs l = l.
Proof.
  unfold dict_of_pairs. intros N.
  enough (G : forall l acc, NoDup (map fst (acc ++ l)) ->
    fold_left (fun d (kv : str * A) => dset (fst kv) (snd kv) d) l acc = acc ++ l)
    by (apply (G l []); exact N).
  clear. induction l as [|[k a] t IH]; intros acc N; simpl; [now rewrite app_nil_r|].
  rewrite dset_fresh.
  - rewrite IH; rewrite <- app_assoc; auto.
  - rewrite map_app in N. simpl in N. apply NoDup_remove_2 in N.
    intros I. apply N. rewrite in_app_iff; auto.
Qed.

Lemma emit_same (l : list (str * json)) (f : str -> str) :
  NoDup (map (fun kv => f (fst kv)) l) ->
  fold_left (fun jd (kv : str * json) =>
     let k := f (fst kv) in
     if existsb (fun e : str * json => str_eqb k (fst e)) jd then jd else jd ++ [(k, snd kv)]) l []
  = map (fun kv => (f (fst kv), snd kv)) l.
Proof.
  intros N.
  enough (G : forall (l acc : list (str * json)),
    NoDup (map fst acc ++ map (fun kv => f (fst kv)) l) ->
    fold_left (fun jd (kv : str * json) =>
     let k := f (fst kv) in
     if existsb (fun e : str * json => str_eqb k (fst e)) jd then jd else jd ++ [(k, snd kv)]) l acc
    = acc ++ map (fun kv => (f (fst kv), snd kv)) l)
    by (apply (G l []); exact N).
  clear. induction l as [|[k j] t IH]; intros acc N; [cbn; now rewrite app_nil_r|].
  cbn [fold_left map fst snd].
  assert (E : existsb (fun e : str * json => str_eqb (f k) (fst e)) acc = false).
  { apply not_true_iff_false. rewrite existsb_exists. intros ([k' j'] & I & E).
    apply str_eqb_eq in E. simpl in E. apply NoDup_remove_2 in N. apply N.
    rewrite in_app_iff. left. apply in_map_iff. exists (k', j'); auto. }
  cbn zeta. rewrite E, IH.
  - rewrite <- app_assoc. reflexivity.
  - rewrite map_app, <- app_assoc. exact N.
Qed.

Variable okkey : str -> Prop.
Hypothesis back : forall k, okkey k -> conv_out (conv_in k) = k.

(** [fold_right max] *)
Lemma max_in {A} (f : A -> nat) l x :
  In x l -> f x <= fold_right (fun y m => max (f y) m) 0 l.
Proof.
  induction l as [|y t IH]; simpl; [tauto|]. intros [->|H]; [lia|]. specialize (IH H). lia.
Qed.

Lemma doc_round_aux n : forall j, document okkey j -> depth j <= n ->
  exists a, auto_record conv_in parse (upgrade conv_in parse n) j = Ok a /\ json_data a = j.
Proof.
  induction n as [n IH] using lt_wf_ind. intros j D L.
  destruct D as [l N V]. unfold auto_record.
  destruct (mapm_exists
    (fun kv => do a <- upgrade conv_in parse n (snd kv); Ok (conv_in (fst kv), a))
    (fun kv ka => fst ka = conv_in (fst kv) /\ (forall u, snd ka <> ARec u) /\ json_data (snd ka) = snd kv)
    l) as (l' & E & F).
  { intros [k v] I. cbn [fst snd]. destruct (V k v I) as [_ DV].
    assert (L' : depth v < n).
    { cbn [depth] in L. pose proof (max_in (fun kv => depth (snd kv)) l (k, v) I). simpl in H. lia. }
    destruct n as [|m]; [lia|]. cbn [upgrade].
    assert (Pl : forall v, (forall z, int_in z v -> (Z.abs z <= 2 ^ 50)%Z) ->
       exists y, Ok (conv_in k, ALeaf v) = Ok y /\ fst y = conv_in k /\ (forall u, snd y <> ARec u)
                 /\ json_data (snd y) = v).
    { intros w W. eexists; split; [reflexivity|]. split; [reflexivity|]. split; [discriminate|].
      simpl. now apply plain_same. }
    destruct DV as [v S NO NS|items NE Items].
    - destruct v as [|b|z|f|s|items|l0]; try (apply Pl; exact S).
      + destruct items as [|x t]; [apply Pl; exact S|].
        destruct (is_obj x) eqn:O; [|apply Pl; exact S].
        exfalso. apply NS. destruct x; try discriminate. eexists; eexists; reflexivity.
      + exfalso. eapply NO; reflexivity.
    - destruct items as [|x t]; [congruence|].
      assert (O : is_obj x = true) by (destruct (Items x (or_introl eq_refl)); reflexivity).
      rewrite O.
      destruct (mapm_exists
        (fun y => match auto_record conv_in parse (upgrade conv_in parse m) y with
                  | Ok a => Ok a | Err _ => Err CollItemCoerceErr end)
        (fun y a => json_data a = y) (x :: t)) as (l' & E & F).
      { intros y I'. destruct (IH m ltac:(lia) y (Items y I')) as (a & Ea & Ja).
        - cbn [depth] in L'. pose proof (max_in depth (x :: t) y I'). lia.
        - rewrite Ea. eauto. }
      rewrite E. cbn [bind]. eexists; split; [reflexivity|]. split; [reflexivity|].
      split; [discriminate|]. unfold json_data. cbn [snd AutoModel.json_data]. f_equal.
      clear - F. induction F; simpl; f_equal; auto. }
  rewrite E. cbn [bind]. eexists; split; [reflexivity|].
  assert (KE : map fst l' = map (fun kv => conv_in (fst kv)) l).
  { clear - F. induction F as [|? ? ? ? [H _]]; simpl; f_equal; auto. }
  assert (BK : forall k, In k (map fst l) -> conv_out (conv_in k) = k).
  { intros k I. apply in_map_iff in I as ([k' v] & <- & I). apply back. apply (V k' v I). }
  assert (ND : NoDup (map fst l')).
  { rewrite KE. rewrite <- (map_map fst conv_in).
    clear - N BK. induction (map fst l) as [|k t IH]; simpl; [constructor|].
    inversion N; subst. constructor; [|apply IH; auto; intros; apply BK; simpl; auto].
    intros I. apply in_map_iff in I as (k' & E & I). apply H1.
    rewrite <- (BK k), <- E, BK by (simpl; auto). exact I. }
  rewrite dict_of_pairs_same by auto. unfold json_data. cbn [AutoModel.json_data].
  rewrite emit_same.
  - rewrite map_map. cbn [fst snd]. f_equal.
    assert (BK' : forall kv, In kv l -> conv_out (conv_in (fst kv)) = fst kv).
    { intros kv I. apply BK. now apply in_map. }
    clear - F BK'. revert BK'. induction F as [|[k v] [k' a] t t' (H1 & H2 & H3) F IH]; intros BK; auto.
    cbn [map fst snd] in *. f_equal.
    + subst k'. pose proof (BK (k, v) (or_introl eq_refl)) as B. cbn [fst] in B. rewrite B. f_equal.
      rewrite <- H3. destruct a; try reflexivity. exfalso. eapply H2; reflexivity.
    + apply IH. intros; apply BK; simpl; auto.
  - rewrite map_map. cbn [fst]. rewrite <- (map_map fst conv_out), KE, <- (map_map fst conv_in), map_map.
    assert (Q : map (fun x => conv_out (conv_in x)) (map fst l) = map fst l).
    { rewrite <- (map_id (map fst l)) at 2. apply map_ext_in. exact BK. }
    rewrite Q. exact N.
Qed.
End Docs.

(** A document whose keys are reversible, of data and lists of documents, comes back unchanged. *)
Theorem C40_documents : forall udigit parse show doc n,
  document (fun k => ~ snake udigit k) doc -> depth doc <= n ->
  exists a, load (key_in udigit) parse n doc = Ok a /\ json_data (key_out udigit) show a = doc.
Proof.
  intros udigit parse show doc n D L. unfold load.
  eapply doc_round_aux; eauto. intros k H. now apply C40_round_trip.
Qed.

(** The non-converting variant preserves all keys. *)
Theorem C40_nc_documents : forall parse show doc n,
  document (fun _ => True) doc -> depth doc <= n ->
  exists a, load (fun k => k) parse n doc = Ok a /\ json_data (fun k => k) show a = doc.
Proof.
  intros parse show doc n D L. unfold load. eapply doc_round_aux; eauto.
Qed.

(** ** Findings *)

(** Two keys collide and one of the values is lost. *)
Theorem C40_collision_refuted : exists udigit k k' parse show,
  k <> k' /\ key_in udigit k = key_in udigit k' /\
  forall n x y, exists a,
    load (key_in udigit) parse (S n) (JObj [(k, JBool x); (k', JBool y)]) = Ok a /\
    json_data (key_out udigit) show a = JObj [(k, JBool y)].
Proof.
  exists (fun _ => false), (s2l "fooBar"), (s2l "foo_bar"), (fun _ => Err ValueErr), (fun _ => []).
  split; [discriminate|]. split; [reflexivity|]. intros n x y.
  eexists; split; [reflexivity|reflexivity].
Qed.

(** An object directly inside an object is emitted empty, whatever it contained: its keys are all
    unknown and [to_json], unlike [json_data], leaves unknown keys out. *)
Theorem C40_nested_object_lost : forall conv_in conv_out parse show n k l a,
  load conv_in parse n (JObj [(k, JObj l)]) = Ok a ->
  json_data conv_out show a = JObj [(conv_out (conv_in k), JObj [])].
Proof.
  intros ci co parse show n k l a. unfold load. destruct n as [|n]; [discriminate|].
  cbn -[json_data dict_of_pairs].
  destruct (mapm _ l) as [l'|e]; cbn -[json_data dict_of_pairs]; [|discriminate].
  intros H. injection H as <-. reflexivity.
Qed.

(** Even the non-converting variant does not give back a nested object. *)
Theorem C40_nested_refuted : exists doc, forall parse show n,
  exists a, load (fun k => k) parse (2 + n) doc = Ok a /\ json_data (fun k => k) show a <> doc.
Proof.
  exists (JObj [(s2l "a", JObj [(s2l "b", JNull)])]). intros parse show n.
  eexists; split; [reflexivity|]. cbn. discriminate.
Qed.

(** A list which starts with an object and goes on with a number cannot be loaded; with null instead,
    the null becomes an empty object. *)
Theorem C40_mixed_list_refuted : forall conv_in conv_out parse show n,
  load conv_in parse (2 + n) (JObj [(s2l "a", JList [JObj []; JInt 5])]) = Err CollItemCoerceErr /\
  exists a, load conv_in parse (2 + n) (JObj [(s2l "a", JList [JObj []; JNull])]) = Ok a /\
    json_data conv_out show a = JObj [(conv_out (conv_in (s2l "a")), JList [JObj []; JObj []])].
Proof.
  intros. split; [reflexivity|]. eexists; split; [reflexivity|reflexivity].
Qed.

(** ** Examples *)

Definition no_digits : N -> bool := fun _ => false.
Example C40_key_case :
  key_in no_digits (s2l "crrAaack9Yow_B") = s2l "crr_aaack9_yow_B" /\
  key_out no_digits (s2l "crr_aaack9_yow_B") = s2l "crrAaack9Yow_B" /\
  key_in no_digits (s2l "aB_c") = s2l "a_b_c" /\ key_out no_digits (s2l "a_b_c") = s2l "aB_c".
Proof. repeat split; vm_compute; reflexivity. Qed.
Example C40_snake_case : snake no_digits (s2l "foo_bar") /\ ~ snake no_digits (s2l "fooBar_Baz_1").
Proof.
  split.
  - exists (s2l "fo"), 111%N, 98%N, (s2l "ar"). split; [reflexivity|].
    split; [left; unfold lower_letter; lia|unfold lower_letter; lia].
  - apply C40_round_trip. vm_compute. reflexivity.
Qed.

Definition ex_doc : json :=
  JObj [(s2l "kerSploosh", JStr (s2l "zlonk")); (s2l "ouchEth", JList [JStr (s2l "bap"); JInt 5]);
        (s2l "whamEth", JList [JObj [(s2l "ripA", JInt 7)]; JObj []])].
Example C40_document_case : document (fun k => ~ snake no_digits k) ex_doc /\ depth ex_doc = 3.
Proof.
  assert (K : forall k, key_out no_digits (key_in no_digits k) = k -> ~ snake no_digits k)
    by (intros k; apply C40_round_trip).
  assert (PI : forall z w, int_in z (JInt w) -> z = w) by (intros z w H; inversion H; auto).
  split; [|reflexivity]. apply doc.
  - repeat constructor; simpl; intuition discriminate.
  - intros k v [E|[E|[E|[]]]]; injection E as <- <-; split; try (apply K; vm_compute; reflexivity).
    + apply dv_plain; try discriminate.
      * intros z H. inversion H.
      * intros (l & t & E); discriminate.
    + apply dv_plain; try discriminate.
      * intros z H. inversion H as [|l x I J|]; subst. simpl in I.
        destruct I as [<-|[<-|[]]]; [inversion J|]. apply PI in J. subst. vm_compute. discriminate.
      * intros (l & t & E); discriminate.
    + apply dv_list; [discriminate|]. intros x [<-|[<-|[]]]; apply doc;
        try (repeat constructor; simpl; tauto); simpl; try tauto.
      intros k v [E|[]]. injection E as <- <-. split; [apply K; vm_compute; reflexivity|].
      apply dv_plain; try discriminate.
      * intros z H. apply PI in H. subst. vm_compute. discriminate.
      * intros (l & t & E); discriminate.
Qed.

Print Assumptions C40_round_trip.
Print Assumptions C40_injective.
Print Assumptions C40_documents.
Print Assumptions C40_nc_documents.
Print Assumptions C40_collision_refuted.
Print Assumptions C40_nested_object_lost.
Print Assumptions C40_nested_refuted.
Print Assumptions C40_mixed_list_refuted.
