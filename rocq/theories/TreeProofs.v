(** Lemmas about get, put, post and delete on object trees. *)
From Coq Require Import List Arith NArith ZArith Bool Lia.
From Verif Require Import Prelude SelPathModel FSModel FSProofs PySeq CollProofs TreeModel.
Import ListNotations.

Section Seq.
Context {X : Type}.
Implicit Types l : list X.

Lemma norm_index_some n i k : norm_index n i = Some k -> (k < n)%nat /\
  Z.of_nat k = (if (i <? 0)%Z then i + Z.of_nat n else i)%Z.
Proof.
  unfold norm_index. destruct (_ && _) eqn:E; [|discriminate]. intros H; inversion H; subst.
  apply andb_true_iff in E as [E1 E2]. apply Z.leb_le in E1. apply Z.ltb_lt in E2. lia.
Qed.

Lemma length_upd l k x : (k < length l)%nat -> length (firstn k l ++ x :: skipn (S k) l) = length l.
Proof. intros H. rewrite app_length, firstn_length_le by lia. cbn [length]. rewrite skipn_length. lia. Qed.

Lemma nth_upd l k x j : (k < length l)%nat ->
  nth_error (firstn k l ++ x :: skipn (S k) l) j = if Nat.eqb j k then Some x else nth_error l j.
Proof.
  intros H. destruct (Nat.eqb_spec j k) as [->|N].
  - rewrite nth_error_app2; rewrite firstn_length_le by lia; [|lia]. now rewrite Nat.sub_diag.
  - destruct (Nat.lt_ge_cases j k).
    + rewrite nth_error_app1 by (rewrite firstn_length_le; lia).
      rewrite <- (firstn_skipn k l) at 2. rewrite nth_error_app1; auto. rewrite firstn_length_le; lia.
    + rewrite nth_error_app2 by (rewrite firstn_length_le; lia). rewrite firstn_length_le by lia.
      replace (j - k)%nat with (S (j - S k)) by lia. cbn [nth_error].
      rewrite <- (firstn_skipn (S k) l) at 2. rewrite nth_error_app2 by (rewrite firstn_length_le; lia).
      rewrite firstn_length_le by lia. reflexivity.
Qed.

Lemma upd_same l k x : nth_error l k = Some x -> firstn k l ++ x :: skipn (S k) l = l.
Proof.
  revert k. induction l as [|y t IH]; intros [|k] H; simpl in *; try discriminate.
  - now inversion H.
  - f_equal. apply IH. exact H.
Qed.

Lemma seq_get_inv l i x : seq_get l i = Ok x ->
  exists k, norm_index (length l) i = Some k /\ nth_error l k = Some x.
Proof.
  unfold seq_get. destruct (norm_index _ _) as [k|]; [|discriminate].
  destruct (nth_error l k) eqn:E; [|discriminate]. intros H; inversion H; subst. eauto.
Qed.

Lemma seq_get_err l i e : seq_get l i = Err e -> e = IndexErr.
Proof.
  unfold seq_get. destruct (norm_index _ _) as [k|]; [|congruence].
  destruct (nth_error l k); congruence.
Qed.

Lemma seq_set_get_same l i x l' : seq_set l i x = Ok l' -> seq_get l' i = Ok x.
Proof.
  unfold seq_set. destruct (norm_index (length l) i) as [k|] eqn:E; [|discriminate].
  intros H; inversion H; subst. pose proof (norm_index_some _ _ _ E) as [Hk _].
  unfold seq_get. rewrite length_upd, E, nth_upd, Nat.eqb_refl by auto. reflexivity.
Qed.

Lemma seq_set_get_other l i x l' j : seq_set l i x = Ok l' -> (0 <= i)%Z -> (0 <= j)%Z -> i <> j ->
  seq_get l' j = seq_get l j.
Proof.
  unfold seq_set. destruct (norm_index (length l) i) as [k|] eqn:E; [|discriminate].
  intros H Hi Hj N; inversion H; subst. pose proof (norm_index_some _ _ _ E) as [Hk Ek].
  replace (i <? 0)%Z with false in Ek by (symmetry; apply Z.ltb_ge; lia).
  unfold seq_get. rewrite length_upd by auto. destruct (norm_index (length l) j) as [m|] eqn:Em; auto.
  pose proof (norm_index_some _ _ _ Em) as [Hm Ej].
  replace (j <? 0)%Z with false in Ej by (symmetry; apply Z.ltb_ge; lia).
  rewrite nth_upd by auto. replace (Nat.eqb m k) with false; auto.
  symmetry. apply Nat.eqb_neq. lia.
Qed.

Lemma seq_set_ok l i x y : seq_get l i = Ok y -> exists l', seq_set l i x = Ok l'.
Proof. intros H. apply seq_get_inv in H as (k&E&_). unfold seq_set. rewrite E. eauto. Qed.

Lemma seq_set_same l i x : seq_get l i = Ok x -> seq_set l i x = Ok l.
Proof.
  intros H. apply seq_get_inv in H as (k&E&Hn). unfold seq_set. rewrite E. now rewrite upd_same.
Qed.

Lemma seq_get_app l i x y : (0 <= i)%Z -> seq_get l i = Ok y -> seq_get (l ++ [x]) i = Ok y.
Proof.
  intros Hi H. apply seq_get_inv in H as (k&E&Hn). apply norm_index_some in E as [Hk E].
  replace (i <? 0)%Z with false in E by (symmetry; apply Z.ltb_ge; lia). subst i.
  rewrite seq_get_nat. rewrite nth_error_app1 by auto. now rewrite Hn.
Qed.

Lemma seq_get_last l x : seq_get (l ++ [x]) (Z.of_nat (length l)) = Ok x.
Proof. rewrite seq_get_nat, nth_error_app2, Nat.sub_diag by lia. reflexivity. Qed.

End Seq.

Section DictFrame.
Context {K X : Type}.
Variable keqb : K -> K -> bool.
Hypothesis keqb_eq : forall a b, keqb a b = true <-> a = b.
Implicit Types d : list (K * X).

Lemma dict_set_other d k x j : k <> j -> dict_get keqb (dict_set keqb d k x) j = dict_get keqb d j.
Proof.
  intros N. rewrite dict_get_set by auto. destruct (keqb k j) eqn:E; auto.
  apply keqb_eq in E. congruence.
Qed.

Lemma dict_set_this d k x : dict_get keqb (dict_set keqb d k x) k = Some x.
Proof. rewrite dict_get_set by auto. now rewrite keqb_refl. Qed.

Lemma dict_set_same d k x : dict_get keqb d k = Some x -> dict_set keqb d k x = d.
Proof.
  induction d as [|[a b] t IH]; simpl; [discriminate|].
  destruct (keqb a k); intros H; [now inversion H|]. f_equal. auto.
Qed.

Lemma dict_del_other d k j : k <> j -> dict_get keqb (dict_del keqb d k) j = dict_get keqb d j.
Proof.
  intros N. induction d as [|[a b] t IH]; simpl; auto. destruct (keqb a k) eqn:E.
  - apply keqb_eq in E as ->. destruct (keqb k j) eqn:E2; auto. apply keqb_eq in E2. congruence.
  - simpl. destruct (keqb a j); auto.
Qed.

Lemma dict_del_missing d k : dict_get keqb d k = None -> dict_del keqb d k = d.
Proof.
  induction d as [|[a b] t IH]; simpl; auto. destruct (keqb a k); [discriminate|].
  intros H. f_equal. auto.
Qed.

Lemma dict_set_twice d k x y : dict_set keqb (dict_set keqb d k x) k y = dict_set keqb d k y.
Proof.
  induction d as [|[a b] t IH]; simpl.
  - now rewrite keqb_refl.
  - destruct (keqb a k) eqn:E; simpl; rewrite E; auto. f_equal. auto.
Qed.
End DictFrame.

Section Tree.
Context {A C T : Type}.
Variable a_none : A.
Variable a_key : elem -> A.
Variable a_str : A -> bool.
Variable a_indexable : A -> bool.
Variable a_item : A -> elem -> res A.
Variable a_attr : A -> str -> option A.
Variable a_iter : A -> res (list A).
Variable a_len : A -> Z.
Variable unset : C -> str -> option A.
Variable store : C -> str -> obj A C -> res (obj A C).
Variable erase : C -> str -> bool -> option exn.
Variable istore : C -> obj A C -> res (obj A C).
Variable itemtype : C -> res T.
Variable valuetype : C -> str -> res T.
Variable call : T -> option (str * obj A C) -> res (obj A C).

Notation obj := (obj A C).
Notation try_index := (try_index (C:=C) a_str a_indexable).
Notation item := (item (C:=C) a_item).
Notation attr := (attr a_attr unset).
Notation iter := (iter (C:=C) a_key a_iter).
Notation step := (step a_str a_indexable a_item a_attr unset).
Notation put_step := (put_step a_str a_indexable a_item a_attr unset).
Notation get := (get a_none a_key a_str a_indexable a_item a_attr a_iter unset).
Notation put_last := (put_last a_key a_str a_indexable a_iter store istore).
Notation put := (put a_key a_str a_indexable a_item a_attr a_iter unset store istore).
Notation del_last := (del_last a_str a_indexable a_attr unset erase).
Notation delete := (delete a_key a_str a_indexable a_item a_attr a_iter unset erase).
Notation viv := (viv a_str a_indexable a_item a_attr a_len unset store istore itemtype valuetype call).
Notation post := (post a_key a_str a_indexable a_item a_attr a_iter a_len unset store istore itemtype valuetype call).
Notation new_item := (new_item istore itemtype call).
Notation make := (make call).

Definition named (s : elem) : Prop := s <> ENone.
(** a subscript or name that names one place only: not a wildcard, not counted from the end *)
Definition plain (s : elem) : Prop :=
  match s with EStr _ => True | EInt i => (0 <= i)%Z | ENone => False end.

Lemma plain_named s : plain s -> named s.
Proof. destruct s; simpl; unfold named; try discriminate. tauto. Qed.

Lemma get_cons s t o : named s -> get (s :: t) o = do x <- step o s; get t x.
Proof. destruct s; auto. intros []; auto. Qed.

Lemma get_app p q o : Forall named p -> get (p ++ q) o = do x <- get p o; get q x.
Proof.
  intros H. revert o. induction H as [|s t Hs Ht IH]; intros o; [reflexivity|].
  cbn [app]. rewrite !get_cons by auto. destruct (step o s); simpl; auto.
Qed.

Lemma put_step_ok o s x : put_step o s = Ok x <-> step o s = Ok x.
Proof.
  unfold TreeModel.put_step, TreeModel.step. destruct (try_index o s).
  - destruct (item o s) as [y|[]]; split; auto; discriminate.
  - destruct (attr o s) as [y|e]; [tauto|]. destruct (is_attr_err e); split; discriminate.
Qed.

Lemma step_atom a s x : step (OAtom a) s = Ok x -> exists b, x = OAtom b.
Proof.
  unfold TreeModel.step. destruct (try_index (OAtom a) s); simpl.
  - destruct (a_item a s) as [b|[]]; intros H; inversion H; eauto.
  - destruct s as [n|i|]; simpl.
    + destruct (a_attr a n); simpl; intros H; inversion H; eauto.
    + simpl. discriminate.
    + discriminate.
Qed.

(** ** Children *)

Definition is_atom (o : obj) : Prop := exists a, o = OAtom a.

(** where the child at [s] comes from *)
Lemma step_cases o s x : named s -> step o s = Ok x ->
  (is_atom x /\ forall y, replace o s y = o) \/
  (exists c xs i, o = OList c xs /\ s = EInt i /\ seq_get xs i = Ok x) \/
  (exists c kvs, o = ODict c kvs /\ dict_get elem_eqb kvs s = Some x) \/
  (exists c sl n, o = ORec c sl /\ s = EStr n /\ dict_get str_eqb sl n = Some x).
Proof.
  intros N H. destruct o as [a|c sl|c xs|c kvs].
  - apply step_atom in H as [b ->]. left. split; [exists b; auto|]. reflexivity.
  - unfold TreeModel.step in H. destruct s as [n|i|]; simpl in H; [|discriminate|now destruct N].
    destruct (dict_get str_eqb sl n) eqn:E.
    + inversion H; subst. right; right; right. exists c, sl, n. auto.
    + destruct (unset c n) as [b|]; inversion H; subst. left. split; [exists b; auto|].
      intros y. simpl. now rewrite E.
  - unfold TreeModel.step in H. destruct s as [n|i|]; simpl in H; try discriminate.
    right; left. exists c, xs, i. repeat split; auto.
    destruct (seq_get xs i) as [y|[]]; inversion H; auto.
  - unfold TreeModel.step in H. 
    assert (E : try_index (ODict c kvs) s = true) by (destruct s; reflexivity). rewrite E in H. simpl in H.
    destruct (dict_get elem_eqb kvs s) eqn:G; inversion H; subst. right; right; left. eauto.
Qed.

Lemma try_index_replace o s x b : try_index (replace o s x) b = try_index o b.
Proof.
  unfold TreeModel.try_index. destruct o as [a|c sl|c xs|c kvs]; auto; simpl.
  - destruct s; auto. destruct (dict_get str_eqb sl s); auto.
  - destruct s; auto. destruct (seq_set xs z x); auto.
Qed.

Lemma step_replace o s x x' : named s -> step o s = Ok x -> (is_atom x -> x' = x) ->
  step (replace o s x') s = Ok x'.
Proof.
  intros N H At. destruct (step_cases o s x N H) as [[Ha R]|[(c&xs&i&->&->&G)|[(c&kvs&->&G)|(c&sl&n&->&->&G)]]].
  - rewrite R, (At Ha). exact H.
  - simpl. destruct (seq_set_ok xs i x' x G) as [ys E]. rewrite E.
    apply seq_set_get_same in E. unfold TreeModel.step. simpl. now rewrite E.
  - unfold TreeModel.step. rewrite try_index_replace.
    assert (E : try_index (ODict c kvs) s = true) by (destruct s; reflexivity). rewrite E. simpl.
    rewrite dict_set_this by apply elem_eqb_eq. reflexivity.
  - simpl. rewrite G. unfold TreeModel.step. simpl. rewrite dict_set_this by apply str_eqb_eq. reflexivity.
Qed.

Lemma replace_same o s x : named s -> step o s = Ok x -> replace o s x = o.
Proof.
  intros N H. destruct (step_cases o s x N H) as [[Ha R]|[(c&xs&i&->&->&G)|[(c&kvs&->&G)|(c&sl&n&->&->&G)]]].
  - apply R.
  - simpl. now rewrite (seq_set_same _ _ _ G).
  - simpl. now rewrite dict_set_same.
  - simpl. rewrite G. now rewrite dict_set_same.
Qed.

Lemma step_list c xs b : step (OList c xs) b =
  match b with EInt i => match seq_get xs i with Ok x => Ok x | Err e => Err FSKeyErr end | _ => Err TypeErr end.
Proof.
  destruct b; try reflexivity. unfold TreeModel.step. simpl. destruct (seq_get xs z) eqn:E; auto.
  apply seq_get_err in E as ->. reflexivity.
Qed.

Lemma step_dict c kvs b : step (ODict c kvs) b =
  match dict_get elem_eqb kvs b with Some x => Ok x | None => Err KeyErr end.
Proof.
  unfold TreeModel.step. assert (E : try_index (ODict c kvs) b = true) by (destruct b; reflexivity).
  rewrite E. simpl. destruct (dict_get elem_eqb kvs b); auto.
Qed.

Lemma step_rec c sl b : step (ORec c sl) b =
  match b with
  | EStr n => match dict_get str_eqb sl n with
              | Some x => Ok x
              | None => match unset c n with Some v => Ok (OAtom v) | None => Err FSAttrErr end
              end
  | _ => Err TypeErr
  end.
Proof.
  destruct b; try reflexivity. unfold TreeModel.step. simpl. destruct (dict_get str_eqb sl s); auto.
  destruct (unset c s); auto.
Qed.

(** changing one child leaves the others *)
Lemma step_replace_other o s x b : plain s -> plain b -> s <> b ->
  step (replace o s x) b = step o b.
Proof.
  intros Ps Pb N. destruct o as [a|c sl|c xs|c kvs]; simpl.
  - reflexivity.
  - destruct s as [n|i|]; auto. destruct (dict_get str_eqb sl n); auto. rewrite !step_rec.
    destruct b as [m|j|]; auto. rewrite dict_set_other; auto using str_eqb_eq. congruence.
  - destruct s as [n|i|]; auto. destruct (seq_set xs i x) as [ys|] eqn:E; auto. rewrite !step_list.
    destruct b as [m|j|]; auto. rewrite (seq_set_get_other _ _ _ _ _ E Ps Pb); auto. congruence.
  - rewrite !step_dict. rewrite dict_set_other; auto using elem_eqb_eq.
Qed.

(** ** put *)

Lemma put_last_atom s v a : exists e, put_last s v (OAtom a) = (Some e, OAtom a).
Proof.
  unfold TreeModel.put_last. destruct s as [n|i|]; simpl; try (now eauto).
  - destruct (try_index (OAtom a) (EStr n)); simpl; eauto.
  - destruct (try_index (OAtom a) (EInt i)); simpl; eauto.
Qed.

Lemma iter_atom a l : iter (OAtom a) = Ok l -> forall x, In x l -> is_atom x.
Proof.
  simpl. destruct (a_iter a) as [u|]; intros H; inversion H; subst.
  intros x Hx. apply in_map_iff in Hx as (b&<-&_). exists b; auto.
Qed.

Lemma put_atom p : forall v a, snd (put p v (OAtom a)) = OAtom a.
Proof.
  induction p as [|s t IH]; intros v a; [reflexivity|]. cbn [TreeModel.put]. destruct t as [|s' t'].
  - destruct (put_last_atom s v a) as [e ->]. reflexivity.
  - assert (G : snd (match put_step (OAtom a) s with
                | Ok x => let (e, x') := put (s' :: t') v x in (e, replace (OAtom a) s x')
                | Err e => (Some e, OAtom a) end) = OAtom a).
    { destruct (put_step (OAtom a) s) as [x|e]; auto. destruct (put (s' :: t') v x). reflexivity. }
    destruct s; auto.
    destruct (iter (OAtom a)); reflexivity.
Qed.

(** a put into something immutable fails *)
Lemma put_atom_fails p : Forall named p -> forall v a, exists e, put p v (OAtom a) = (Some e, OAtom a).
Proof.
  induction 1 as [|s t Hs Ht IH]; intros v a; [simpl; eauto|]. cbn [TreeModel.put]. destruct t as [|s' t'].
  - apply put_last_atom.
  - assert (G : exists e, (match put_step (OAtom a) s with
                | Ok x => let (e, x') := put (s' :: t') v x in (e, replace (OAtom a) s x')
                | Err e => (Some e, OAtom a) end) = (Some e, OAtom a)).
    { destruct (put_step (OAtom a) s) as [x|e] eqn:E; [|eauto].
      apply put_step_ok, step_atom in E as [b ->]. destruct (IH v b) as [e ->]. eauto. }
    destruct s; auto. now destruct Hs.
Qed.

Lemma put_cons s s' t v o : named s -> put (s :: s' :: t) v o =
  match put_step o s with
  | Err e => (Some e, o)
  | Ok x => let (e, x') := put (s' :: t) v x in (e, replace o s x')
  end.
Proof. destruct s; auto. intros []; auto. Qed.

Lemma put_last_named s v o : named s -> put_last s v o =
  if try_index o s then
    match item_set istore o s v with
    | Ok o' => (None, o')
    | Err e => (Some (if is_lookup_err e then FSErr else e), o)
    end
  else
    match attr_set store o s v with
    | Ok o' => (None, o')
    | Err e => (Some (if is_attr_err e then FSErr else e), o)
    end.
Proof. destruct s; auto. intros []; auto. Qed.

Lemma put_last_fail s v o e o' : put_last s v o = (Some e, o') -> o' = o.
Proof.
  unfold TreeModel.put_last. destruct s.
  - destruct (try_index o (EStr s)); [destruct (item_set _ _ _ _)|destruct (attr_set _ _ _ _)]; congruence.
  - destruct (try_index o (EInt z)); [destruct (item_set _ _ _ _)|destruct (attr_set _ _ _ _)]; congruence.
  - destruct (slice_set _ _ _); congruence.
Qed.

Lemma put_fail p : Forall named p -> forall v o e o', put p v o = (Some e, o') -> o' = o.
Proof.
  induction 1 as [|s t Hs Ht IH]; intros v o e o' H.
  - simpl in H. congruence.
  - destruct t as [|s' t'].
    + cbn [app TreeModel.put] in H. eapply put_last_fail; eauto.
    + rewrite put_cons in H by auto. destruct (put_step o s) as [x|e1] eqn:E; [|congruence].
      destruct (put (s' :: t') v x) as [e1 x'] eqn:E1. inversion H; subst.
      apply IH in E1 as ->. apply put_step_ok in E. now apply replace_same.
Qed.

(** what a place stores for a value offered to it *)
Inductive slot_stores : obj -> elem -> obj -> obj -> Prop :=
| SS_attr c sl n v v' : store c n v = Ok v' -> slot_stores (ORec c sl) (EStr n) v v'
| SS_list c xs i v v' : istore c v = Ok v' -> slot_stores (OList (Some c) xs) (EInt i) v v'
| SS_dict c kvs k v v' : istore c v = Ok v' -> slot_stores (ODict (Some c) kvs) k v v'
| SS_plain_list xs i v : slot_stores (OList None xs) (EInt i) v v
| SS_plain_dict kvs k v : slot_stores (ODict None kvs) k v v.

Lemma put_last_ok s v o o' : named s -> put_last s v o = (None, o') ->
  exists v', slot_stores o s v v' /\ step o' s = Ok v' /\
    (exists c xs i ys, o = OList c xs /\ s = EInt i /\ seq_set xs i v' = Ok ys /\ o' = OList c ys) \/
    (exists c kvs, o = ODict c kvs /\ o' = ODict c (dict_set elem_eqb kvs s v') /\ slot_stores o s v v' /\ step o' s = Ok v') \/
    (exists c sl n, o = ORec c sl /\ s = EStr n /\ o' = ORec c (dict_set str_eqb sl n v') /\ slot_stores o s v v' /\ step o' s = Ok v').
Proof.
  intros N H. rewrite put_last_named in H by auto. destruct o as [a|c sl|c xs|c kvs].
  - destruct (put_last_atom s v a) as [e E]. rewrite put_last_named in E by auto.
    rewrite E in H. discriminate.
  - destruct s as [n|i|]; simpl in H.
    + destruct (store c n v) as [v'|] eqn:E; simpl in H; inversion H; subst.
      exists v'. right; right. exists c, sl, n. repeat split; auto; [now constructor|].
      rewrite step_rec. rewrite dict_set_this by apply str_eqb_eq. reflexivity.
    + discriminate.
    + now destruct N.
  - destruct s as [n|i|].
    + simpl in H. destruct (coll_store istore c v); discriminate.
    + unfold TreeModel.try_index in H. simpl in H.
      destruct (coll_store istore c v) as [v'|] eqn:E; simpl in H; [|discriminate].
      destruct (seq_set xs i v') as [ys|] eqn:E2; simpl in H; inversion H; subst.
      exists v'. left. split; [|split].
      * destruct c; simpl in E; [now constructor|inversion E; subst; constructor].
      * rewrite step_list. apply seq_set_get_same in E2. now rewrite E2.
      * exists c, xs, i, ys. auto.
    + now destruct N.
  - assert (E : try_index (ODict c kvs) s = true) by (destruct s; reflexivity). rewrite E in H. simpl in H.
    destruct (coll_store istore c v) as [v'|] eqn:E1; simpl in H; inversion H; subst.
    exists v'. right; left. exists c, kvs. repeat split; auto.
    + destruct c; simpl in E1; [now constructor|inversion E1; subst; constructor].
    + rewrite step_dict. rewrite dict_set_this by apply elem_eqb_eq. reflexivity.
Qed.

Lemma put_last_get s v o o' : named s -> put_last s v o = (None, o') ->
  exists v', slot_stores o s v v' /\ step o' s = Ok v'.
Proof.
  intros N H. apply put_last_ok in H as (v'&[(S_&G&_)|[(c&kvs&_&_&S_&G)|(c&sl&n&_&_&_&S_&G)]]); eauto.
Qed.

Lemma put_last_other s v o r o' b : plain s -> plain b -> s <> b ->
  put_last s v o = (r, o') -> step o' b = step o b.
Proof.
  intros Ps Pb N H. destruct r as [e|].
  - now apply put_last_fail in H as ->.
  - apply put_last_ok in H as (v'&[(_&_&c&xs&i&ys&->&->&E&->)|[(c&kvs&->&->&_)|(c&sl&n&->&->&->&_)]]);
      [| | |now apply plain_named].
    + rewrite !step_list. destruct b as [m|j|]; auto.
      rewrite (seq_set_get_other _ _ _ _ _ E Ps Pb); auto. congruence.
    + rewrite !step_dict. rewrite dict_set_other; auto using elem_eqb_eq.
    + rewrite !step_rec. destruct b as [m|j|]; auto. rewrite dict_set_other; auto using str_eqb_eq. congruence.
Qed.

Lemma put_atom_same p v x e x' : put p v x = (e, x') -> is_atom x -> x' = x.
Proof. intros H [a ->]. pose proof (put_atom p v a) as G. rewrite H in G. auto. Qed.

Lemma put_get p : forall s v o o', Forall named p -> named s ->
  put (p ++ [s]) v o = (None, o') ->
  exists h v', get p o = Ok h /\ slot_stores h s v v' /\ get (p ++ [s]) o' = Ok v'.
Proof.
  induction p as [|a t IH]; intros s v o o' Hp Hs H.
  - cbn [app TreeModel.put] in H. apply put_last_get in H as (v'&S_&G); auto. exists o, v'. repeat split; auto.
    cbn [app]. rewrite get_cons by auto. rewrite G. reflexivity.
  - inversion Hp; subst. assert (E : exists x u, t ++ [s] = x :: u) by (destruct t; simpl; eauto).
    cbn [app] in H |- *. destruct E as (s'&u&E). rewrite E in *. rewrite put_cons in H by auto.
    destruct (put_step o a) as [x|e] eqn:Ea; [|discriminate]. apply put_step_ok in Ea.
    destruct (put (s' :: u) v x) as [e x'] eqn:Ex. inversion H; subst. rewrite <- E in Ex.
    pose proof (put_atom_same _ _ _ _ _ Ex) as At.
    apply IH in Ex as (h&v'&G1&G2&G3); auto. exists h, v'. repeat split; auto.
    + rewrite get_cons by auto. rewrite Ea. exact G1.
    + rewrite get_cons by auto. rewrite (step_replace _ _ _ _ H2 Ea At). rewrite <- E. exact G3.
Qed.

Lemma put_frame c : forall a p b q v o r o', Forall named c -> plain a -> plain b -> a <> b ->
  put (c ++ a :: p) v o = (r, o') -> get (c ++ b :: q) o' = get (c ++ b :: q) o.
Proof.
  induction c as [|s t IH]; intros a p b q v o r o' Hc Pa Pb N H.
  - cbn [app] in *. rewrite !get_cons by (now apply plain_named).
    assert (E : step o' b = step o b); [|now rewrite E].
    destruct p as [|s' u].
    + exact (put_last_other a v o r o' b Pa Pb N H).
    + rewrite put_cons in H by (now apply plain_named). destruct (put_step o a) as [x|e]; [|congruence].
      destruct (put (s' :: u) v x) as [e x']. inversion H; subst. now apply step_replace_other.
  - inversion Hc; subst. cbn [app] in *.
    assert (E : exists x u, t ++ a :: p = x :: u) by (destruct t; simpl; eauto).
    destruct E as (s'&u&E). rewrite E in H. rewrite put_cons in H by auto. rewrite !get_cons by auto.
    destruct (put_step o s) as [x|e] eqn:Es; [|congruence]. apply put_step_ok in Es.
    destruct (put (s' :: u) v x) as [e x'] eqn:Ex. inversion H; subst. rewrite <- E in Ex.
    rewrite (step_replace _ _ _ _ H2 Es (put_atom_same _ _ _ _ _ Ex)), Es. simpl.
    now apply (IH a p b q v x r x').
Qed.

(** ** delete *)

Lemma del_last_atom s a : snd (del_last s (OAtom a)) = OAtom a.
Proof.
  unfold TreeModel.del_last. destruct (try_index (OAtom a) s).
  - destruct s; reflexivity.
  - destruct (attr (OAtom a) s); [destruct s; reflexivity|]. destruct (is_attr_err e); reflexivity.
Qed.

Lemma delete_atom p : forall a, snd (delete p (OAtom a)) = OAtom a.
Proof.
  induction p as [|s t IH]; intros a; [reflexivity|]. cbn [TreeModel.delete]. destruct t as [|s' t'].
  - apply del_last_atom.
  - assert (G : snd (match step (OAtom a) s with
                | Ok x => let (e, x') := delete (s' :: t') x in (e, replace (OAtom a) s x')
                | Err e => (Some e, OAtom a) end) = OAtom a).
    { destruct (step (OAtom a) s) as [x|e]; auto. destruct (delete (s' :: t') x). reflexivity. }
    destruct s; auto. destruct (iter (OAtom a)); reflexivity.
Qed.

Lemma delete_atom_same p x e x' : delete p x = (e, x') -> is_atom x -> x' = x.
Proof. intros H [a ->]. pose proof (delete_atom p a) as G. rewrite H in G. auto. Qed.

Lemma delete_cons s s' t o : named s -> delete (s :: s' :: t) o =
  match step o s with
  | Err e => (Some e, o)
  | Ok x => let (e, x') := delete (s' :: t) x in (e, replace o s x')
  end.
Proof. destruct s; auto. intros []; auto. Qed.

Lemma del_last_fail s o e o' : del_last s o = (Some e, o') -> o' = o.
Proof.
  unfold TreeModel.del_last. destruct (try_index o s).
  - destruct s; [destruct (item_del _ _)|destruct (item_del _ _)|destruct (clear _)]; congruence.
  - destruct (attr o s); [destruct (attr_del _ _ _)|destruct (is_attr_err _)]; congruence.
Qed.

Lemma del_last_cases s o o' : named s -> del_last s o = (None, o') ->
  (step o s = Err FSAttrErr /\ o' = o) \/
  (exists c xs i k, o = OList c xs /\ s = EInt i /\ norm_index (length xs) i = Some k /\
     o' = OList c (firstn k xs ++ skipn (S k) xs)) \/
  (exists c kvs x, o = ODict c kvs /\ dict_get elem_eqb kvs s = Some x /\ o' = ODict c (dict_del elem_eqb kvs s)) \/
  (exists c sl n x, o = ORec c sl /\ s = EStr n /\ step o s = Ok x /\ o' = ORec c (dict_del str_eqb sl n) /\
     erase c n (match dict_get str_eqb sl n with Some _ => true | None => false end) = None).
Proof.
  intros N H. unfold TreeModel.del_last in H. destruct (try_index o s) eqn:Et.
  - assert (E : match item_del o s with Ok o' => (None, o') | Err e => (Some e, o) end = (@None exn, o')).
    { destruct s; auto. now destruct N. }
    clear H. destruct o as [a|c sl|c xs|c kvs]; simpl in E; try discriminate.
    + destruct s; [discriminate| |now destruct N]. unfold seq_del in E.
      destruct (norm_index (length xs) z) as [k|] eqn:Ek; simpl in E; inversion E; subst.
      right; left. exists c, xs, z, k. auto.
    + destruct (dict_get elem_eqb kvs s) eqn:Ek; inversion E; subst.
      right; right; left. exists c, kvs, o. auto.
  - destruct (attr o s) as [x|e] eqn:Ea.
    + unfold TreeModel.attr_del in H. destruct s as [n|i|]; try discriminate.
      destruct o as [a|c sl|c xs|c kvs]; try discriminate.
      right; right; right. exists c, sl, n, x.
      assert (St : step (ORec c sl) (EStr n) = Ok x) by (unfold TreeModel.step; rewrite Et, Ea; auto).
      destruct (erase c n _) eqn:Ee; inversion H; subst. repeat split; auto.
    + left. unfold TreeModel.step. rewrite Et, Ea. destruct (is_attr_err e); inversion H; auto.
Qed.

Lemma delete_fail p : Forall named p -> forall o e o', delete p o = (Some e, o') -> o' = o.
Proof.
  induction 1 as [|s t Hs Ht IH]; intros o e o' H.
  - simpl in H. congruence.
  - destruct t as [|s' t'].
    + cbn [app TreeModel.delete] in H. eapply del_last_fail; eauto.
    + rewrite delete_cons in H by auto. destruct (step o s) as [x|e1] eqn:E; [|congruence].
      destruct (delete (s' :: t') x) as [e1 x'] eqn:E1. inversion H; subst.
      apply IH in E1 as ->. now apply replace_same.
Qed.

(** carrying a statement about the last object down a path *)
Lemma delete_down p : forall s o r o', Forall named p -> delete (p ++ [s]) o = (r, o') ->
  (exists h h', get p o = Ok h /\ del_last s h = (r, h') /\ get p o' = Ok h') \/
  (exists e, get p o = Err e /\ r = Some e /\ o' = o).
Proof.
  induction p as [|a t IH]; intros s o r o' Hp H.
  - cbn [app TreeModel.delete] in H. left. exists o, o'. auto.
  - inversion Hp; subst. cbn [app] in H. rewrite !get_cons by auto.
    assert (E : exists x u, t ++ [s] = x :: u) by (destruct t; simpl; eauto).
    destruct E as (s'&u&E). rewrite E in H. rewrite delete_cons in H by auto.
    destruct (step o a) as [x|e] eqn:Ea; [|right; exists e; inversion H; auto].
    destruct (delete (s' :: u) x) as [e x'] eqn:Ex. inversion H; subst. rewrite <- E in Ex.
    pose proof (delete_atom_same _ _ _ _ Ex) as At. simpl.
    apply IH in Ex as [(h&h'&G1&G2&G3)|(e1&G1&->&->)]; auto.
    + left. exists h, h'. repeat split; auto. 
      rewrite (step_replace _ _ _ _ H2 Ea At). exact G3.
    + right. exists e1. repeat split; auto. now apply replace_same.
Qed.

Lemma del_last_other s o r o' b : plain s -> plain b -> s <> b ->
  (forall c xs, o <> OList c xs) -> del_last s o = (r, o') -> step o' b = step o b.
Proof.
  intros Ps Pb N NL H. destruct r as [e|]; [now apply del_last_fail in H as ->|].
  apply del_last_cases in H as [[_ ->]|[(c&xs&i&k&->&_)|[(c&kvs&x&->&_&->)|(c&sl&n&x&->&->&_&->&_)]]];
    [| | | |now apply plain_named].
  - reflexivity.
  - now destruct (NL c xs).
  - rewrite !step_dict. rewrite dict_del_other; auto using elem_eqb_eq.
  - rewrite !step_rec. destruct b; auto. rewrite dict_del_other; auto using str_eqb_eq. congruence.
Qed.

Lemma delete_frame c : forall a p b q o r o', Forall named c -> plain a -> plain b -> a <> b ->
  (p = [] -> forall k xs, get c o <> Ok (OList k xs)) ->
  delete (c ++ a :: p) o = (r, o') -> get (c ++ b :: q) o' = get (c ++ b :: q) o.
Proof.
  induction c as [|s t IH]; intros a p b q o r o' Hc Pa Pb N NL H.
  - cbn [app] in *. rewrite !get_cons by (now apply plain_named).
    assert (E : step o' b = step o b); [|now rewrite E].
    destruct p as [|s' u].
    + apply (del_last_other a o r o' b); auto. intros k xs ->. now apply (NL eq_refl k xs).
    + rewrite delete_cons in H by (now apply plain_named). destruct (step o a) as [x|e]; [|congruence].
      destruct (delete (s' :: u) x) as [e x']. inversion H; subst. now apply step_replace_other.
  - inversion Hc; subst. cbn [app] in *.
    assert (E : exists x u, t ++ a :: p = x :: u) by (destruct t; simpl; eauto).
    destruct E as (s'&u&E). rewrite E in H. rewrite delete_cons in H by auto. rewrite !get_cons by auto.
    destruct (step o s) as [x|e] eqn:Es; [|inversion H; subst; rewrite Es; auto].
    destruct (delete (s' :: u) x) as [e x'] eqn:Ex. inversion H; subst. rewrite <- E in Ex.
    rewrite (step_replace _ _ _ _ H2 Es (delete_atom_same _ _ _ _ Ex)). simpl.
    apply (IH a p b q x r x'); auto.
    intros E0 k xs G. apply (NL E0 k xs). rewrite get_cons by auto. rewrite Es. exact G.
Qed.

(** *** wildcards *)

Lemma sweep_spec (f : obj -> option exn * obj) xs : forall x,
  (forall r, In r xs -> forall e r', f r = (Some e, r') -> is_fs_exc e = true) ->
  sweep f xs x = (Ok (if existsb (fun r => match f r with (None, _) => true | _ => false end) xs then XFalse
                      else match xs with
                           | [] => x
                           | r :: _ => match f r with (Some e, _) => note_exc x e | _ => XFalse end
                           end),
                  map (fun r => snd (f r)) xs).
Proof.
  induction xs as [|r t IH]; intros x H; cbn [sweep existsb map]; auto.
  destruct (f r) as [[e|] r'] eqn:E.
  - rewrite (H r (or_introl eq_refl) e r' E). rewrite IH by (intros; eapply H; eauto; now right).
    cbn [orb snd]. destruct (existsb _ t) eqn:Ex; [reflexivity|]. destruct t as [|r2 t2]; [reflexivity|].
    cbn [existsb] in Ex. destruct (f r2) as [[e2|] r2'] eqn:E2; [destruct x; reflexivity|discriminate].
  - rewrite IH by (intros; eapply H; eauto; now right). cbn [orb snd].
    destruct (existsb _ t) eqn:Ex; [reflexivity|]. destruct t as [|r2 t2]; [reflexivity|].
    destruct (f r2) as [[e2|] r2'] eqn:E2; reflexivity.
Qed.

Lemma sweep_escape (f : obj -> option exn * obj) xs : forall x e xs', sweep f xs x = (Err e, xs') -> is_fs_exc e = false.
Proof.
  induction xs as [|r t IH]; intros x e xs' H; simpl in H; [discriminate|].
  destruct (f r) as [[e1|] r'].
  - destruct (is_fs_exc e1) eqn:E.
    + destruct (sweep f t (note_exc x e1)) as [o t'] eqn:E1. inversion H; subst. eapply IH; exact E1.
    + inversion H; subst. auto.
  - destruct (sweep f t XFalse) as [o t'] eqn:E1. inversion H; subst. eapply IH; exact E1.
Qed.

Lemma sweep_false (f : obj -> option exn * obj) xs : forall o xs', sweep f xs XFalse = (Ok o, xs') -> o = XFalse.
Proof.
  induction xs as [|r t IH]; intros o xs' H; simpl in H; [congruence|].
  assert (K : forall r' : obj, (let (o, t') := sweep f t XFalse in (o, r' :: t')) = (Ok o, xs') -> o = XFalse).
  { intros r' K. destruct (sweep f t XFalse) as [o1 t']. inversion K; subst. eapply IH. reflexivity. }
  destruct (f r) as [[e1|] r'].
  - destruct (is_fs_exc e1); [|discriminate]. eapply K. exact H.
  - eapply K. exact H.
Qed.

Lemma sweep_all_failed (f : obj -> option exn * obj) xs : (forall r e r', In r xs -> f r = (Some e, r') -> is_fs_exc e = true -> r' = r) ->
  forall x e xs', sweep f xs x = (Ok (XExc e), xs') -> xs' = xs.
Proof.
  induction xs as [|r t IH]; intros Hf x e xs' H; simpl in H; [congruence|].
  destruct (f r) as [[e1|] r'] eqn:Er.
  - destruct (is_fs_exc e1) eqn:Ee; [|discriminate].
    destruct (sweep f t (note_exc x e1)) as [o1 t'] eqn:E1. inversion H; subst. f_equal.
    + eapply Hf; eauto. now left.
    + eapply IH; eauto. intros; eapply Hf; eauto. now right.
  - destruct (sweep f t XFalse) as [o1 t'] eqn:E1. inversion H; subst.
    apply sweep_false in E1. discriminate.
Qed.

Lemma gather_spec (f : obj -> res obj) xs : forall x,
  (forall r, In r xs -> forall e, f r = Err e -> is_fs_exc e = true) ->
  gather a_none f xs x = Ok (map (fun r => match f r with Ok v => v | Err _ => OAtom a_none end) xs,
    if existsb (fun r => match f r with Ok _ => true | _ => false end) xs then XFalse
    else match xs with
         | [] => x
         | r :: _ => match f r with Err e => note_exc x e | _ => XFalse end
         end).
Proof.
  induction xs as [|r t IH]; intros x H; cbn [gather existsb map]; auto.
  destruct (f r) as [v|e] eqn:E.
  - rewrite IH by (intros; eapply H; eauto; now right). cbn [bind orb].
    destruct (existsb _ t); [reflexivity|]. destruct t as [|r2 t2]; [reflexivity|].
    destruct (f r2); reflexivity.
  - rewrite (H r (or_introl eq_refl) e E). rewrite IH by (intros; eapply H; eauto; now right). cbn [bind orb].
    destruct (existsb _ t) eqn:Ex; [reflexivity|]. destruct t as [|r2 t2]; [reflexivity|].
    cbn [existsb] in Ex. destruct (f r2); [discriminate|]. destruct x; reflexivity.
Qed.

Lemma gather_escape (f : obj -> res obj) pre r rest e : (forall x, In x pre -> forall e, f x = Err e -> is_fs_exc e = true) ->
  f r = Err e -> is_fs_exc e = false -> forall x, gather a_none f (pre ++ r :: rest) x = Err e.
Proof.
  intros Hp Hr He. induction pre as [|y t IH]; intros x; simpl.
  - rewrite Hr, He. reflexivity.
  - destruct (f y) as [v|e1] eqn:E.
    + rewrite IH; [reflexivity|]. intros; eapply Hp; eauto. now right.
    + rewrite (Hp y (or_introl eq_refl) e1 E). rewrite IH; [reflexivity|]. intros; eapply Hp; eauto. now right.
Qed.

(** ** post *)

Lemma viv_atom a s kw : (exists e, viv (OAtom a) s kw = VStop e) \/ (exists b, viv (OAtom a) s kw = VThere (OAtom b)).
Proof.
  unfold TreeModel.viv. destruct (try_index (OAtom a) s).
  - simpl. destruct (a_item a s) as [b|e]; [eauto|]. destruct e; simpl; eauto. destruct s; eauto.
  - destruct s as [n|i|]; simpl; eauto. destruct (a_attr a n); simpl; eauto.
Qed.

Lemma post_atom p : forall v a, snd (post p v (OAtom a)) = OAtom a.
Proof.
  induction p as [|s t IH]; intros v a; [reflexivity|]. cbn [TreeModel.post]. destruct t as [|l u].
  - destruct (put_last_atom s v a) as [e ->]. reflexivity.
  - set (kw := match u, l with [], ENone => None | [], _ => Some (l, v) | _, _ => None end).
    assert (G : snd (match viv (OAtom a) s kw with
              | VStop e => (Err e, OAtom a)
              | VThere x => let (r, x') := post (l :: u) v x in (r, replace (OAtom a) s x')
              | VMade o' x => if match kw with Some _ => true | None => false end then (Ok 1, o')
                  else let (r, x') := post (l :: u) v x in (r, replace o' s x')
              | VStay o' => if match kw with Some _ => true | None => false end then (Ok 1, o') else post (l :: u) v o'
              end) = OAtom a).
    { destruct (viv_atom a s kw) as [[e ->]|[b ->]]; [reflexivity|]. destruct (post (l :: u) v (OAtom b)). reflexivity. }
    destruct s; auto. destruct (iter (OAtom a)) as [[|]|]; reflexivity.
Qed.

Lemma post_atom_same p v x r x' : post p v x = (r, x') -> is_atom x -> x' = x.
Proof. intros H [a ->]. pose proof (post_atom p v a) as G. rewrite H in G. auto. Qed.

Definition kwarg (t : list elem) (v : obj) : option (elem * obj) :=
  match t with [ENone] => None | [l] => Some (l, v) | _ => None end.

Lemma post_cons s l u v o : named s -> post (s :: l :: u) v o =
  match viv o s (kwarg (l :: u) v) with
  | VStop e => (Err e, o)
  | VThere x => let (r, x') := post (l :: u) v x in (r, replace o s x')
  | VMade o' x =>
      match kwarg (l :: u) v with
      | Some _ => (Ok 1, o')
      | None => let (r, x') := post (l :: u) v x in (r, replace o' s x')
      end
  | VStay o' => match kwarg (l :: u) v with Some _ => (Ok 1, o') | None => post (l :: u) v o' end
  end.
Proof.
  intros N. assert (E : (match u, l with [], ENone => None | [], _ => Some (l, v) | _, _ => None end) = kwarg (l :: u) v)
    by (destruct u, l; reflexivity).
  destruct s; cbn [TreeModel.post]; rewrite ?E; try (now destruct N);
    (destruct (viv o _ (kwarg (l :: u) v)); auto; destruct (kwarg (l :: u) v); auto).
Qed.

Lemma viv_there o s kw x : viv o s kw = VThere x <-> step o s = Ok x.
Proof.
  unfold TreeModel.viv, TreeModel.step. destruct (try_index o s).
  - destruct (item o s) as [y|e].
    + split; intros H; inversion H; auto.
    + split.
      * destruct e; simpl; try discriminate.
        -- destruct o; try discriminate. destruct (new_item c kw); discriminate.
        -- destruct s; try discriminate. destruct o; try discriminate.
           destruct (_ =? _)%Z; try discriminate. destruct (new_item c kw); discriminate.
        -- destruct o; try discriminate. destruct (new_item c kw); discriminate.
      * destruct e; discriminate.
  - destruct (attr o s) as [y|e].
    + split; intros H; inversion H; auto.
    + destruct (is_attr_err e); split; try discriminate. destruct o; try discriminate.
      destruct s; try discriminate. destruct (valuetype c s); try discriminate.
      destruct (make a kw); try discriminate. destruct (store c s a0); discriminate.
Qed.

Lemma viv_made o s kw o' x : viv o s kw = VMade o' x ->
  (exists c xs, o = OList c xs /\ s = EInt (Z.of_nat (length xs)) /\ new_item c kw = Ok x /\ o' = OList c (xs ++ [x])) \/
  (exists c sl n ty y, o = ORec c sl /\ s = EStr n /\ dict_get str_eqb sl n = None /\ unset c n = None /\
     valuetype c n = Ok ty /\ make ty kw = Ok y /\ store c n y = Ok x /\ o' = ORec c (dict_set str_eqb sl n x)).
Proof.
  unfold TreeModel.viv. destruct (try_index o s).
  - destruct (item o s) as [y|e]; [discriminate|].
    destruct e; simpl; try discriminate.
    + destruct o; try discriminate. destruct (new_item c kw); discriminate.
    + destruct s; try discriminate. destruct o; try discriminate.
      destruct (Z.of_nat (length xs) =? z)%Z eqn:E; try discriminate. apply Z.eqb_eq in E. subst z.
      destruct (new_item c kw) eqn:En; try discriminate. intros H; inversion H; subst.
      left. exists c, xs. auto.
    + destruct o; try discriminate. destruct (new_item c kw); discriminate.
  - destruct (attr o s) as [y|e] eqn:Ea; [discriminate|].
    destruct (is_attr_err e) eqn:Ee; try discriminate. destruct o; try discriminate.
    destruct s; try discriminate. destruct (valuetype c s) as [ty|] eqn:Ev; try discriminate.
    destruct (make ty kw) as [y|] eqn:Em; try discriminate. destruct (store c s y) eqn:Es; try discriminate.
    intros H; inversion H; subst. right. exists c, slots, s, ty, y. simpl in Ea.
    destruct (dict_get str_eqb slots s); [discriminate|]. destruct (unset c s); [discriminate|]. repeat split; auto.
Qed.

Lemma viv_stay o s kw o' : viv o s kw = VStay o' ->
  exists c kvs x, o = ODict c kvs /\ dict_get elem_eqb kvs s = None /\ new_item c kw = Ok x /\
    o' = ODict c (dict_set elem_eqb kvs s x).
Proof.
  unfold TreeModel.viv. destruct (try_index o s).
  - destruct (item o s) as [y|e] eqn:Ei; [discriminate|].
    assert (D : forall c kvs, o = ODict c kvs -> dict_get elem_eqb kvs s = None).
    { intros c kvs ->. simpl in Ei. destruct (dict_get elem_eqb kvs s); [discriminate|auto]. }
    destruct e; simpl; try discriminate.
    + destruct o as [| | |c kvs]; try discriminate. destruct (new_item c kw) as [x|] eqn:En; try discriminate.
      intros H; inversion H; subst. exists c, kvs, x. repeat split; eauto.
    + destruct s; try discriminate. destruct o; try discriminate.
      destruct (_ =? _)%Z; try discriminate. destruct (new_item c kw); discriminate.
    + destruct o as [| | |c kvs]; try discriminate. destruct (new_item c kw) as [x|] eqn:En; try discriminate.
      intros H; inversion H; subst. exists c, kvs, x. repeat split; eauto.
  - destruct (attr o s) as [y|e] eqn:Ea; [discriminate|].
    destruct (is_attr_err e) eqn:Ee; try discriminate. destruct o; try discriminate.
    destruct s; try discriminate. destruct (valuetype c s) as [ty|] eqn:Ev; try discriminate.
    destruct (make ty kw) as [y|] eqn:Em; try discriminate. destruct (store c s y) eqn:Es; discriminate.
Qed.

Lemma viv_made_step o s kw o' x : viv o s kw = VMade o' x -> step o' s = Ok x.
Proof.
  intros H. apply viv_made in H as [(c&xs&->&->&_&->)|(c&sl&n&ty&y&->&->&_&_&_&_&_&->)].
  - rewrite step_list, seq_get_last. reflexivity.
  - rewrite step_rec, dict_set_this by apply str_eqb_eq. reflexivity.
Qed.

Lemma viv_made_new o s kw o' x y : viv o s kw = VMade o' x -> step o s = Ok y -> False.
Proof. intros H G. apply (viv_there o s kw) in G. congruence. Qed.

(** what is there stays when something is made *)
Lemma viv_made_old o s kw o' x b y : plain b -> s <> b -> viv o s kw = VMade o' x ->
  step o b = Ok y -> step o' b = Ok y.
Proof.
  intros Pb N H G. apply viv_made in H as [(c&xs&->&->&_&->)|(c&sl&n&ty&z&->&->&_&_&_&_&_&->)].
  - rewrite step_list in *. destruct b as [m|j|]; auto.
    destruct (seq_get xs j) eqn:E; [|discriminate]. rewrite (seq_get_app _ _ _ _ Pb E). auto.
  - rewrite step_rec in *. destruct b as [m|j|]; auto. rewrite dict_set_other; auto using str_eqb_eq. congruence.
Qed.

Lemma put_last_dict s v c kvs : exists kvs', snd (put_last s v (ODict c kvs)) = ODict c kvs'.
Proof.
  destruct (put_last s v (ODict c kvs)) as [[e|] o'] eqn:E.
  - apply put_last_fail in E as ->. simpl. eauto.
  - destruct s as [n|i|].
    + apply put_last_ok in E as (v'&[(_&_&?&?&?&?&?&_)|[(?&?&H&->&_)|(?&?&?&?&_)]]);
        try discriminate; try (now unfold named).
      inversion H; subst. simpl. eauto.
    + apply put_last_ok in E as (v'&[(_&_&?&?&?&?&?&_)|[(?&?&H&->&_)|(?&?&?&?&_)]]);
        try discriminate; try (now unfold named).
      inversion H; subst. simpl. eauto.
    + unfold TreeModel.put_last, slice_set in E. destruct (coll_store istore c v); discriminate.
Qed.

Lemma post_dict p : forall v c kvs, exists kvs', snd (post p v (ODict c kvs)) = ODict c kvs'.
Proof.
  induction p as [|s t IH]; intros v c kvs; [simpl; eauto|]. destruct t as [|l u].
  - cbn [TreeModel.post]. destruct (put_last_dict s v c kvs) as [kvs' E].
    destruct (put_last s v (ODict c kvs)) as [[]]; simpl in *; eauto.
  - destruct (elem_eq_dec s ENone) as [->|N].
    + cbn [TreeModel.post]. destruct (iter (ODict c kvs)) as [[|]|]; simpl; eauto.
    + rewrite post_cons by auto. destruct (viv (ODict c kvs) s (kwarg (l :: u) v)) as [e|x|o' x|o'] eqn:E.
      * simpl; eauto.
      * destruct (post (l :: u) v x). simpl. eauto.
      * apply viv_made in E as [(?&?&?&_)|(?&?&?&?&?&?&_)]; discriminate.
      * apply viv_stay in E as (c1&kvs1&x&H&_&_&->). inversion H; subst.
        destruct (kwarg (l :: u) v); [simpl; eauto|]. apply IH.
Qed.

(** Every dict met on the path, except at the last two steps, already had its key before. *)
Definition dict_keys_present (p : list elem) (o o' : obj) : Prop :=
  forall p1 k p2 c kvs, p = p1 ++ k :: p2 -> (2 <= length p2)%nat ->
    get p1 o' = Ok (ODict c kvs) -> exists y, get (p1 ++ [k]) o = Ok y.

Lemma kwarg_none l u v : Forall named (l :: u) -> kwarg (l :: u) v = None -> (2 <= length (l :: u))%nat.
Proof.
  intros H. inversion H; subst. destruct u as [|a u]; simpl; [|lia].
  destruct l; try discriminate. now destruct H2.
Qed.

Lemma kwarg_some t v k x : kwarg t v = Some (k, x) -> t = [k] /\ x = v /\ named k.
Proof.
  destruct t as [|a [|b u]]; simpl; try discriminate.
  - destruct a; intros H; inversion H; subst; repeat split; discriminate.
  - destruct a; discriminate.
Qed.

Lemma dkp_not_stay s l u v o o1 r o' : Forall named (s :: l :: u) ->
  viv o s (kwarg (l :: u) v) = VStay o1 -> kwarg (l :: u) v = None -> post (l :: u) v o1 = (r, o') ->
  dict_keys_present (s :: l :: u) o o' -> False.
Proof.
  intros Hp Hv Hk Hpost D. apply viv_stay in Hv as (c&kvs&x&->&Hn&_&->).
  pose proof (post_dict (l :: u) v c (dict_set elem_eqb kvs s x)) as (kvs'&E). rewrite Hpost in E. simpl in E. subst o'.
  inversion Hp; subst. destruct (D [] s (l :: u) c kvs') as [y G].
  - reflexivity.
  - eapply kwarg_none; eauto.
  - reflexivity.
  - cbn [app] in G. rewrite get_cons in G by auto. rewrite step_dict, Hn in G. discriminate.
Qed.

Lemma dkp_there s t o x x' : named s -> step o s = Ok x -> (is_atom x -> x' = x) ->
  dict_keys_present (s :: t) o (replace o s x') -> dict_keys_present t x x'.
Proof.
  intros N Hs At D p1 k p2 c kvs -> Hl G. destruct (D (s :: p1) k p2 c kvs) as [y Gy]; auto.
  - rewrite get_cons by auto. rewrite (step_replace _ _ _ _ N Hs At). exact G.
  - cbn [app] in Gy. rewrite get_cons in Gy by auto. rewrite Hs in Gy. eauto.
Qed.

Lemma dkp_made s t kw o o1 x x' : named s -> viv o s kw = VMade o1 x -> (is_atom x -> x' = x) ->
  dict_keys_present (s :: t) o (replace o1 s x') -> dict_keys_present t x x'.
Proof.
  intros N Hv At D p1 k p2 c kvs -> Hl G. destruct (D (s :: p1) k p2 c kvs) as [y Gy]; auto.
  - rewrite get_cons by auto. rewrite (step_replace _ _ _ _ N (viv_made_step _ _ _ _ _ Hv) At). exact G.
  - cbn [app] in Gy. rewrite get_cons in Gy by auto.
    destruct (step o s) as [z|e] eqn:E; [|discriminate]. exfalso. eapply viv_made_new; eauto.
Qed.

Section Posted.
(** [R v v']: [v'] is what some place keeps of [v]. *)
Variable R : obj -> obj -> Prop.
Hypothesis R_refl : forall v, R v v.
Hypothesis R_store : forall c n v v', store c n v = Ok v' -> R v v'.
Hypothesis R_istore : forall c v v', istore c v = Ok v' -> R v v'.
(** an object made with the keyword argument [n=v], once it is put in its place, has it *)
Hypothesis R_made_attr : forall ty n v x c m x', call ty (Some (n, v)) = Ok x -> store c m x = Ok x' ->
  exists v', step x' (EStr n) = Ok v' /\ R v v'.
Hypothesis R_made_item : forall ty n v x c x', call ty (Some (n, v)) = Ok x -> istore c x = Ok x' ->
  exists v', step x' (EStr n) = Ok v' /\ R v v'.

Lemma slot_stores_R h s v v' : slot_stores h s v v' -> R v v'.
Proof. intros H; inversion H; subst; eauto. Qed.

Lemma new_item_R c k v x : new_item c (Some (k, v)) = Ok x -> exists v', step x k = Ok v' /\ R v v'.
Proof.
  unfold TreeModel.new_item. destruct c as [c|]; [|discriminate].
  destruct (itemtype c) as [ty|]; simpl; [|discriminate]. destruct k as [n|i|]; simpl; try discriminate.
  destruct (call ty (Some (n, v))) as [y|] eqn:E; simpl; [|discriminate]. intros H. eauto.
Qed.

Lemma post_get p : forall v o n o', Forall named p ->
  post p v o = (Ok n, o') -> dict_keys_present p o o' ->
  n = 1%nat /\ exists v', get p o' = Ok v' /\ R v v'.
Proof.
  induction p as [|s t IH]; intros v o n o' Hp H D; [discriminate|].
  inversion Hp; subst. destruct t as [|l u].
  - cbn [TreeModel.post] in H. destruct (put_last s v o) as [[e|] o1] eqn:E; inversion H; subst.
    split; auto. apply put_last_get in E as (v'&Hs&G); auto. exists v'. split; [|eapply slot_stores_R; eauto].
    rewrite get_cons by auto. rewrite G. reflexivity.
  - rewrite post_cons in H by auto. destruct (viv o s (kwarg (l :: u) v)) as [e|x|o1 x|o1] eqn:Ev; [discriminate| | |].
    + destruct (post (l :: u) v x) as [r x'] eqn:Ex. inversion H; subst.
      apply viv_there in Ev. pose proof (post_atom_same _ _ _ _ _ Ex) as At.
      rewrite get_cons by auto. rewrite (step_replace _ _ _ _ H2 Ev At).
      eapply IH; eauto. eapply dkp_there; eauto.
    + pose proof (viv_made_step _ _ _ _ _ Ev) as Hst.
      destruct (kwarg (l :: u) v) as [[k y]|] eqn:Ek.
      * inversion H; subst. split; auto. apply kwarg_some in Ek as (El&->&Nk). rewrite El.
        rewrite get_cons by auto. rewrite Hst. simpl. 
        assert (G : exists v', step x k = Ok v' /\ R v v').
        { apply viv_made in Ev as [(c&xs&->&->&Hn&->)|(c&sl&m&ty&z&->&->&_&_&_&Hm&Hs&->)].
          - eapply new_item_R; eauto.
          - destruct k as [n|i|]; simpl in Hm; try discriminate. eauto. }
        destruct G as (v'&G&HR). exists v'. split; auto. change (get [k] x = Ok v'). rewrite get_cons by auto. rewrite G. reflexivity.
      * destruct (post (l :: u) v x) as [r x'] eqn:Ex. inversion H; subst.
        pose proof (post_atom_same _ _ _ _ _ Ex) as At.
        rewrite get_cons by auto. rewrite (step_replace _ _ _ _ H2 Hst At).
        eapply IH; eauto. eapply dkp_made; eauto.
    + destruct (kwarg (l :: u) v) as [[k y]|] eqn:Ek.
      * inversion H; subst. split; auto. apply kwarg_some in Ek as (El&->&Nk). rewrite El.
        apply viv_stay in Ev as (c&kvs&x&->&_&Hn&->). rewrite get_cons by auto. rewrite step_dict.
        rewrite dict_set_this by apply elem_eqb_eq. apply new_item_R in Hn as (v'&G&HR).
        exists v'. split; auto. change (get [k] x = Ok v'). rewrite get_cons by auto. rewrite G. reflexivity.
      * exfalso. eapply dkp_not_stay; eauto. now rewrite Ek.
Qed.
End Posted.

Lemma put_last_old s v o r o' b y : plain s -> plain b -> s <> b ->
  put_last s v o = (r, o') -> step o b = Ok y -> step o' b = Ok y.
Proof. intros Ps Pb N H G. now rewrite (put_last_other s v o r o' b Ps Pb N H). Qed.

Lemma post_frame c : forall a p b q v o r o' y, Forall named (c ++ a :: p) ->
  plain a -> plain b -> a <> b ->
  post (c ++ a :: p) v o = (r, o') -> dict_keys_present (c ++ a :: p) o o' ->
  get (c ++ b :: q) o = Ok y -> get (c ++ b :: q) o' = Ok y.
Proof.
  induction c as [|s t IH]; intros a p b q v o r o' y Hp Pa Pb N H D G.
  - cbn [app] in *. rewrite get_cons in * by (now apply plain_named).
    destruct (step o b) as [z|e] eqn:Eb; [|discriminate]. simpl in G.
    assert (E : step o' b = Ok z); [|now rewrite E].
    destruct p as [|l u].
    + cbn [TreeModel.post] in H. destruct (put_last a v o) as [[e|] o1] eqn:E1; inversion H; subst.
      * exact (put_last_old _ _ _ _ _ _ _ Pa Pb N E1 Eb).
      * exact (put_last_old _ _ _ _ _ _ _ Pa Pb N E1 Eb).
    + rewrite post_cons in H by (now apply plain_named).
      destruct (viv o a (kwarg (l :: u) v)) as [e|x|o1 x|o1] eqn:Ev.
      * congruence.
      * destruct (post (l :: u) v x) as [r1 x']. inversion H; subst. now rewrite step_replace_other.
      * pose proof (viv_made_old _ _ _ _ _ _ _ Pb N Ev Eb) as E1.
        destruct (kwarg (l :: u) v).
        -- inversion H; subst; auto.
        -- destruct (post (l :: u) v x) as [r1 x']. inversion H; subst. now rewrite step_replace_other.
      * destruct (kwarg (l :: u) v) eqn:Ek.
        -- inversion H; subst. apply viv_stay in Ev as (c&kvs&x&->&_&Hn&->).
           rewrite step_dict in *. rewrite dict_set_other; auto using elem_eqb_eq.
        -- exfalso. eapply dkp_not_stay; eauto. now rewrite Ek.
  - cbn [app] in *. inversion Hp; subst. rewrite get_cons in * by auto.
    destruct (step o s) as [z|e] eqn:Es; [|discriminate]. simpl in G.
    assert (E : exists x u, t ++ a :: p = x :: u) by (destruct t; simpl; eauto).
    destruct E as (l&u&E). rewrite E in H. rewrite post_cons in H by auto.
    apply (viv_there o s (kwarg (l :: u) v)) in Es. rewrite Es in H. apply viv_there in Es.
    destruct (post (l :: u) v z) as [r1 x'] eqn:Ex. inversion H; subst.
    pose proof (post_atom_same _ _ _ _ _ Ex) as At. rewrite <- E in Ex.
    rewrite (step_replace _ _ _ _ H2 Es At). simpl.
    apply (IH a p b q v z r x' y); auto. eapply dkp_there; eauto.
Qed.

Lemma post_there s t v o x : named s -> t <> [] -> step o s = Ok x ->
  post (s :: t) v o = let (r, x') := post t v x in (r, replace o s x').
Proof.
  intros N Ht Hs. destruct t as [|l u]; [congruence|]. rewrite post_cons by auto.
  apply (viv_there o s (kwarg (l :: u) v)) in Hs. now rewrite Hs.
Qed.

(** post starts at the object the existing part of the path leads to *)
Lemma post_down c : forall t v o h r h', Forall named c -> t <> [] ->
  get c o = Ok h -> post t v h = (r, h') ->
  exists o', post (c ++ t) v o = (r, o') /\ get c o' = Ok h' /\ (h' = h -> o' = o).
Proof.
  induction c as [|s u IH]; intros t v o h r h' Hc Ht G H.
  - simpl in *. inversion G; subst. eauto.
  - inversion Hc; subst. rewrite get_cons in G by auto. destruct (step o s) as [x|] eqn:Es; [|discriminate].
    simpl in G. destruct (IH t v x h r h') as (x'&E1&E2&E3); auto.
    cbn [app]. rewrite (post_there s (u ++ t) v o x); auto; [|destruct u, t; simpl; congruence].
    rewrite E1. exists (replace o s x'). repeat split.
    + rewrite get_cons by auto. rewrite (step_replace o s x x'); auto.
      intros At. eapply post_atom_same; eauto.
    + intros Hh. rewrite (E3 Hh). now apply replace_same.
Qed.

Lemma post_list_growth p : forall v c xs r o', Forall named p -> p <> [] -> post p v (OList c xs) = (r, o') ->
  exists ys, o' = OList c ys /\ (length xs <= length ys <= S (length xs))%nat.
Proof.
  intros v c xs r o' Hp Hne H. destruct p as [|s t]; [congruence|]. inversion Hp; subst. destruct t as [|l u].
  - cbn [TreeModel.post] in H. destruct (put_last s v (OList c xs)) as [[e|] o1] eqn:E; inversion H; subst.
    + apply put_last_fail in E as ->. exists xs. split; auto.
    + apply put_last_ok in E as (v'&[(_&_&c1&xs1&i&ys&E1&->&E2&->)|[(?&?&?&_)|(?&?&?&?&_)]]); try discriminate; auto.
      inversion E1; subst. exists ys. split; auto. unfold seq_set in E2.
      destruct (norm_index (length xs1) i) eqn:En; [|discriminate]. injection E2 as <-. apply norm_index_some in En as [En _].
      pose proof (length_upd xs1 n v' En). simpl in *. lia.
  - rewrite post_cons in H by auto.
    assert (Rep : forall (zs : list obj) (x' : obj), exists ys, replace (OList c zs) s x' = OList c ys /\ length ys = length zs).
    { intros zs x'. simpl. destruct s; eauto. destruct (seq_set zs z x') as [ys|] eqn:E; eauto.
      exists ys. split; auto. unfold seq_set in E. destruct (norm_index (length zs) z) eqn:En; [|discriminate]. injection E as <-.
      apply norm_index_some in En as [En _]. pose proof (length_upd zs n x' En). simpl in *. lia. }
    destruct (viv (OList c xs) s (kwarg (l :: u) v)) as [e|x|o1 x|o1] eqn:Ev.
    + inversion H; subst. eauto.
    + destruct (post (l :: u) v x) as [r1 x']. injection H as <- <-. destruct (Rep xs x') as (ys&E0&E). exists ys. split; [exact E0|lia].
    + apply viv_made in Ev as [(c1&xs1&E1&->&Hn&->)|(?&?&?&?&?&?&_)]; [|discriminate]. inversion E1; subst.
      destruct (kwarg (l :: u) v).
      * inversion H; subst. exists (xs1 ++ [x]). rewrite app_length. simpl. split; auto. lia.
      * destruct (post (l :: u) v x) as [r1 x']. injection H as <- <-. destruct (Rep (xs1 ++ [x]) x') as (ys&E&El).
        exists ys. rewrite app_length in El. simpl in El. split; [exact E|lia].
    + apply viv_stay in Ev as (?&?&?&?&_). discriminate.
Qed.

End Tree.
