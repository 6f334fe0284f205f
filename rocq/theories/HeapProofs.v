(** Proofs for C57. *)
From Coq Require Import List Arith NArith ZArith Bool Lia.
From Verif Require Import Prelude SelPathModel FSModel FSProofs PySeq HeapModel HeapSpec.
Import ListNotations.

Lemma norm_index_spec n i j : norm_index n i = Some j <->
  (j < n)%nat /\ (i = Z.of_nat j \/ i = Z.of_nat j - Z.of_nat n)%Z.
Proof.
  unfold norm_index.
  destruct (i <? 0)%Z eqn:E1; [apply Z.ltb_lt in E1|apply Z.ltb_ge in E1];
  match goal with |- context [if ?b then _ else _] => destruct b eqn:E2 end;
  try (apply andb_true_iff in E2; destruct E2 as [E2 E3]; apply Z.leb_le in E2; apply Z.ltb_lt in E3);
  try (apply andb_false_iff in E2; rewrite Z.leb_gt, Z.ltb_ge in E2).
  - split; [intros H; injection H as <-; lia|]. intros [H1 H2]. f_equal. lia.
  - split; [discriminate|lia].
  - split; [intros H; injection H as <-; lia|]. intros [H1 H2]. f_equal. lia.
  - split; [discriminate|lia].
Qed.

Section Dict.
Context {K A : Type} (eqb : K -> K -> bool).
Hypothesis eqb_eq : forall a b, eqb a b = true <-> a = b.

Lemma eqb_neq a b : eqb a b = false <-> a <> b.
Proof. rewrite <- (eqb_eq a b). destruct (eqb a b); split; intuition congruence. Qed.
Lemma get_binds (d : list (K * val A)) k v : dict_get eqb d k = Some v <-> binds d k v.
Proof.
  induction d as [|[k' v'] t IH]; cbn [dict_get].
  - split; [discriminate|]. intros H. inversion H.
  - destruct (eqb k' k) eqn:E.
    + apply eqb_eq in E. subst k'. split.
      * intros H. injection H as <-. constructor.
      * intros H. inversion H; subst; congruence.
    + apply eqb_neq in E. rewrite IH. split.
      * intros H. now constructor.
      * intros H. inversion H; subst; congruence.
Qed.
Lemma get_none (d : list (K * val A)) k : dict_get eqb d k = None <-> forall x, ~ binds d k x.
Proof.
  destruct (dict_get eqb d k) as [v|] eqn:E.
  - apply get_binds in E. split; [discriminate|]. intros H. now apply H in E.
  - split; auto. intros _ x H. apply get_binds in H. congruence.
Qed.
Lemma set_same (d : list (K * val A)) k v : binds (dict_set eqb d k v) k v.
Proof.
  induction d as [|[k' v'] t IH]; cbn [dict_set]; [constructor|].
  destruct (eqb k' k) eqn:E.
  - apply eqb_eq in E. subst k'. constructor.
  - apply eqb_neq in E. now constructor.
Qed.
Lemma set_other (d : list (K * val A)) k v k' w : k' <> k -> (binds (dict_set eqb d k v) k' w <-> binds d k' w).
Proof.
  intros N. induction d as [|[k1 v1] t IH]; cbn [dict_set].
  - split; intros H; inversion H; subst; congruence.
  - destruct (eqb k1 k) eqn:E.
    + apply eqb_eq in E. subst k1. split; intros H; inversion H; subst; try congruence; apply b_later; auto; congruence.
    + apply eqb_neq in E. split; intros H; inversion H; subst; constructor; auto; now apply IH.
Qed.
Lemma del_other (d : list (K * val A)) k k' w : k' <> k -> (binds (dict_del eqb d k) k' w <-> binds d k' w).
Proof.
  intros N. induction d as [|[k1 v1] t IH]; cbn [dict_del]; [tauto|].
  destruct (eqb k1 k) eqn:E.
  - apply eqb_eq in E. subst k1. split; intros H; [apply b_later; auto; congruence|]. inversion H; subst; congruence.
  - apply eqb_neq in E. split; intros H; inversion H; subst; constructor; auto; now apply IH.
Qed.
Lemma binds_in (d : list (K * val A)) k v : binds d k v -> In k (map fst d).
Proof. induction 1; cbn; auto. Qed.
Lemma del_same (d : list (K * val A)) k w : NoDup (map fst d) -> ~ binds (dict_del eqb d k) k w.
Proof.
  induction d as [|[k1 v1] t IH]; cbn [dict_del map fst]; intros N H; [inversion H|].
  inversion N as [|? ? N1 N2]; subst. destruct (eqb k1 k) eqn:E.
  - apply eqb_eq in E. subst k1. apply N1. now apply binds_in in H.
  - apply eqb_neq in E. inversion H; subst; [congruence|]. now apply IH.
Qed.
End Dict.

Lemma nth_set {X} (l : list X) i x j : (i < length l)%nat ->
  nth_error (firstn i l ++ x :: skipn (S i) l) j = if Nat.eqb j i then Some x else nth_error l j.
Proof.
  revert l j. induction i as [|i IH]; intros [|y l] j H; cbn [length] in H; try lia.
  - destruct j; reflexivity.
  - cbn [firstn]. change (skipn (S (S i)) (y :: l)) with (skipn (S i) l). destruct j; [reflexivity|].
    cbn [app nth_error]. rewrite IH by lia. reflexivity.
Qed.
Lemma length_set {X} (l : list X) i x : (i < length l)%nat ->
  length (firstn i l ++ x :: skipn (S i) l) = length l.
Proof. intros H. rewrite app_length, firstn_length. cbn [length]. rewrite skipn_length. lia. Qed.

Section Proofs.
Context {A C : Type}.
Notation val := (val A).
Notation cell := (cell A C).
Notation heap := (heap A C).
Variable a_none : A.
Variable a_key : elem -> A.
Variable a_str : A -> bool.
Variable a_indexable : A -> bool.
Variable a_item : A -> elem -> res A.
Variable a_attr : A -> str -> option A.
Variable a_iter : A -> res (list A).
Variable unset : C -> str -> option A.
Variable store : heap -> C -> str -> val -> res (list cell * val).
Variable istore : heap -> C -> val -> res (list cell * val).
Variable erase : C -> str -> bool -> option exn.
Variable fuel : nat.

Notation leads := (leads a_str a_indexable a_item a_attr unset).
Notation part := (part a_str a_indexable a_item a_attr).
Notation try_index := (try_index a_str a_indexable).
Notation item := (item a_item).
Notation attr := (attr a_attr unset).
Notation step := (step a_str a_indexable a_item a_attr unset).
Notation put_step := (put_step a_str a_indexable a_item a_attr unset).
Notation get := (get a_none a_key a_str a_indexable a_item a_attr a_iter unset).
Notation put := (put a_key a_str a_indexable a_item a_attr a_iter unset store istore fuel).
Notation put_last := (put_last a_key a_str a_indexable a_iter store istore).
Notation delete := (delete a_key a_str a_indexable a_item a_attr a_iter unset erase fuel).
Notation del_last := (del_last a_str a_indexable a_attr unset erase).

Implicit Types (h : heap) (v w o u : val) (s : elem) (p : list elem) (c : cell).

(** ** heaps *)

Lemma upd_nth h n c m : (n < length h)%nat -> nth_error (upd h n c) m = if Nat.eqb m n then Some c else nth_error h m.
Proof. apply nth_set. Qed.
Lemma upd_length h n c : (n < length h)%nat -> length (upd h n c) = length h.
Proof. apply length_set. Qed.
Lemma changed_upd h new n c' : (n < length h)%nat -> changed h n c' (upd (h ++ new) n c').
Proof.
  intros L. assert (L' : (n < length (h ++ new))%nat) by (rewrite app_length; lia).
  split; [rewrite upd_length by auto; rewrite app_length; lia|]. split; auto. split.
  - rewrite upd_nth by auto. now rewrite Nat.eqb_refl.
  - intros m Lm N. rewrite upd_nth by auto. apply Nat.eqb_neq in N. rewrite N. now apply nth_error_app1.
Qed.
Lemma changed_upd0 h n c' : (n < length h)%nat -> changed h n c' (upd h n c').
Proof. intros L. pose proof (changed_upd h [] n c' L) as H. now rewrite app_nil_r in H. Qed.
Lemma kept_refl h : kept h h.
Proof. exists []. now rewrite app_nil_r. Qed.
Lemma kept_trans h1 h2 h3 : kept h1 h2 -> kept h2 h3 -> kept h1 h3.
Proof. intros (a & ->) (b & ->). exists (a ++ b). now rewrite app_assoc. Qed.
Lemma kept_app h new : kept h (h ++ new).
Proof. now exists new. Qed.
Lemma nth_len h n c : nth_error h n = Some c -> (n < length h)%nat.
Proof. intros H. apply nth_error_Some. congruence. Qed.

(** ** one step *)

Lemma leads_cons h o s p tr u : leads h o (s :: p) tr u <->
  exists w tr1 tr2, leads h o [s] tr1 w /\ leads h w p tr2 u /\ tr = tr1 ++ tr2.
Proof.
  split.
  - intros H. inversion H; subst.
    + exists w, [(n, k)], tr0. split; [|split; auto]. eapply L_object; eauto. constructor.
    + exists (VA a), [(n, KAttr m)], tr0. split; [|split; auto]. eapply L_class; eauto. constructor.
    + exists (VA b), [], tr. split; [|split; auto]. eapply L_value; eauto. constructor.
  - intros (w & tr1 & tr2 & H1 & H2 & ->). inversion H1 as [ | ? ? ? ? ? ? ? ? N M AT L | ? ? ? ? ? ? ? ? N B U L | ? ? ? ? ? ? P L]; subst; inversion L; subst.
    + cbn. eapply L_object; eauto.
    + cbn. eapply L_class; eauto.
    + cbn. eapply L_value; eauto.
Qed.
Lemma leads_app h o p q tr u : leads h o (p ++ q) tr u <->
  exists w tr1 tr2, leads h o p tr1 w /\ leads h w q tr2 u /\ tr = tr1 ++ tr2.
Proof.
  revert o tr. induction p as [|s p IH]; intros o tr; cbn [app].
  - split.
    + intros H. exists o, [], tr. split; [constructor|auto].
    + intros (w & tr1 & tr2 & H1 & H2 & ->). inversion H1; subst. exact H2.
  - rewrite leads_cons. split.
    + intros (w & tr1 & tr2 & H1 & H2 & ->). apply IH in H2. destruct H2 as (x & tr3 & tr4 & H3 & H4 & ->).
      exists x, (tr1 ++ tr3), tr4. rewrite app_assoc. split; [|auto]. apply leads_cons. eauto 6.
    + intros (w & tr1 & tr2 & H1 & H2 & ->). apply leads_cons in H1. destruct H1 as (x & tr3 & tr4 & H3 & H4 & ->).
      exists x, tr3, (tr4 ++ tr2). rewrite app_assoc. split; [auto|]. split; auto. apply IH. eauto 6.
Qed.

Lemma step_leads h o s w : s <> ENone -> step h o s = Ok w -> exists tr, leads h o [s] tr w.
Proof.
  intros NS H. unfold HeapModel.step in H. destruct o as [a|n].
  - cbn [HeapModel.try_index] in H. destruct (a_str a) eqn:Ea.
    + destruct s as [m| |]; cbn in H; try discriminate.
      destruct (a_attr a m) as [b|] eqn:Eb; cbn in H; [|discriminate]. injection H as <-.
      exists []. eapply L_value; [|constructor]. now apply p_attr; auto.
    + assert (T : (match s with EInt _ => true | _ => a_indexable a end = true) \/
                  (a_indexable a = false /\ exists m, s = EStr m)).
      { destruct s as [m|i|]; [destruct (a_indexable a); eauto|now left|congruence]. }
      destruct T as [T|(T & m & ->)].
      * rewrite T in H. cbn [HeapModel.item] in H. destruct (a_item a s) as [b|e] eqn:Eb.
        -- injection H as <-. exists []. eapply L_value; [|constructor]. apply p_item; auto.
           destruct s; eauto.
        -- destruct e; discriminate.
      * rewrite T in H. cbn [HeapModel.attr] in H. destruct (a_attr a m) as [b|] eqn:Eb; cbn in H; [|discriminate].
        injection H as <-. exists []. eapply L_value; [|constructor]. now apply p_attr; auto.
  - cbn [HeapModel.try_index] in H. destruct (nth_error h n) as [c|] eqn:En.
    + destruct c as [c sl|c xs|c kvs].
      * destruct s as [m|i|]; [| |congruence].
        -- cbn [HeapModel.attr] in H. rewrite En in H. destruct (dict_get str_eqb sl m) as [x|] eqn:Ed.
           ++ injection H as <-. exists [(n, KAttr m)]. eapply L_object; eauto; [constructor|constructor|constructor].
              now apply (get_binds str_eqb str_eqb_eq).
           ++ destruct (unset c m) as [b|] eqn:Eu; cbn in H; [|discriminate]. injection H as <-.
              exists [(n, KAttr m)]. eapply L_class; eauto; [|constructor].
              now apply (get_none str_eqb str_eqb_eq).
        -- cbn [HeapModel.item] in H. rewrite En in H. discriminate.
      * cbn [HeapModel.item] in H. rewrite En in H. destruct s as [m|i|]; try discriminate.
        unfold seq_get in H. destruct (norm_index (length xs) i) as [j|] eqn:Ej; [|discriminate].
        destruct (nth_error xs j) as [x|] eqn:Ex; [|discriminate]. injection H as <-.
        apply norm_index_spec in Ej. destruct Ej as [Lj Ej]. exists [(n, KPos j)].
        eapply L_object; [exact En| |constructor; exact Ex|constructor].
        destruct Ej as [->| ->]; constructor; auto.
      * cbn [HeapModel.item] in H. rewrite En in H. destruct (dict_get elem_eqb kvs s) as [x|] eqn:Ed; [|discriminate].
        injection H as <-. exists [(n, KKey s)]. eapply L_object; eauto; [now constructor|constructor|constructor].
        now apply (get_binds elem_eqb elem_eqb_eq).
    + cbn [HeapModel.item] in H. rewrite En in H. discriminate.
Qed.

Lemma leads_step h o s tr w : leads h o [s] tr w -> step h o s = Ok w /\ s <> ENone.
Proof.
  intros H. inversion H as [ | n c ? k w' ? ? ? N M AT L | n c sl m a ? ? ? N B U L | a ? b ? ? ? P L]; subst; inversion L; subst; clear L H.
  - unfold HeapModel.step. destruct M; inversion AT; subst.
    + split; [|discriminate]. cbn [HeapModel.try_index HeapModel.attr]. rewrite N.
      match goal with B : binds _ _ _ |- _ => apply (get_binds str_eqb str_eqb_eq) in B; now rewrite B end.
    + split; [|discriminate]. cbn [HeapModel.try_index HeapModel.item]. rewrite N.
      unfold seq_get. replace (norm_index (length xs) (Z.of_nat i)) with (Some i)
        by (symmetry; apply norm_index_spec; auto).
      match goal with E : nth_error xs i = _ |- _ => now rewrite E end.
    + split; [|discriminate]. cbn [HeapModel.try_index HeapModel.item]. rewrite N.
      unfold seq_get. replace (norm_index (length xs) (Z.of_nat i - Z.of_nat (length xs))) with (Some i)
        by (symmetry; apply norm_index_spec; auto).
      match goal with E : nth_error xs i = _ |- _ => now rewrite E end.
    + split; [|assumption]. cbn [HeapModel.try_index HeapModel.item]. rewrite N.
      match goal with B : binds _ _ _ |- _ => apply (get_binds elem_eqb elem_eqb_eq) in B; now rewrite B end.
  - split; [|discriminate]. unfold HeapModel.step. cbn [HeapModel.try_index HeapModel.attr]. rewrite N.
    apply (get_none str_eqb str_eqb_eq) in B. now rewrite B, U.
  - unfold HeapModel.step. destruct P as [a s b Ea Ti NS Ei|a m b T E].
    + split; auto. cbn [HeapModel.try_index HeapModel.item]. rewrite Ea.
      assert (T : match s with EInt _ => true | _ => a_indexable a end = true).
      { destruct Ti as [T|(i & ->)]; auto. destruct s; auto. }
      now rewrite T, Ei.
    + split; [|discriminate]. cbn [HeapModel.try_index HeapModel.attr].
      destruct (a_str a); [now rewrite E|]. destruct T as [T|T]; [discriminate|]. now rewrite T, E.
Qed.

Lemma put_step_ok h o s w : put_step h o s = Ok w <-> step h o s = Ok w.
Proof.
  unfold HeapModel.put_step, HeapModel.step. destruct (try_index h o s).
  - destruct (item h o s) as [x|e]; [tauto|]. destruct e; split; congruence.
  - destruct (attr h o s) as [x|e]; [tauto|]. destruct (is_attr_err e); split; congruence.
Qed.

(** ** get *)

Lemma get_leads p : ~ In ENone p -> forall h o w h', get p o h = (Ok w, h') -> h' = h /\ exists tr, leads h o p tr w.
Proof.
  induction p as [|s p IH]; intros N h o w h' H.
  - cbn in H. injection H as <- <-. split; auto. exists []. constructor.
  - assert (Ns : s <> ENone) by (intros ->; apply N; now left).
    assert (Np : ~ In ENone p) by (intros I; apply N; now right).
    assert (G : get (s :: p) o h = match step h o s with Ok x => get p x h | Err e => (Err e, h) end)
      by (destruct s; [reflexivity|reflexivity|congruence]).
    rewrite G in H. destruct (step h o s) as [x|e] eqn:E; [|discriminate].
    destruct (IH Np _ _ _ _ H) as (-> & tr & L). split; auto.
    destruct (step_leads _ _ _ _ Ns E) as (tr1 & L1). exists (tr1 ++ tr). apply leads_cons. eauto 6.
Qed.
Lemma leads_get p : forall h o tr w, leads h o p tr w -> get p o h = (Ok w, h).
Proof.
  induction p as [|s p IH]; intros h o tr w L; [inversion L; subst; reflexivity|].
  apply leads_cons in L. destruct L as (x & tr1 & tr2 & L1 & L2 & _).
  apply leads_step in L1. destruct L1 as [E Ns].
  assert (G : get (s :: p) o h = match step h o s with Ok x => get p x h | Err e => (Err e, h) end)
    by (destruct s; [reflexivity|reflexivity|congruence]).
  rewrite G, E. now apply (IH _ _ tr2).
Qed.
Lemma leads_no_none h o p tr w : leads h o p tr w -> ~ In ENone p.
Proof.
  revert o tr. induction p as [|s p IH]; intros o tr L; [intros []|].
  apply leads_cons in L. destruct L as (x & tr1 & tr2 & L1 & L2 & _).
  apply leads_step in L1. intros [I|I]; [now apply (proj2 L1)|]. now apply (IH _ _ L2).
Qed.

Lemma gather_kept (f : val -> heap -> res val * heap) : (forall o h, kept h (snd (f o h))) ->
  forall xs x h, kept h (snd (gather a_none f xs x h)).
Proof.
  intros F. induction xs as [|r t IH]; intros x h; cbn [gather]; [apply kept_refl|].
  pose proof (F r h) as K. destruct (f r h) as [[v|e] h1]; cbn [snd] in K.
  - pose proof (IH XFalse h1) as K2. destruct (gather a_none f t XFalse h1) as [[[vs x2]|e] h2]; cbn [snd] in *; eapply kept_trans; eauto.
  - destruct (is_fs_exc e); [|exact K].
    pose proof (IH (note_exc x e) h1) as K2. destruct (gather a_none f t (note_exc x e) h1) as [[[vs x2]|e2] h2]; cbn [snd] in *; eapply kept_trans; eauto.
Qed.
Lemma get_kept p : forall o h, kept h (snd (get p o h)).
Proof.
  induction p as [|s p IH]; intros o h; [apply kept_refl|].
  assert (G : s <> ENone -> kept h (snd (match step h o s with Ok x => get p x h | Err e => (Err e, h) end))).
  { intros _. destruct (step h o s); [apply IH|apply kept_refl]. }
  destruct s as [m|i|]; [apply G; discriminate|apply G; discriminate|].
  cbn [HeapModel.get]. destruct (iter a_key a_iter h o) as [xs|e]; [|apply kept_refl].
  pose proof (gather_kept (get p) IH xs XNone h) as K.
  destruct (gather a_none (get p) xs XNone h) as [[[vs [|e|]]|e] h1]; cbn [snd] in *; auto.
  - eapply kept_trans; [exact K|apply kept_app].
  - eapply kept_trans; [exact K|apply kept_app].
Qed.

(** ** the last step of put and delete *)

Lemma at_list (cl : option C) (xs : list val) k w :
  at_place (HList cl xs) k w <-> exists i, k = KPos i /\ nth_error xs i = Some w.
Proof.
  split.
  - intros H. inversion H; subst. eauto.
  - intros (i & -> & E). now constructor.
Qed.
Lemma put_last_ok s v o h h' : s <> ENone -> put_last s v o h = (None, h') ->
  exists n c k v' new c', o = VR n /\ nth_error h n = Some c /\ means c s k /\
    (match c with
     | HRec cl _ => exists m, s = EStr m /\ store h cl m v = Ok (new, v')
     | HList cl _ | HDict cl _ => coll_store istore h cl v = Ok (new, v')
     end) /\ put_at c k v' c' /\ h' = upd (h ++ new) n c'.
Proof.
  intros NS H.
  assert (G : (if try_index h o s
     then match item_set istore h o s v with (Some e, h1) => (Some (if is_lookup_err e then FSErr else e), h1) | r => r end
     else match attr_set store h o s v with (Some e, h1) => (Some (if is_attr_err e then FSErr else e), h1) | r => r end) = (None, h')).
  { unfold HeapModel.put_last in H. destruct s; auto. congruence. }
  clear H. destruct o as [a|n].
  - cbn [HeapModel.try_index item_set attr_set] in G. destruct (a_str a); destruct s; try destruct (a_indexable a); cbn in G; discriminate.
  - cbn [HeapModel.try_index item_set attr_set] in G. destruct (nth_error h n) as [c|] eqn:En; [|discriminate].
    destruct c as [c sl|c xs|c kvs].
    + destruct s as [m|i|]; [|discriminate|congruence].
      cbn [attr_set] in G. rewrite En in G.
      destruct (store h c m v) as [[new v']|e] eqn:Es; [|cbn in G; discriminate].
      injection G as <-. exists n, (HRec c sl), (KAttr m), v', new, (HRec c (dict_set str_eqb sl m v')).
      split; auto. split; auto. split; [constructor|]. split; [eauto|]. split; auto.
      split; [reflexivity|]. split; [constructor; apply (set_same str_eqb str_eqb_eq)|].
      intros k' w N. split; intros H; inversion H as [? ? ? ? B | |]; subst; constructor.
      * apply (set_other str_eqb str_eqb_eq) in B; auto. congruence.
      * apply (set_other str_eqb str_eqb_eq); auto. congruence.
    + destruct (coll_store istore h c v) as [[new v']|e] eqn:Es; [|cbn in G; discriminate].
      destruct s as [m|i|]; [discriminate| |congruence].
      unfold seq_set in G. destruct (norm_index (length xs) i) as [j|] eqn:Ej; [|discriminate].
      injection G as <-. apply norm_index_spec in Ej. destruct Ej as [Lj Ej].
      exists n, (HList c xs), (KPos j), v', new, (HList c (firstn j xs ++ v' :: skipn (S j) xs)).
      split; auto. split; auto. split; [destruct Ej as [->| ->]; constructor; auto|]. split; auto. split; auto.
      split; [split; auto; symmetry; now apply length_set|].
      split; [constructor; rewrite nth_set by auto; now rewrite Nat.eqb_refl|].
      intros k' w N. rewrite !at_list. split; intros (i' & -> & E); exists i'; split; auto.
      * rewrite nth_set in E by auto. destruct (Nat.eqb i' j) eqn:Q; auto. apply Nat.eqb_eq in Q. congruence.
      * rewrite nth_set by auto. destruct (Nat.eqb i' j) eqn:Q; auto. apply Nat.eqb_eq in Q. congruence.
    + destruct (coll_store istore h c v) as [[new v']|e] eqn:Es; [|cbn in G; destruct s; discriminate].
      assert (G' : h' = upd (h ++ new) n (HDict c (dict_set elem_eqb kvs s v'))) by (destruct s; congruence).
      exists n, (HDict c kvs), (KKey s), v', new, (HDict c (dict_set elem_eqb kvs s v')).
      split; auto. split; auto. split; [now constructor|]. split; auto. split; auto.
      split; [reflexivity|]. split; [constructor; apply (set_same elem_eqb elem_eqb_eq)|].
      intros k' w N. split; intros H; inversion H as [| | ? ? ? ? B]; subst; constructor.
      * apply (set_other elem_eqb elem_eqb_eq) in B; auto. congruence.
      * apply (set_other elem_eqb elem_eqb_eq); auto. congruence.
Qed.

Lemma store_all_kept (c : option C) (vs : list val) : forall h, kept h (snd (store_all istore h c vs)).
Proof.
  induction vs as [|v t IH]; intros h; cbn [store_all]; [apply kept_refl|].
  destruct (coll_store istore h c v) as [[new v']|e]; [|apply kept_refl].
  pose proof (IH (h ++ new)) as K. destruct (store_all istore (h ++ new) c t) as [[t'|e] h2]; cbn [snd] in *;
    (eapply kept_trans; [apply kept_app|exact K]).
Qed.
Lemma put_last_err s v o h e h' : put_last s v o h = (Some e, h') -> kept h h'.
Proof.
  intros H. destruct s as [m|i|]; cbn [HeapModel.put_last] in H.
  - destruct (try_index h o (EStr m)).
    + unfold item_set in H. destruct o as [a|n]; [injection H as _ <-; apply kept_refl|].
      destruct (nth_error h n) as [[c sl|c xs|c kvs]|]; try (injection H as _ <-; apply kept_refl).
      * destruct (coll_store istore h c v) as [[new v']|e']; injection H as _ <-; [apply kept_app|apply kept_refl].
      * destruct (coll_store istore h c v) as [[new v']|e']; [discriminate|]. injection H as _ <-. apply kept_refl.
    + cbn [attr_set] in H. destruct o as [a|n]; [injection H as _ <-; apply kept_refl|].
      destruct (nth_error h n) as [[c sl|c xs|c kvs]|]; try (injection H as _ <-; apply kept_refl).
      destruct (store h c m v) as [[new v']|e']; [discriminate|]. injection H as _ <-. apply kept_refl.
  - destruct (try_index h o (EInt i)).
    + unfold item_set in H. destruct o as [a|n]; [injection H as _ <-; apply kept_refl|].
      destruct (nth_error h n) as [[c sl|c xs|c kvs]|]; try (injection H as _ <-; apply kept_refl).
      * destruct (coll_store istore h c v) as [[new v']|e'].
        -- destruct (seq_set xs i v'); [discriminate|]. injection H as _ <-. apply kept_app.
        -- injection H as _ <-. apply kept_refl.
      * destruct (coll_store istore h c v) as [[new v']|e']; [discriminate|]. injection H as _ <-. apply kept_refl.
    + cbn [attr_set] in H. injection H as _ <-. apply kept_refl.
  - unfold slice_set in H. destruct o as [a|n]; [injection H as _ <-; apply kept_refl|].
    destruct (nth_error h n) as [[c sl|c xs|c kvs]|]; try (injection H as _ <-; apply kept_refl).
    + destruct (iter a_key a_iter h v) as [vs|e']; [|injection H as _ <-; apply kept_refl].
      pose proof (store_all_kept c vs h) as K. destruct (store_all istore h c vs) as [[vs'|e'] h1]; [discriminate|].
      injection H as _ <-. exact K.
    + destruct (coll_store istore h c v) as [[new v']|e']; injection H as _ <-; [apply kept_app|apply kept_refl].
Qed.

(** ** paths without wildcards *)

Lemma put_cons s t v o h : s <> ENone -> t <> [] ->
  put (s :: t) v o h = match put_step h o s with Err e => (Some e, h) | Ok x => put t v x h end.
Proof. intros NS NT. destruct t; [congruence|]. destruct s; [reflexivity|reflexivity|congruence]. Qed.

Lemma put_ok p s v : ~ In ENone (p ++ [s]) -> forall o h h', put (p ++ [s]) v o h = (None, h') ->
  exists tr n c k v' new c', leads h o p tr (VR n) /\ nth_error h n = Some c /\ means c s k /\
    (match c with
     | HRec cl _ => exists m, s = EStr m /\ store h cl m v = Ok (new, v')
     | HList cl _ | HDict cl _ => coll_store istore h cl v = Ok (new, v')
     end) /\ put_at c k v' c' /\ h' = upd (h ++ new) n c'.
Proof.
  induction p as [|r p IH]; intros N o h h' H.
  - cbn [app] in *. apply put_last_ok in H; [|intros ->; apply N; now left].
    destruct H as (n & c & k & v' & new & c' & -> & H). exists [], n, c, k, v', new, c'. split; [constructor|exact H].
  - cbn [app] in *. assert (Nr : r <> ENone) by (intros ->; apply N; now left).
    rewrite put_cons in H; [|auto|destruct p; discriminate].
    destruct (put_step h o r) as [x|e] eqn:E; [|discriminate]. apply put_step_ok in E.
    destruct (step_leads _ _ _ _ Nr E) as (tr1 & L1).
    destruct (IH (fun I => N (or_intror I)) _ _ _ H) as (tr & n & c & k & v' & new & c' & L & R).
    exists (tr1 ++ tr), n, c, k, v', new, c'. split; auto. apply leads_cons. eauto 6.
Qed.
Lemma put_err p s v : ~ In ENone p -> forall o h e h', put (p ++ [s]) v o h = (Some e, h') -> kept h h'.
Proof.
  induction p as [|r p IH]; intros N o h e h' H.
  - apply (put_last_err _ _ _ _ _ _ H).
  - cbn [app] in *. assert (Nr : r <> ENone) by (intros ->; apply N; now left).
    rewrite put_cons in H; [|auto|destruct p; discriminate].
    destruct (put_step h o r) as [x|e'] eqn:E; [|injection H as _ <-; apply kept_refl].
    apply (IH (fun I => N (or_intror I)) _ _ _ _ H).
Qed.

(** paths that do not pass the changed place lead where they led *)
Lemma leads_changed h n c k v' c' h' : nth_error h n = Some c -> put_at c k v' c' -> changed h n c' h' ->
  (forall m d, nth_error h m = Some d -> (m < length h)%nat) ->
  forall o p tr u, leads h o p tr u -> ~ In (n, k) tr -> leads h' o p tr u.
Proof.
  intros En P (Len & Ln & En' & Fr) _ o p tr u L. induction L as [v|m d s k1 w p tr u Nm M AT L IH|m d sl x a p tr u Nm B U L IH|a s b p tr u Pt L IH]; intros NI.
  - constructor.
  - assert (NI' : ~ In (n, k) tr) by (intros I; apply NI; now right).
    destruct (Nat.eq_dec m n) as [->|Nn].
    + assert (d = c) by congruence. subst d. destruct P as (SS & _ & Oth).
      assert (Nk : k1 <> k) by (intros ->; apply NI; now left).
      eapply L_object; [exact En'| |apply Oth; eauto|auto].
      destruct M, c'; cbn in SS; try contradiction; subst.
      * constructor.
      * destruct SS as [-> SL]. constructor. lia.
      * destruct SS as [-> SL]. rewrite SL. constructor. lia.
      * now constructor.
    + eapply L_object; [|exact M|exact AT|auto]. rewrite Fr; auto. eapply nth_len; eauto.
  - assert (NI' : ~ In (n, k) tr) by (intros I; apply NI; now right).
    destruct (Nat.eq_dec m n) as [->|Nn].
    + assert (c = HRec d sl) by congruence. subst c. destruct P as (SS & _ & Oth).
      assert (Nk : KAttr x <> k) by (intros E; apply NI; left; congruence).
      destruct c' as [d' sl'| |]; cbn in SS; try contradiction. subst d'.
      eapply L_class; [exact En'| |exact U|auto].
      intros y By. apply (B y). assert (Q : at_place (HRec d sl') (KAttr x) y) by now constructor.
      apply Oth in Q; auto. inversion Q; subst; auto.
    + eapply L_class; [|exact B|exact U|auto]. rewrite Fr; auto. eapply nth_len; eauto.
  - eapply L_value; eauto.
Qed.

Lemma means_same c c' s k : same_sort c c' -> means c s k -> means c' s k.
Proof.
  intros SS M. destruct M, c'; cbn in SS; try contradiction.
  - constructor.
  - destruct SS as [_ SL]. constructor. lia.
  - destruct SS as [_ SL]. rewrite SL. constructor. lia.
  - now constructor.
Qed.
Lemma leads_place h n c k v s : nth_error h n = Some c -> means c s k -> at_place c k v ->
  leads h (VR n) [s] [(n, k)] v.
Proof. intros E M AT. eapply L_object; eauto. constructor. Qed.

(** a place passed on the way to its own object lies on a circle *)
Lemma passed_circle h o p tr u n k : leads h o p tr u -> In (n, k) tr ->
  exists q tr', leads h (VR n) q tr' u /\ q <> [].
Proof.
  intros L. induction L as [v|m d s k1 w p tr u Nm M AT L IH|m d sl x a p tr u Nm B U L IH|a s b p tr u Pt L IH]; intros I.
  - destruct I.
  - destruct I as [E|I]; auto. injection E as <- <-. exists (s :: p), ((m, k1) :: tr). split; [|discriminate].
    eapply L_object; eauto.
  - destruct I as [E|I]; auto. injection E as <- <-. exists (EStr x :: p), ((m, KAttr x) :: tr). split; [|discriminate].
    eapply L_class; eauto.
  - auto.
Qed.

(** ** delete *)

(** the keys of records and dicts are distinct *)
Definition distinct (c : cell) : Prop :=
  match c with
  | HRec _ sl => NoDup (map fst sl)
  | HList _ _ => True
  | HDict _ kvs => NoDup (map fst kvs)
  end.

Lemma del_last_ok s o h h' : s <> ENone -> (forall n c, nth_error h n = Some c -> distinct c) ->
  del_last s o h = (None, h') ->
  (h' = h /\ forall tr w, ~ leads h o [s] tr w) \/
  exists n c k c', o = VR n /\ nth_error h n = Some c /\ means c s k /\ removed c k c' /\ h' = upd h n c'.
Proof.
  intros NS D H. unfold HeapModel.del_last in H.
  destruct (try_index h o s) eqn:T.
  - assert (H' : item_del h o s = (None, h')) by (destruct s; auto; congruence). clear H.
    right. unfold item_del in H'. destruct o as [a|n]; [discriminate|].
    destruct (nth_error h n) as [[c sl|c xs|c kvs]|] eqn:En; try discriminate.
    + destruct s as [m|i|]; try discriminate. unfold seq_del in H'.
      destruct (norm_index (length xs) i) as [j|] eqn:Ej; [|discriminate]. injection H' as <-.
      apply norm_index_spec in Ej. destruct Ej as [Lj Ej].
      exists n, (HList c xs), (KPos j), (HList c (firstn j xs ++ skipn (S j) xs)).
      split; auto. split; auto. split; [destruct Ej as [->| ->]; constructor; auto|]. split; auto.
      cbn. split; auto. exists j. auto.
    + destruct (dict_get elem_eqb kvs s) as [x|] eqn:Ed; [|discriminate]. injection H' as <-.
      exists n, (HDict c kvs), (KKey s), (HDict c (dict_del elem_eqb kvs s)).
      split; auto. split; auto. split; [now constructor|]. split; auto.
      cbn. split; auto. split.
      * intros w H. inversion H as [| | ? ? ? ? B]; subst. revert B. apply (del_same elem_eqb elem_eqb_eq). exact (D _ _ En).
      * intros k' w N. split; intros H; inversion H as [| | ? ? ? ? B]; subst; constructor.
        -- apply (del_other elem_eqb elem_eqb_eq) in B; auto. congruence.
        -- apply (del_other elem_eqb elem_eqb_eq); auto. congruence.
  - destruct (attr h o s) as [x|e] eqn:Ea.
    + right. unfold attr_del in H. destruct s as [m|i|]; try (destruct o; discriminate).
      destruct o as [a|n]; [discriminate|].
      destruct (nth_error h n) as [[c sl|c xs|c kvs]|] eqn:En; try discriminate.
      destruct (erase c m _); [discriminate|]. injection H as <-.
      exists n, (HRec c sl), (KAttr m), (HRec c (dict_del str_eqb sl m)).
      split; auto. split; auto. split; [constructor|]. split; auto.
      cbn. split; auto. split.
      * intros w H. inversion H as [? ? ? ? B | |]; subst. revert B. apply (del_same str_eqb str_eqb_eq). exact (D _ _ En).
      * intros k' w N. split; intros H; inversion H as [? ? ? ? B | |]; subst; constructor.
        -- apply (del_other str_eqb str_eqb_eq) in B; auto. congruence.
        -- apply (del_other str_eqb str_eqb_eq); auto. congruence.
    + left. destruct (is_attr_err e) eqn:Ee; [|discriminate]. injection H as <-. split; auto.
      intros tr w L. apply leads_step in L. destruct L as [L _]. unfold HeapModel.step in L. rewrite T, Ea, Ee in L. discriminate.
Qed.
Lemma del_last_err s o h e h' : del_last s o h = (Some e, h') -> h' = h.
Proof.
  unfold HeapModel.del_last. destruct (try_index h o s).
  - assert (G : item_del h o s = (Some e, h') -> h' = h).
    { unfold item_del. destruct o as [a|n]; [congruence|].
      destruct (nth_error h n) as [[c sl|c xs|c kvs]|]; try congruence.
      - destruct s; try congruence. destruct (seq_del xs z); congruence.
      - destruct (dict_get elem_eqb kvs s); congruence. }
    destruct s; auto. unfold clear. destruct o as [a|n]; [congruence|].
    destruct (nth_error h n) as [[c sl|c xs|c kvs]|]; congruence.
  - destruct (attr h o s) as [x|e'].
    + unfold attr_del. destruct s; destruct o; try congruence.
      destruct (nth_error h n) as [[c sl|c xs|c kvs]|]; try congruence. destruct (erase c s _); congruence.
    + destruct (is_attr_err e'); congruence.
Qed.
Lemma delete_cons s t o h : s <> ENone -> t <> [] ->
  delete (s :: t) o h = match step h o s with Err e => (Some e, h) | Ok x => delete t x h end.
Proof. intros NS NT. destruct t; [congruence|]. destruct s; [reflexivity|reflexivity|congruence]. Qed.
Lemma delete_ok p s : ~ In ENone (p ++ [s]) -> forall o h h', (forall n c, nth_error h n = Some c -> distinct c) ->
  delete (p ++ [s]) o h = (None, h') ->
  exists tr w, leads h o p tr w /\
  ((h' = h /\ forall tr w', ~ leads h w [s] tr w') \/
  exists n c k c', w = VR n /\ nth_error h n = Some c /\ means c s k /\ removed c k c' /\ h' = upd h n c').
Proof.
  induction p as [|r p IH]; intros N o h h' D H.
  - cbn [app] in *. apply del_last_ok in H; auto; [|intros ->; apply N; now left].
    exists [], o. split; [constructor|exact H].
  - cbn [app] in *. assert (Nr : r <> ENone) by (intros ->; apply N; now left).
    rewrite delete_cons in H; [|auto|destruct p; discriminate].
    destruct (step h o r) as [x|e] eqn:E; [|discriminate].
    destruct (step_leads _ _ _ _ Nr E) as (tr1 & L1).
    destruct (IH (fun I => N (or_intror I)) _ _ _ D H) as (tr & w & L & R).
    exists (tr1 ++ tr), w. split; auto. apply leads_cons. eauto 6.
Qed.
Lemma delete_err p s : ~ In ENone p -> forall o h e h', delete (p ++ [s]) o h = (Some e, h') -> h' = h.
Proof.
  induction p as [|r p IH]; intros N o h e h' H.
  - apply (del_last_err _ _ _ _ _ H).
  - cbn [app] in *. assert (Nr : r <> ENone) by (intros ->; apply N; now left).
    rewrite delete_cons in H; [|auto|destruct p; discriminate].
    destruct (step h o r) as [x|e'] eqn:E; [|congruence].
    apply (IH (fun I => N (or_intror I)) _ _ _ _ H).
Qed.

Lemma leads_removed h n c k c' : nth_error h n = Some c -> removed c k c' ->
  forall o p tr u, leads h o p tr u ->
  (forall k1, In (n, k1) tr -> match c with HList _ _ => False | _ => k1 <> k end) ->
  leads (upd h n c') o p tr u.
Proof.
  intros En P. pose proof (nth_len _ _ _ En) as Ln.
  assert (En' : nth_error (upd h n c') n = Some c') by (rewrite upd_nth by auto; now rewrite Nat.eqb_refl).
  assert (Fr : forall m, m <> n -> nth_error (upd h n c') m = nth_error h m).
  { intros m N. rewrite upd_nth by auto. apply Nat.eqb_neq in N. now rewrite N. }
  intros o p tr u L. induction L as [v|m d s k1 w p tr u Nm M AT L IH|m d sl x a p tr u Nm B U L IH|a s b p tr u Pt L IH]; intros NI.
  - constructor.
  - assert (IH' : leads (upd h n c') w p tr u) by (apply IH; intros k2 I; apply NI; now right).
    destruct (Nat.eq_dec m n) as [->|Nn].
    + assert (d = c) by congruence. subst d. pose proof (NI k1 (or_introl eq_refl)) as Nk.
      destruct c as [a sl|a xs|a kvs], c' as [a' sl'|a' xs'|a' kvs']; try contradiction;
        destruct P as (-> & _ & Oth); (eapply L_object; [exact En'| |apply Oth; eauto|auto]);
        inversion M; subst; now constructor.
    + eapply L_object; [|exact M|exact AT|auto]. rewrite Fr; auto.
  - assert (IH' : leads (upd h n c') (VA a) p tr u) by (apply IH; intros k2 I; apply NI; now right).
    destruct (Nat.eq_dec m n) as [->|Nn].
    + assert (c = HRec d sl) by congruence. subst c. pose proof (NI _ (or_introl eq_refl)) as Nk.
      cbn [removed] in P. destruct c' as [a' sl'|a' xs'|a' kvs']; try contradiction. destruct P as (-> & _ & Oth).
      eapply L_class; [exact En'| |exact U|auto].
      intros y By. apply (B y). assert (Q : at_place (HRec a' sl') (KAttr x) y) by now constructor.
      apply Oth in Q; auto. inversion Q; subst; auto.
    + eapply L_class; [|exact B|exact U|auto]. rewrite Fr; auto.
  - eapply L_value; eauto.
Qed.

(** ** wildcards *)

Lemma put_each_attr (m : str) v n0 (cl : option C) (xs : list val) :
  (forall h (c : C), store h c m v = Ok ([], v)) ->
  forall k i h, nth_error h n0 = Some (HList cl xs) ->
  (forall x, In x xs -> exists n (c : C) sl, x = VR n /\ nth_error h n = Some (HRec c sl)) ->
  (length xs - i < k)%nat ->
  exists h', each (put [EStr m] v) k n0 i h = (None, h') /\
    length h' = length h /\
    (forall n (c : C) sl, In (VR n) (skipn i xs) -> nth_error h n = Some (HRec c sl) ->
       exists sl', nth_error h' n = Some (HRec c sl') /\ binds sl' m v /\ forall m' w, m' <> m -> (binds sl' m' w <-> binds sl m' w)) /\
    (forall n, ~ In (VR n) (skipn i xs) -> nth_error h' n = nth_error h n).
Proof.
  intros ST. induction k as [|k IH]; intros i h En0 R Lk; [lia|].
  cbn [each]. rewrite En0. destruct (nth_error xs i) as [x|] eqn:Ei.
  - destruct (R x (nth_error_In _ _ Ei)) as (n & c & sl & -> & En).
    assert (P : put [EStr m] v (VR n) h = (None, upd h n (HRec c (dict_set str_eqb sl m v)))).
    { cbn [HeapModel.put HeapModel.put_last HeapModel.try_index]. rewrite En. cbn [attr_set]. rewrite En, ST, app_nil_r. reflexivity. }
    rewrite P. pose proof (nth_len _ _ _ En) as Ln.
    assert (N0 : n0 <> n) by congruence.
    assert (Sk : skipn i xs = VR n :: skipn (S i) xs).
    { clear - Ei. revert xs Ei. induction i as [|i IHi]; intros [|y xs] E; try discriminate.
      - injection E as ->. reflexivity.
      - cbn [nth_error] in E. apply IHi in E. cbn [skipn]. rewrite E. destruct xs; reflexivity. }
    destruct (IH (S i) (upd h n (HRec c (dict_set str_eqb sl m v)))) as (h' & E & Len & Done & Fr).
    + rewrite upd_nth by auto. apply Nat.eqb_neq in N0. now rewrite N0.
    + intros x Hx. destruct (R x Hx) as (n1 & c1 & sl1 & -> & E1).
      destruct (Nat.eqb n1 n) eqn:Q.
      * apply Nat.eqb_eq in Q. subst n1. exists n, c, (dict_set str_eqb sl m v). split; auto.
        rewrite upd_nth by auto. now rewrite Nat.eqb_refl.
      * exists n1, c1, sl1. split; auto. rewrite upd_nth by auto. now rewrite Q.
    + assert (i < length xs)%nat by (apply nth_error_Some; congruence). lia.
    + exists h'. split; auto. split; [rewrite Len; now apply upd_length|]. rewrite Sk. split.
      * intros n1 c1 sl1 I1 E1.
        destruct (Nat.eq_dec n1 n) as [->|Nn].
        -- assert (Q : c1 = c /\ sl1 = sl) by (split; congruence). destruct Q as [-> ->].
           assert (Cs : In (VR n) (skipn (S i) xs) \/ ~ In (VR n) (skipn (S i) xs)).
           { clear. induction (skipn (S i) xs) as [|y l IHl]; [now right|].
             destruct IHl as [I|I]; [left; now right|]. destruct y as [a|n1].
             - right. intros [E|E]; [discriminate|auto].
             - destruct (Nat.eq_dec n1 n) as [->|N]; [left; now left|]. right. intros [E|E]; [congruence|auto]. }
           destruct Cs as [I|I].
           ++ destruct (Done n c (dict_set str_eqb sl m v) I) as (sl' & A1 & A2 & A3).
              { rewrite upd_nth by auto. now rewrite Nat.eqb_refl. }
              exists sl'. split; auto. split; auto. intros m' w Nm. rewrite A3 by auto.
              now apply (set_other str_eqb str_eqb_eq).
           ++ exists (dict_set str_eqb sl m v). rewrite (Fr n I), upd_nth by auto. rewrite Nat.eqb_refl.
              split; auto. split; [apply (set_same str_eqb str_eqb_eq)|]. intros m' w Nm.
              now apply (set_other str_eqb str_eqb_eq).
        -- destruct I1 as [I1|I1]; [congruence|]. apply Done; auto. rewrite upd_nth by auto.
           apply Nat.eqb_neq in Nn. now rewrite Nn.
      * intros n1 I1. assert (Nn : n1 <> n) by (intros ->; apply I1; now left).
        rewrite Fr by (intros I; apply I1; now right). rewrite upd_nth by auto.
        apply Nat.eqb_neq in Nn. now rewrite Nn.
  - exists h. split; auto. split; auto. assert (Sk : skipn i xs = []).
    { apply skipn_all2. now apply nth_error_None. }
    rewrite Sk. split; [intros n c sl []|auto].
Qed.
End Proofs.
