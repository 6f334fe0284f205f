(** Proofs about marshalling out. *)
From Coq Require Import String List NArith ZArith Arith Bool Lia.
From Verif Require Import Prelude GenModel PickleModel AutoModel JsonModel JsonSpec JsonProofs JsonKeys JsonProps JsonOutSpec.
Import ListNotations.
Local Open Scope string_scope.
Local Open Scope list_scope.

(** ** Induction over the parts of a value, at any depth *)
Fixpoint size (v : pyv) : nat :=
  match v with
  | PList l | PTuple l => S (list_sum (map size l))
  | PDict l | PObj _ l => S (list_sum (map (fun kv => size (snd kv)) l))
  | _ => 0
  end.
Lemma list_sum_in {A} (f : A -> nat) x l : In x l -> f x <= list_sum (map f l).
Proof. induction l as [|y t IH]; simpl; [intros []|]. intros [->|i]; [lia|]. specialize (IH i). lia. Qed.
Lemma size_list x l : In x l -> size x < size (PList l).
Proof. intros i. simpl. apply (list_sum_in size) in i. lia. Qed.
Lemma size_dict k x l : In (k, x) l -> size x < size (PDict l).
Proof. intros i. simpl. apply (list_sum_in (fun kv => size (snd kv))) in i. cbn [snd] in i. lia. Qed.
Lemma size_obj c k x l : In (k, x) l -> size x < size (PObj c l).
Proof. exact (size_dict k x l). Qed.
Lemma pyv_deep (P : pyv -> Prop) : (forall v, (forall x, size x < size v -> P x) -> P v) -> forall v, P v.
Proof.
  intros H v. remember (size v) as n eqn:e. revert v e. induction n as [n IH] using lt_wf_ind. intros v e.
  apply H. intros x l. apply (IH (size x)); auto. lia.
Qed.

Lemma mapm_inv {A B} (f : A -> res B) l l' : mapm f l = Ok l' -> Forall2 (fun x y => f x = Ok y) l l'.
Proof.
  revert l'. induction l as [|x t IH]; simpl; intros l' E; [injection E as <-; constructor|].
  destruct (f x) as [y|] eqn:ex; cbn [bind] in E; [|discriminate]. destruct (mapm f t) as [ys|]; cbn [bind] in E; [|discriminate].
  injection E as <-. constructor; auto.
Qed.
Lemma forall2_in_r {A B} (R : A -> B -> Prop) l l' y : Forall2 R l l' -> In y l' -> exists x, In x l /\ R x y.
Proof. induction 1 as [|a b l l' h H IH]; [intros []|]. intros [->|i]; [exists a; simpl; auto|]. destruct (IH i) as (x & j & r). exists x; simpl; auto. Qed.

Section M.
Variable W : world.
Variable show : Z -> str.
Notation marshal := (marshal W show).

Definition docs (l : list (str * pyv)) : Prop := NoDup (map fst l) /\ forall k x, In (k, x) l -> document x.

Lemma dset_docs k j l : docs l -> document j -> docs (dset k j l).
Proof.
  induction l as [|[k' a] t IH]; simpl; intros [N D] dj.
  - split; [constructor; [intros []|constructor]|]. intros k2 x [E|[]]. injection E as <- <-. exact dj.
  - destruct (str_eqb k k') eqn:e.
    + apply str_eqb_eq in e. subst k'. split; [exact N|]. intros k2 x [E|i]; [injection E as <- <-; exact dj|]. apply (D k2 x). simpl; auto.
    + simpl in N. inversion_clear N as [|? ? n1 n2]. destruct IH as [N' D']; [split; auto; intros; eapply D; simpl; eauto|auto|].
      split.
      * simpl. constructor; auto. intros i. apply in_map_iff in i as ([k2 x] & ek & i). simpl in ek. subst k2.
        assert (m : In k' (map fst t) \/ k' = k).
        { clear - i. revert i. induction t as [|[k3 b] t IH]; simpl.
          - intros [E|[]]. injection E as <- _. auto.
          - destruct (str_eqb k k3) eqn:e3; simpl.
            + apply str_eqb_eq in e3. subst k3. intros [E|i]; [injection E as <- _; auto|]. left; right. apply in_map_iff. exists (k', x). auto.
            + intros [E|i]; [injection E as <- _; auto|]. destruct (IH i); auto. }
        destruct m as [m|m]; auto. subst k'. rewrite str_eqb_refl in e. discriminate.
      * intros k2 x [E|i]; [injection E as <- <-; apply (D k' a); simpl; auto|eauto].
Qed.

Lemma emit_docs ex ps slots : outs_are_documents W -> (exists c, incl ps (w_props W c)) ->
  (forall n v j, In (n, (v, Ok j)) slots -> document j) ->
  forall acc jd, docs acc -> emit ex ps slots acc = Ok jd -> docs jd.
Proof.
  intros HO [c Hc] HS. induction ps as [|p ps IH]; intros acc jd D E; cbn [emit] in E; [injection E as <-; auto|].
  assert (Hc' : incl ps (w_props W c)) by (intros q i; apply Hc; simpl; auto).
  destruct (negb ex && q_extraneous p); [eapply IH; eauto|].
  destruct (find_name (q_name p) slots) as [[v r]|] eqn:F; [|eapply IH; eauto]. apply find_name_in in F.
  destruct (key_in_doc p) as [k|]; [|eapply IH; eauto].
  match type of E with match ?r with _ => _ end = _ => destruct r as [j|e] eqn:er end.
  2:{ destruct (is_attr_err e); [eapply IH; eauto|discriminate]. }
  eapply IH; [exact Hc'| |exact E]. apply dset_docs; auto.
  destruct (q_json p) eqn:qj; [destruct (q_out p) as [f|] eqn:qo|].
  - apply (HO c p f v j); auto; [apply Hc; simpl; auto|]. unfold conv_out. now rewrite qj.
  - subst r. eapply HS; eauto. - subst r. eapply HS; eauto.
Qed.

Lemma add_unknown_docs u : (forall k j, In (k, Ok j) u -> document j) ->
  forall jd jd', docs jd -> add_unknown u jd = Ok jd' -> docs jd'.
Proof.
  induction u as [|[k r] u IH]; cbn [add_unknown]; intros H jd jd' D E; [injection E as <-; auto|].
  assert (H' : forall k j, In (k, Ok j) u -> document j) by (intros; eapply H; simpl; eauto).
  destruct (has_name k jd) eqn:hn; [eapply IH; eauto|]. destruct r as [j|]; cbn [bind] in E; [|discriminate].
  eapply IH; [exact H'| |exact E]. destruct D as [N D]. split.
  - rewrite map_app. simpl. apply NoDup_Add with (a := k) (l := map fst jd); [|split; auto].
    + rewrite <- (app_nil_r (map fst jd)) at 1. apply Add_app.
    + intros i. apply has_name_in in i. congruence.
  - intros k2 x i. apply in_app_or in i as [i|[E2|[]]]; eauto. injection E2 as <- <-. eapply H. simpl; eauto.
Qed.

Lemma marshal_document : outs_are_documents W -> forall v, proper v -> forall full ex j, marshal full ex v = Ok j -> document j.
Proof.
  intros HO. induction v as [v IH] using pyv_deep. intros HP full ex j E.
  assert (L : forall l j, (forall x, In x l -> size x < size v /\ proper x) ->
             (do l' <- mapm (marshal true ex) l; Ok (PList l')) = Ok j -> document j).
  { intros l j0 Hl E0. destruct (mapm _ l) as [l'|] eqn:em; cbn [bind] in E0; [|discriminate]. injection E0 as <-. apply mapm_inv in em.
    constructor. intros y i. destruct (forall2_in_r _ _ _ _ em i) as (x & ix & ex'). destruct (Hl x ix). eapply IH; eauto. }
  assert (D : forall l j, NoDup (map fst l) -> (forall k x, In (k, x) l -> size x < size v /\ proper x) ->
             (do l' <- mapm (fun e => do x <- marshal true ex (snd e); Ok (fst e, x)) l; Ok (PDict l')) = Ok j -> document j).
  { intros l j0 Nl Hl E0. destruct (mapm _ l) as [l'|] eqn:em; cbn [bind] in E0; [|discriminate]. injection E0 as <-. apply mapm_inv in em.
    assert (K : map fst l' = map fst l).
    { clear -em. induction em as [|[k x] [k' y] l l' h H IHe]; auto. cbn [map fst]. rewrite IHe. f_equal. cbn [fst snd] in h.
      destruct (marshal true ex x); cbn [bind] in h; [|discriminate]. now injection h as <- _. }
    constructor; [now rewrite K|]. intros k y i. destruct (forall2_in_r _ _ _ _ em i) as ([k' x] & ix & ex'). cbn [fst snd] in ex'.
    destruct (marshal true ex x) as [z|] eqn:ez; cbn [bind] in ex'; [|discriminate]. injection ex' as <- <-.
    destruct (Hl _ _ ix). eapply IH; eauto. }
  destruct v as [ |b|z|n|s|l|l|l|c sl|n]; cbn [JsonModel.marshal] in E; try (injection E as <-; constructor; fail).
  - destruct (Z.ltb_spec (2 ^ 50) (Z.abs z)) as [h|h]; injection E as <-; constructor. exact h.
  - inversion_clear HP as [v' h|l' h|l' h|l' h1 h|c' sl' h]; [destruct h|]. apply (L l); auto. intros x i. split; [now apply size_list|auto].
  - inversion_clear HP as [v' h|l' h|l' h|l' h1 h|c' sl' h]; [destruct h|]. apply (D l); auto. intros k x i. split; [eapply size_dict; eauto|eauto].
  - inversion_clear HP as [v' h|l' h|l' h|l' h1 h|c' sl' h]; [destruct h|]. apply (L l); auto. intros x i. split; [exact (size_list x l i)|auto].
  - inversion_clear HP as [v' h|l' h|l' h|l' h1 h|c' sl' h]; [destruct h|]. rename h into hs.
    assert (COLL : match find_name (s2l "_values")
                  (map (fun kv => (fst kv,
                     match snd kv with
                     | PList l => do l' <- mapm (marshal true ex) l; Ok (PList l')
                     | PDict l => do l' <- mapm (fun e => do x <- marshal true ex (snd e); Ok (fst e, x)) l; Ok (PDict l')
                     | _ => Err AttrErr
                     end)) sl) with Some r => r | None => Err AttrErr end = Ok j -> document j).
    { intros E0. match type of E0 with match ?t with _ => _ end = _ => destruct t as [r|] eqn:F end; [|discriminate]. apply find_name_in, in_map_iff in F as ([n x] & ex0 & i).
      cbn [fst snd] in ex0. injection ex0 as _ <-. pose proof (hs _ _ i) as px. pose proof (size_obj c _ _ _ i) as sx.
      destruct x as [ |?|?|?|?|l|l|?|? ?|?]; try discriminate; inversion_clear px as [v' h|l' h|l' h|l' h1 h|c' sl' h]; try destruct h.
      - apply (L l); auto. intros x ix. split; [pose proof (size_list x l ix); lia|auto].
      - apply (D l); auto. intros k x ix. split; [pose proof (size_dict k x l ix); lia|eauto]. }
    assert (REC : forall jd, emit ex (w_props W c) (map (fun kv => (fst kv, (snd kv, marshal true ex (snd kv)))) sl) [] = Ok jd -> docs jd).
    { intros jd E0. apply (emit_docs ex (w_props W c) _ HO) in E0; auto.
      - exists c. apply incl_refl.
      - intros n v' j' i. apply in_map_iff in i as ([n' x] & e & i). cbn [fst snd] in e. injection e as <- <- e.
        pose proof (size_obj c _ _ _ i). eapply IH; eauto.
      - split; [constructor|intros ? ? []]. }
    assert (FIN : forall jd, docs jd -> document (PDict jd)) by (intros jd [N0 D0]; constructor; auto).
    destruct (w_kind W c); try (exact (COLL E));
      (destruct (emit ex _ _ []) as [jd|] eqn:EM; cbn [bind] in E; [|discriminate]); specialize (REC jd eq_refl).
    + assert (j = PDict jd) by (destruct full; congruence). subst j. auto.
    + destruct full; [|injection E as <-; auto].
      destruct (find_name unknown_name _) as [u|] eqn:FU; [|injection E as <-; auto].
      destruct (ex || _); [|injection E as <-; auto]. destruct u as [u|]; [|discriminate].
      destruct (add_unknown u jd) as [jd'|] eqn:AU; cbn [bind] in E; [|discriminate]. injection E as <-. apply FIN.
      apply (add_unknown_docs u) with (jd := jd); auto. intros k j0 i.
      apply find_name_in, in_map_iff in FU as ([n x] & e0 & ix). cbn [fst snd] in e0. injection e0 as _ e0.
      pose proof (hs _ _ ix) as px. pose proof (size_obj c _ _ _ ix) as sx.
      destruct x as [ |?|?|?|?|?|l|?|? ?|?]; try discriminate. injection e0 as <-.
      inversion_clear px as [v' h|l' h|l' h|l' h1 h|c' sl' h]; [destruct h|].
      apply in_map_iff in i as ([k' y] & ey & iy). cbn [fst snd] in ey. injection ey as <- ey.
      pose proof (size_dict _ _ _ iy). apply (IH y) with (full := false) (ex := ex); auto; [lia|eauto].
  - discriminate.
Qed.

Lemma document_again v : document v -> forall full ex, marshal full ex v = Ok v.
Proof.
  induction 1 as [|b|z h|n|s|l h IH|l N h IH]; intros full ex; cbn [JsonModel.marshal]; auto.
  - destruct (Z.ltb_spec (2 ^ 50) (Z.abs z)); [lia|reflexivity].
  - rewrite (mapm_ok _ (fun y => y)), map_id; auto.
  - rewrite (mapm_ok _ (fun y => y)), map_id; auto. intros [k x] i. cbn [fst snd]. rewrite (IH k x i). reflexivity.
Qed.

(** ** Extraneous attributes *)
Lemma mapm_map {A B C} (f : B -> res C) (g : A -> B) l : mapm f (map g l) = mapm (fun x => f (g x)) l.
Proof. induction l as [|x t IH]; simpl; auto. now rewrite IH. Qed.

Definition keep (c : nat) (kv : str * pyv) : list (str * pyv) :=
  match find (fun p => str_eqb (q_name p) (fst kv)) (w_props W c) with
  | None => []
  | Some p => if q_extraneous p then []
              else match conv_out p with Some _ => [kv] | None => [(fst kv, strip W (snd kv))] end
  end.

Lemma find_unique ps p : NoDup (map q_name ps) -> In p ps -> find (fun q => str_eqb (q_name q) (q_name p)) ps = Some p.
Proof.
  induction ps as [|q ps IH]; simpl; intros N i; [destruct i|]. inversion_clear N as [|? ? n1 n2].
  destruct i as [->|i]; [now rewrite str_eqb_refl|]. destruct (str_eqb (q_name q) (q_name p)) eqn:e; auto.
  apply str_eqb_eq in e. exfalso. apply n1. rewrite e. now apply in_map.
Qed.
Lemma keep_find c p sl : NoDup (map q_name (w_props W c)) -> In p (w_props W c) ->
  find_name (q_name p) (flat_map (keep c) sl) =
  if q_extraneous p then None
  else option_map (fun x => match conv_out p with Some _ => x | None => strip W x end) (find_name (q_name p) sl).
Proof.
  intros N i. induction sl as [|[n x] sl IH]; cbn [flat_map].
  { simpl. destruct (q_extraneous p); reflexivity. }
  rewrite find_name_app, IH. cbn [find_name]. unfold keep at 1. cbn [fst snd].
  destruct (str_eqb (q_name p) n) eqn:e.
  - apply str_eqb_eq in e. subst n. rewrite (find_unique _ _ N i).
    destruct (q_extraneous p); auto. destruct (conv_out p); cbn [find_name]; rewrite str_eqb_refl; reflexivity.
  - destruct (find _ _) as [q|]; [|reflexivity]. destruct (q_extraneous q); [reflexivity|].
    destruct (conv_out q); cbn [find_name]; rewrite e; reflexivity.
Qed.

Lemma strip_marshal : (forall c, NoDup (map q_name (w_props W c))) ->
  (forall c p, In p (w_props W c) -> q_name p = unknown_name -> conv_out p = None) ->
  forall v full, marshal full false v = marshal full true (strip W v).
Proof.
  intros HN HU. induction v as [v IH] using pyv_deep. intros full.
  assert (L : forall l, (forall x, In x l -> size x < size v) ->
     mapm (marshal true false) l = mapm (marshal true true) (map (strip W) l)).
  { intros l Hl. rewrite mapm_map. apply mapm_ext_in. auto. }
  assert (D : forall l, (forall k x, In (k, x) l -> size x < size v) ->
     mapm (fun e : str * pyv => do x <- marshal true false (snd e); Ok (fst e, x)) l =
     mapm (fun e : str * pyv => do x <- marshal true true (snd e); Ok (fst e, x)) (map (fun kv : str * pyv => (fst kv, strip W (snd kv))) l)).
  { intros l Hl. rewrite mapm_map. apply mapm_ext_in. intros [k x] i. cbn [fst snd]. rewrite (IH x (Hl k x i)). reflexivity. }
  destruct v as [ |b|z|n|s|l|l|l|c sl|n]; cbn [JsonModel.marshal strip]; auto.
  - rewrite L; auto. intros x i. now apply size_list.
  - rewrite D; auto. intros k x i. eapply size_dict; eauto.
  - rewrite L; auto. intros x i. exact (size_list x l i).
  - assert (CV : forall n x, In (n, x) sl ->
       match x with
       | PList l => do l' <- mapm (marshal true false) l; Ok (PList l')
       | PDict l => do l' <- mapm (fun e : str * pyv => do x <- marshal true false (snd e); Ok (fst e, x)) l; Ok (PDict l')
       | _ => Err AttrErr end =
       match strip W x with
       | PList l => do l' <- mapm (marshal true true) l; Ok (PList l')
       | PDict l => do l' <- mapm (fun e : str * pyv => do x <- marshal true true (snd e); Ok (fst e, x)) l; Ok (PDict l')
       | _ => Err AttrErr end).
    { intros n x i. pose proof (size_obj c _ _ _ i) as sx. destruct x as [ |?|?|?|?|l|l|?|c' sl'|?]; cbn [strip]; auto.
      - rewrite L; auto. intros x ix. pose proof (size_list x l ix). lia.
      - rewrite D; auto. intros k x ix. pose proof (size_dict k x l ix). lia.
      - destruct (w_kind W c'); reflexivity. }
    assert (COLL : map (fun kv : str * pyv => (fst kv, match snd kv with
           | PList l => do l' <- mapm (marshal true false) l; Ok (PList l')
           | PDict l => do l' <- mapm (fun e : str * pyv => do x <- marshal true false (snd e); Ok (fst e, x)) l; Ok (PDict l')
           | _ => Err AttrErr end)) sl =
         map (fun kv : str * pyv => (fst kv, match snd kv with
           | PList l => do l' <- mapm (marshal true true) l; Ok (PList l')
           | PDict l => do l' <- mapm (fun e : str * pyv => do x <- marshal true true (snd e); Ok (fst e, x)) l; Ok (PDict l')
           | _ => Err AttrErr end)) (map (fun kv : str * pyv => (fst kv, strip W (snd kv))) sl)).
    { rewrite map_map. apply map_ext_in. intros [n x] i. cbn [fst snd]. f_equal. exact (CV n x i). }
    assert (EM : forall ps acc, incl ps (w_props W c) ->
       emit false ps (map (fun kv : str * pyv => (fst kv, (snd kv, marshal true false (snd kv)))) sl) acc =
       emit true ps (map (fun kv : str * pyv => (fst kv, (snd kv, marshal true true (snd kv)))) (flat_map (keep c) sl)) acc).
    { induction ps as [|p ps IHp]; intros acc Ip; auto. cbn [emit negb andb].
      assert (Ip' : incl ps (w_props W c)) by (intros q iq; apply Ip; simpl; auto).
      assert (ip : In p (w_props W c)) by (apply Ip; simpl; auto).
      rewrite (find_name_mapped (fun _ x => (x, marshal true false x)) (q_name p) sl).
      rewrite (find_name_mapped (fun _ x => (x, marshal true true x)) (q_name p) (flat_map (keep c) sl)).
      rewrite (keep_find c p sl (HN c) ip). destruct (q_extraneous p); cbn [option_map]; [now apply IHp|].
      destruct (find_name (q_name p) sl) as [x|] eqn:F; cbn [option_map]; [|now apply IHp].
      destruct (key_in_doc p) as [k|]; [|now apply IHp].
      apply find_name_in in F. pose proof (IH x (size_obj c _ _ _ F) true) as ex.
      unfold conv_out. destruct (q_json p).
      - destruct (q_out p) as [f|].
        + destruct (f x) as [j|e]; [now apply IHp|]. destruct (is_attr_err e); [now apply IHp|reflexivity].
        + rewrite ex. destruct (marshal true true (strip W x)) as [j|e]; [now apply IHp|]. destruct (is_attr_err e); [now apply IHp|reflexivity].
      - rewrite ex. destruct (marshal true true (strip W x)) as [j|e]; [now apply IHp|]. destruct (is_attr_err e); [now apply IHp|reflexivity]. }
    destruct (w_kind W c) eqn:K; cbn [JsonModel.marshal]; rewrite K;
      try (rewrite COLL; reflexivity).
    + fold (keep c). rewrite (EM _ _ (incl_refl _)). reflexivity.
    + fold (keep c). rewrite (EM _ _ (incl_refl _)).
      destruct (emit true _ _ []) as [jd|]; cbn [bind]; [|reflexivity]. destruct full; [|reflexivity].
      rewrite !unknown_slot. cbn [orb].
      destruct (find_prop unknown_name (w_props W c)) as [p|] eqn:FP.
      * pose proof FP as FP'. apply find_name_in, in_map_iff in FP' as (p' & e & ip). injection e as en ->. 
        rewrite <- en. rewrite (keep_find c p sl (HN c) ip). rewrite en.
        destruct (q_extraneous p); cbn [option_map negb].
        { destruct (find_name unknown_name sl) as [x|]; cbn [option_map]; reflexivity. }
        destruct (find_name unknown_name sl) as [x|] eqn:F; cbn [option_map]; [|reflexivity].
        rewrite (HU c p ip en). apply find_name_in in F. pose proof (size_obj c _ _ _ F) as sx.
        destruct x as [ |?|?|?|?|?|l|?|c' sl'|?]; cbn [strip]; auto.
        -- rewrite map_map. cbn [fst snd]. replace (map (fun x => (fst x, marshal false true (strip W (snd x)))) l)
             with (map (fun e => (fst e, marshal false false (snd e))) l); [reflexivity|].
           apply map_ext_in. intros [k x] i. cbn [fst snd]. f_equal. apply IH. pose proof (size_dict k x l i). lia.
        -- destruct (w_kind W c'); reflexivity.
      * assert (KN : find_name unknown_name (flat_map (keep c) sl) = None).
        { apply find_name_none. intros i. apply in_map_iff in i as ([n x] & e & i). cbn [fst] in e. subst n.
          apply in_flat_map in i as ([n y] & _ & i). unfold keep in i. cbn [fst snd] in i.
          destruct (find _ _) as [p|] eqn:FF; [|destruct i]. apply find_some in FF as [ip en]. apply str_eqb_eq in en.
          assert (hn : n = unknown_name) by (destruct (q_extraneous p); [destruct i|]; destruct (conv_out p); destruct i as [E|[]]; injection E as <- _; reflexivity).
          rewrite hn in en. apply find_name_none in FP. apply FP. rewrite map_map. cbn [fst]. rewrite <- en. now apply in_map. }
        rewrite KN. cbn [option_map]. destruct (find_name unknown_name sl); cbn [option_map]; reflexivity.
Qed.
End M.
