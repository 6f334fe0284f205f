(** Lemmas on deleting and patching through multi field selectors. *)
From Coq Require Import List Arith NArith ZArith Bool Lia.
From Verif Require Import Prelude SelPathModel FSModel FSProofs PySeq CollProofs MFSModel MFSProofs TreeModel TreeProofs TreeProps MFSTreeModel MFSTreeProofs.
Import ListNotations.

Definition is_name (e : elem) : Prop := exists n, e = EStr n.

Lemma name_plain p : Forall is_name p -> Forall plain p.
Proof. intros H. eapply Forall_impl; [|exact H]. intros e [n ->]. exact I. Qed.
Lemma name_named p : Forall is_name p -> Forall named p.
Proof. intros H. eapply Forall_impl; [|exact H]. intros e [n ->]. discriminate. Qed.

Lemma names_part p q : Forall is_name p -> Forall is_name q -> ~ prefix p q -> ~ prefix q p -> part_ways p q.
Proof.
  intros Hp Hq N1 N2. destruct (C04_part_ways_complete p q) as [[r E]|[[r E]|H]]; auto using name_plain.
  - exfalso. apply N1. exists r. exact E.
  - exfalso. apply N2. exists r. exact E.
Qed.

Lemma part_ways_sym p q : part_ways p q -> part_ways q p.
Proof. intros (c&a&b&p'&q'&->&->&?&?&?&?). exists c, b, a, q', p'. repeat split; auto. Qed.

Section Del.
Context {A C T : Type}.
Variable a_none : A.
Variable a_key : elem -> A.
Variable a_str : A -> bool.
Variable a_indexable : A -> bool.
Variable a_item : A -> elem -> res A.
Variable a_attr : A -> str -> option A.
Variable a_iter : A -> res (list A).
Variable a_len : A -> Z.
Variable unset : C -> str -> option A.
Variable store : C -> str -> obj A C -> res (obj A C).
Variable erase : C -> str -> bool -> option exn.
Variable istore : C -> obj A C -> res (obj A C).
Variable itemtype : C -> res T.
Variable valuetype : C -> str -> res T.
Variable call : T -> option (str * obj A C) -> res (obj A C).

Notation obj := (obj A C).
Notation step := (step a_str a_indexable a_item a_attr unset).
Notation get := (get a_none a_key a_str a_indexable a_item a_attr a_iter unset).
Notation put_last := (put_last a_key a_str a_indexable a_iter store istore).
Notation del_last := (del_last a_str a_indexable a_attr unset erase).
Notation delete := (delete a_key a_str a_indexable a_item a_attr a_iter unset erase).
Notation viv := (viv a_str a_indexable a_item a_attr a_len unset store istore itemtype valuetype call).
Notation post := (post a_key a_str a_indexable a_item a_attr a_iter a_len unset store istore itemtype valuetype call).
Notation check_all := (check_all a_none a_key a_str a_indexable a_item a_attr a_iter unset).
Notation delete_all := (delete_all a_key a_str a_indexable a_item a_attr a_iter unset erase).
Notation lift := (lift a_none a_key a_str a_indexable a_item a_attr a_iter unset).
Notation apply_all := (apply_all a_key a_str a_indexable a_item a_attr a_iter a_len unset store erase istore itemtype valuetype call).
Notation dict_keys_present := (dict_keys_present a_none a_key a_str a_indexable a_item a_attr a_iter unset).

(** ** Objects without repeated names; with dicts and lists or without *)
Inductive tidy_obj (dicts lists : bool) : obj -> Prop :=
| tidy_atom a : tidy_obj dicts lists (OAtom a)
| tidy_rec c sl : NoDup (map fst sl) -> (forall n x, In (n, x) sl -> tidy_obj dicts lists x) ->
    tidy_obj dicts lists (ORec c sl)
| tidy_list c xs : lists = true -> (forall x, In x xs -> tidy_obj dicts lists x) -> tidy_obj dicts lists (OList c xs)
| tidy_dict c kvs : dicts = true -> NoDup (map fst kvs) ->
    (forall k x, In (k, x) kvs -> tidy_obj dicts lists x) -> tidy_obj dicts lists (ODict c kvs).

Variables dd ll : bool.
Notation tidy := (tidy_obj dd ll).

Lemma dict_get_In {K} (keqb : K -> K -> bool) (Hk : forall a b, keqb a b = true <-> a = b) {X} (d : list (K * X)) k x :
  dict_get keqb d k = Some x -> In (k, x) d.
Proof.
  induction d as [|[a y] t IH]; simpl; [discriminate|]. destruct (keqb a k) eqn:E.
  - apply Hk in E. intros H; inversion H; subst. now left.
  - intros H. right. auto.
Qed.

Lemma dict_set_In2 {K} (keqb : K -> K -> bool) {X} (d : list (K * X)) k x a y :
  In (a, y) (dict_set keqb d k x) -> y = x \/ exists b, In (b, y) d.
Proof.
  induction d as [|[b z] t IH]; simpl.
  - intros [H|[]]. inversion H; subst. now left.
  - destruct (keqb b k).
    + intros [H|H]; [inversion H; subst; now left|]. right. eauto.
    + intros [H|H]; [inversion H; subst; right; eauto|]. destruct (IH H) as [->|[b' Hb]]; eauto.
Qed.

Lemma tidy_step o s x : named s -> tidy o -> step o s = Ok x -> tidy x.
Proof.
  intros N H E. apply step_cases in E as [[[a ->] _]|[(c&xs&i&->&->&E)|[(c&kvs&->&E)|(c&sl&n&->&->&E)]]]; auto.
  - constructor.
  - apply seq_get_inv in E as (k&_&E). inversion H; subst. eauto using nth_error_In.
  - inversion H; subst. eapply H4. eapply dict_get_In; eauto. apply elem_eqb_eq.
  - inversion H; subst. eapply H3. eapply dict_get_In; eauto. apply str_eqb_eq.
Qed.

Lemma tidy_get p : forall o x, Forall named p -> tidy o -> get p o = Ok x -> tidy x.
Proof.
  induction p as [|s t IH]; intros o x Hp H E.
  - simpl in E. inversion E; subst; auto.
  - inversion Hp; subst. rewrite get_cons in E by auto. destruct (step o s) as [y|] eqn:Es; [|discriminate].
    simpl in E. apply (IH y); auto. eapply (tidy_step o s); eauto.
Qed.

Lemma tidy_replace o s x : tidy o -> tidy x -> tidy (replace o s x).
Proof.
  intros H Hx. destruct o as [a|c sl|c xs|c kvs]; simpl; auto.
  - destruct s as [n| |]; auto. destruct (dict_get str_eqb sl n) eqn:E; auto. inversion H; subst. constructor.
    + apply dict_set_NoDup; auto. apply str_eqb_eq.
    + intros m y Hy. apply dict_set_In2 in Hy as [->|[b Hb]]; eauto.
  - destruct s as [|i|]; auto. destruct (seq_set xs i x) as [ys|] eqn:E; auto. inversion H; subst. constructor; auto.
    intros y Hy. unfold seq_set in E. destruct (norm_index (length xs) i) as [k|]; [|discriminate]. injection E as <-.
    apply in_app_or in Hy as [Hy|[<-|Hy]]; auto.
    + apply H3. rewrite <- (firstn_skipn k xs). apply in_or_app. now left.
    + apply H3. rewrite <- (firstn_skipn (S k) xs). apply in_or_app. now right.
  - inversion H; subst. constructor; auto.
    + apply dict_set_NoDup; auto. apply elem_eqb_eq.
    + intros m y Hy. apply dict_set_In2 in Hy as [->|[b Hb]]; eauto.
Qed.

Lemma tidy_del_last s o r o' : named s -> tidy o -> del_last s o = (r, o') -> tidy o'.
Proof.
  intros N H E. destruct r as [e|]; [apply del_last_fail in E; now subst|].
  apply (del_last_cases a_str a_indexable a_item) in E
    as [[_ ->]|[(c&xs&i&k&->&_&_&->)|[(c&kvs&x&->&_&->)|(c&sl&n&x&->&->&_&->&_)]]]; auto.
  - inversion H; subst. constructor; auto. intros y Hy. apply H3.
    apply in_app_or in Hy as [Hy|Hy].
    + rewrite <- (firstn_skipn k xs). apply in_or_app. now left.
    + rewrite <- (firstn_skipn (S k) xs). apply in_or_app. now right.
  - inversion H; subst. constructor; auto.
    + apply dict_del_NoDup; auto.
    + intros a y Hy. apply dict_del_sub in Hy. eauto.
  - inversion H; subst. constructor; auto.
    + apply dict_del_NoDup; auto.
    + intros a y Hy. apply dict_del_sub in Hy. eauto.
Qed.

Lemma tidy_delete p : forall o r o', Forall named p -> tidy o -> delete p o = (r, o') -> tidy o'.
Proof.
  induction p as [|s t IH]; intros o r o' Hp H E.
  - simpl in E. inversion E; subst; auto.
  - inversion Hp; subst. destruct t as [|s' u].
    + eapply (tidy_del_last s); eauto.
    + rewrite delete_cons in E by auto. destruct (step o s) as [x|] eqn:Es; [|inversion E; subst; auto].
      destruct (delete (s' :: u) x) as [e x'] eqn:Ex. inversion E; subst.
      apply tidy_replace; auto. apply (IH x r x'); auto. eapply (tidy_step o s); eauto.
Qed.

(** ** Deleting a named path *)

Lemma delete_gone p o o' : Forall is_name p -> tidy o ->
  (forall c n, In (EStr n) p -> unset c n = None) ->
  delete p o = (None, o') -> exists e, get p o' = Err e.
Proof.
  intros Hn Ht Hu H. destruct p as [|s t _] using rev_ind; [discriminate|].
  pose proof (name_named _ Hn) as Hn'. apply Forall_app in Hn as [Hp Hs], Hn' as [Hp' Hs'].
  inversion Hs as [|? ? [n ->] _]; subst.
  eapply C06_deleted_is_gone; eauto.
  - intros c sl m G E. inversion E; subst. split.
    + eapply tidy_get in G; eauto. now inversion G.
    + apply Hu. apply in_or_app. right. now left.
  - intros c kvs G. eapply tidy_get in G; eauto. now inversion G.
  - intros c xs G. eapply delete_down in H as [(h&h'&G1&G2&_)|(e&_&?&_)]; eauto; [|discriminate].
    rewrite G in G1. inversion G1; subst. apply (del_last_cases a_str a_indexable a_item) in G2
      as [[Es _]|[(?&?&?&?&_&?&_)|[(?&?&?&?&_)|(?&?&?&?&?&_)]]]; try discriminate.
  - discriminate.
Qed.

Lemma delete_name_frame p q o r o' : Forall is_name p -> part_ways p q ->
  delete p o = (r, o') -> get q o' = get q o.
Proof.
  intros Hn (c&a&b&p'&q'&->&->&Hc&Pa&Pb&N) H.
  destruct r as [e|].
  - apply delete_fail in H; [now subst|]. now apply name_named.
  - eapply C06_delete_frame with (a := a); eauto. intros -> k xs G.
    eapply delete_down in H as [(h&h'&G1&G2&_)|(e&_&?&_)]; eauto; [|discriminate].
    rewrite G in G1. inversion G1; subst. apply Forall_app in Hn as [_ Hn]. inversion Hn as [|? ? [n ->] _]; subst.
    apply (del_last_cases a_str a_indexable a_item) in G2
      as [[Es _]|[(?&?&?&?&_&?&_)|[(?&?&?&?&_)|(?&?&?&?&?&_)]]]; try discriminate.
Qed.

(** names that immutable values and classes have nothing for *)
Definition bare (n : str) : Prop :=
  (forall c, unset c n = None) /\ (forall a x, step (OAtom a) (EStr n) <> Ok x).

Lemma step_bare o n x : bare n -> step o (EStr n) = Ok x ->
  (exists c kvs, o = ODict c kvs /\ dict_get elem_eqb kvs (EStr n) = Some x) \/
  (exists c sl, o = ORec c sl /\ dict_get str_eqb sl n = Some x).
Proof.
  intros [B1 B2] H. destruct o as [a|c sl|c xs|c kvs].
  - now apply B2 in H.
  - rewrite step_rec in H. rewrite B1 in H. destruct (dict_get str_eqb sl n) eqn:E; [|discriminate].
    inversion H; subst. right; eauto.
  - rewrite step_list in H. discriminate.
  - rewrite step_dict in H. destruct (dict_get elem_eqb kvs (EStr n)) eqn:E; [|discriminate].
    inversion H; subst. left; eauto.
Qed.

Lemma delete_present p : forall o v, Forall is_name p -> p <> [] -> (forall n, In (EStr n) p -> bare n) ->
  (forall c n, In (EStr n) p -> erase c n true = None) ->
  get p o = Ok v -> exists o', delete p o = (None, o').
Proof.
  induction p as [|s t IH]; intros o v Hn Ne B E G; [congruence|].
  inversion Hn as [|? ? [n ->] Hn']; subst. rewrite get_cons in G by discriminate.
  destruct (step o (EStr n)) as [x|] eqn:Es; [|discriminate]. simpl in G.
  destruct t as [|s' u].
  - apply step_bare in Es as [(c&kvs&->&Ex)|(c&sl&->&Ex)]; [| |apply B; now left].
    + simpl. unfold TreeModel.del_last. simpl. rewrite Ex. eauto.
    + simpl. unfold TreeModel.del_last. simpl. rewrite Ex. simpl.
      rewrite (E c n) by now left. eauto.
  - rewrite delete_cons by discriminate. rewrite Es.
    destruct (IH x v) as [x' Hx]; auto; try discriminate.
    + intros m Hm. apply B. now right.
    + intros c m Hm. apply E. now right.
    + rewrite Hx. eauto.
Qed.

(** ** delete *)

Lemma check_all_none ps o : check_all ps o = None <-> forall p, In p ps -> exists v, get p o = Ok v.
Proof.
  induction ps as [|p t IH]; simpl.
  - split; auto. intros _ p [].
  - destruct (get p o) as [v|e] eqn:E.
    + rewrite IH. split; intros H q.
      * intros [->|Hq]; eauto.
      * intros Hq. apply H. now right.
    + split; [discriminate|]. intros H. destruct (H p (or_introl eq_refl)) as [v Hv]. congruence.
Qed.

Lemma check_all_some ps o e : check_all ps o = Some e -> exists p, In p ps /\ get p o = Err e.
Proof.
  induction ps as [|p t IH]; simpl; [discriminate|]. destruct (get p o) as [v|e'] eqn:E.
  - intros H. destruct (IH H) as (q&?&?). eauto.
  - intros H; inversion H; subst. eauto.
Qed.

Definition apart (ps : list (list elem)) : Prop := ForallOrdPairs part_ways ps.

Lemma delete_all_frame ps : forall o r o' q, Forall (Forall is_name) ps ->
  (forall p, In p ps -> part_ways p q) -> delete_all ps o = (r, o') -> get q o' = get q o.
Proof.
  induction ps as [|p t IH]; intros o r o' q Hn Hq H; cbn [MFSTreeModel.delete_all] in H.
  - inversion H; reflexivity.
  - inversion Hn; subst. destruct (delete p o) as [[e|] o1] eqn:Ep.
    + assert (G : get q o1 = get q o). { eapply delete_name_frame; eauto. apply Hq. now left. }
      destruct (is_fs_exc e).
      * rewrite <- G. eapply IH; eauto. intros x Hx. apply Hq. now right.
      * inversion H; subst. exact G.
    + assert (G : get q o1 = get q o). { eapply delete_name_frame; eauto. apply Hq. now left. }
      rewrite <- G. eapply IH; eauto. intros x Hx. apply Hq. now right.
Qed.

Lemma delete_all_present ps : forall o, Forall (Forall is_name) ps -> Forall (fun p => p <> []) ps -> apart ps -> tidy o ->
  (forall p n, In p ps -> In (EStr n) p -> bare n /\ forall c, erase c n true = None) ->
  (forall p, In p ps -> exists v, get p o = Ok v) ->
  exists o', delete_all ps o = (None, o') /\ forall p, In p ps -> exists e, get p o' = Err e.
Proof.
  induction ps as [|p t IH]; intros o Hn Hne Ha Ht Hb Hg; cbn [MFSTreeModel.delete_all].
  - exists o. split; auto. intros p [].
  - inversion Hn; inversion Hne; inversion Ha; subst.
    destruct (Hg p (or_introl eq_refl)) as [v Hv].
    destruct (delete_present p o v) as [o1 E1]; auto.
    { intros n Hm. apply (Hb p n); auto. now left. }
    { intros c n Hm. apply (Hb p n); auto. now left. }
    rewrite E1. destruct (IH o1) as (o'&E2&G2); auto.
    + eapply (tidy_delete p o _ o1); eauto using name_named.
    + intros x n Hx Hm. apply (Hb x n); auto. now right.
    + intros x Hx. rewrite Forall_forall in H9.
      rewrite (delete_name_frame p x o None o1); auto. apply Hg. now right.
    + exists o'. split; auto. intros x [<-|Hx]; auto.
      destruct (delete_gone p o o1) as [e He]; auto.
      { intros c n Hm. destruct (Hb p n) as [[B _] _]; auto. now left. }
      exists e. rewrite <- He. eapply delete_all_frame; eauto.
      intros y Hy. rewrite Forall_forall in H9. apply part_ways_sym. auto.
Qed.

(** ** delete with force *)

Lemma delete_fs_only p : forall o e o', Forall is_name p -> p <> [] -> tidy o -> negb dd = true -> negb ll = true ->
  (forall n, In (EStr n) p -> forall c, erase c n true = None) ->
  (forall n, In (EStr n) p -> (forall c, unset c n = None) /\
     forall a, (a_str a = true \/ a_indexable a = false) /\ a_attr a n = None) ->
  delete p o = (Some e, o') -> is_fs_exc e = true.
Proof.
  induction p as [|s t IH]; intros o e o' Hn Ne Ht Hd Hl He Ha H; [congruence|].
  inversion Hn as [|? ? [n ->] Hn']; subst. destruct (Ha n (or_introl eq_refl)) as [Hu Hat].
  assert (Hs : match step o (EStr n) with Ok x => exists c sl, o = ORec c sl /\ dict_get str_eqb sl n = Some x | Err e1 => e1 = FSAttrErr end).
  { inversion Ht; subst; try discriminate.
    - destruct (Hat a) as [Hi Han]. unfold TreeModel.step, try_index. simpl. destruct (a_str a); simpl.
      + now rewrite Han.
      + destruct Hi as [Hi|Hi]; [discriminate|]. rewrite Hi. simpl. now rewrite Han.
    - rewrite step_rec. rewrite Hu. destruct (dict_get str_eqb sl n) eqn:E; eauto. }
  destruct t as [|s' u].
  - change (delete [EStr n] o) with (del_last (EStr n) o) in H.
    unfold TreeModel.del_last in H. unfold TreeModel.step in Hs.
    destruct (try_index a_str a_indexable o (EStr n)) eqn:Et.
    + exfalso. inversion Ht; subst; try discriminate.
      * destruct (Hat a) as [Hi _]. unfold try_index in Et. simpl in Et.
        destruct (a_str a); [discriminate|]. destruct Hi; congruence.
    + destruct (attr a_attr unset o (EStr n)) as [x|e1] eqn:Ea.
      * destruct Hs as (c&sl&->&Ex). simpl in H. rewrite Ex in H.
        rewrite (He n (or_introl eq_refl) c) in H. discriminate.
      * destruct (is_attr_err e1) eqn:Ei; [discriminate|]. subst. discriminate.
  - rewrite delete_cons in H by discriminate. destruct (step o (EStr n)) as [x|e1] eqn:Es.
    + destruct (delete (s' :: u) x) as [e2 x'] eqn:Ex. injection H as -> _.
      apply (IH x e x'); auto; try discriminate.
      * apply (tidy_step o (EStr n)); auto. discriminate.
      * intros m Hm. apply He. now right.
      * intros m Hm. apply Ha. now right.
    + subst. injection H as <- _. reflexivity.
Qed.

Lemma delete_all_force ps : forall o, Forall (Forall is_name) ps -> Forall (fun p => p <> []) ps -> tidy o ->
  negb dd = true -> negb ll = true ->
  (forall p n, In p ps -> In (EStr n) p -> forall c, erase c n true = None) ->
  (forall p n, In p ps -> In (EStr n) p -> (forall c, unset c n = None) /\
     forall a, (a_str a = true \/ a_indexable a = false) /\ a_attr a n = None) ->
  fst (delete_all ps o) = None.
Proof.
  induction ps as [|p t IH]; intros o Hn Hne Ht Hd Hl He Ha; cbn [MFSTreeModel.delete_all]; auto.
  inversion Hn; inversion Hne; subst. destruct (delete p o) as [[e|] o1] eqn:Ep.
  - rewrite (delete_fs_only p o e o1); auto.
    + apply IH; auto.
      * eapply (tidy_delete p o _ o1); eauto using name_named.
      * intros x n Hx. apply He. now right.
      * intros x n Hx. apply Ha. now right.
    + intros n Hm. eapply He; eauto. now left.
    + intros n Hm. eapply Ha; eauto. now left.
  - apply IH; auto.
    + eapply (tidy_delete p o _ o1); eauto using name_named.
    + intros x n Hx. apply He. now right.
    + intros x n Hx. apply Ha. now right.
Qed.

(** ** patch *)

Definition keeps_tidy : Prop :=
  (forall c n v v', store c n v = Ok v' -> tidy v -> tidy v') /\
  (forall c v v', istore c v = Ok v' -> tidy v -> tidy v') /\
  (forall ty x, call ty None = Ok x -> tidy x) /\
  (forall ty n v x, call ty (Some (n, v)) = Ok x -> tidy v -> tidy x).

Hypothesis KT : keeps_tidy.

Lemma slot_stores_tidy h s v v' : slot_stores store istore h s v v' -> tidy v -> tidy v'.
Proof. destruct KT as (K1&K2&_). intros H Hv. inversion H; subst; eauto. Qed.

Lemma tidy_put_last s v o r o' : named s -> tidy o -> tidy v -> put_last s v o = (r, o') -> tidy o'.
Proof.
  intros N Ho Hv H. destruct r as [e|]; [apply put_last_fail in H; now subst|].
  rewrite put_last_named in H by auto. destruct KT as (K1&K2&_).
  destruct (try_index a_str a_indexable o s).
  - destruct (item_set istore o s v) as [o1|] eqn:E; inversion H; subst.
    destruct o as [a|c sl|c xs|c kvs]; cbn [item_set] in E; try discriminate.
    + destruct (coll_store istore c v) as [v'|] eqn:Ev; cbn [bind] in E; [|discriminate].
      assert (tidy v') as Hv'. { destruct c; simpl in Ev; [eauto|]. inversion Ev; subst; auto. }
      destruct s as [|i|]; try discriminate.
      pose proof (tidy_replace (OList c xs) (EInt i) v' Ho Hv') as G. simpl in G.
      destruct (seq_set xs i v') as [ys|] eqn:Es; cbn [bind] in E; inversion E; subst. exact G.
    + destruct (coll_store istore c v) as [v'|] eqn:Ev; cbn [bind] in E; inversion E; subst.
      assert (tidy v') as Hv'. { destruct c; simpl in Ev; [eauto|]. inversion Ev; subst; auto. }
      exact (tidy_replace (ODict c kvs) s v' Ho Hv').
  - destruct (attr_set store o s v) as [o1|] eqn:E; inversion H; subst.
    destruct o as [a|c sl|c xs|c kvs], s as [n|i|]; cbn [attr_set] in E; try discriminate.
    destruct (store c n v) as [v'|] eqn:Ev; cbn [bind] in E; inversion E; subst.
    inversion Ho; subst. constructor.
    + apply dict_set_NoDup; auto. apply str_eqb_eq.
    + intros m y Hy. apply dict_set_In2 in Hy as [->|[b Hb]]; eauto.
Qed.

Definition kw_tidy (kw : option (elem * obj)) : Prop := match kw with Some (_, v) => tidy v | None => True end.

Lemma make_tidy ty kw x : TreeModel.make call ty kw = Ok x -> kw_tidy kw -> tidy x.
Proof.
  destruct KT as (_&_&K3&K4). destruct kw as [[[n| |] v]|]; simpl; intros H Hk; try discriminate; eauto.
Qed.

Lemma new_item_tidy c kw x : new_item istore itemtype call c kw = Ok x -> kw_tidy kw -> tidy x.
Proof.
  destruct c as [c|]; simpl; [|discriminate]. destruct (itemtype c) as [ty|]; cbn [bind]; [|discriminate].
  destruct (TreeModel.make call ty kw) as [y|] eqn:E; cbn [bind]; [|discriminate]. intros H Hk.
  destruct KT as (_&K2&_). eapply K2; eauto. eapply make_tidy; eauto.
Qed.

Lemma viv_tidy o s kw : named s -> tidy o -> kw_tidy kw ->
  match viv o s kw with
  | VStop _ => True
  | VThere x => tidy x
  | VMade o' x => tidy o' /\ tidy x
  | VStay o' => tidy o'
  end.
Proof.
  intros N Ho Hk. destruct (viv o s kw) as [e|x|o' x|o'] eqn:E; auto.
  - apply viv_there in E. eapply (tidy_step o s); eauto.
  - apply viv_made in E as [(c&xs&->&->&En&->)|(c&sl&n&ty&y&->&->&_&_&_&Em&Es&->)].
    + apply new_item_tidy in En; auto. split; auto. inversion Ho; subst. constructor; auto.
      intros y Hy. apply in_app_or in Hy as [Hy|[<-|[]]]; auto.
    + assert (tidy x) as Hx. { destruct KT as (K1&_). eapply K1; eauto. eapply make_tidy; eauto. }
      split; auto. inversion Ho; subst. constructor.
      * apply dict_set_NoDup; auto. apply str_eqb_eq.
      * intros m z Hz. apply dict_set_In2 in Hz as [->|[b Hb]]; eauto.
  - apply viv_stay in E as (c&kvs&x&->&_&En&->). apply new_item_tidy in En; auto.
    exact (tidy_replace (ODict c kvs) s x Ho En).
Qed.

Lemma tidy_post p : forall v o r o', Forall named p -> tidy o -> tidy v -> post p v o = (r, o') -> tidy o'.
Proof.
  induction p as [|s t IH]; intros v o r o' Hp Ho Hv H.
  - simpl in H. inversion H; subst; auto.
  - inversion Hp; subst. destruct t as [|l u].
    + cbn [TreeModel.post] in H. destruct (put_last s v o) as [re o1] eqn:E.
      assert (tidy o1) by (apply (tidy_put_last s v o re o1); auto).
      destruct re; inversion H; subst; auto.
    + rewrite post_cons in H by auto.
      assert (Hk : kw_tidy (kwarg (l :: u) v)). { destruct u, l; simpl; auto. }
      pose proof (viv_tidy o s _ H2 Ho Hk) as G.
      destruct (viv o s (kwarg (l :: u) v)) as [e|x|o1 x|o1].
      * inversion H; subst; auto.
      * destruct (post (l :: u) v x) as [r1 x'] eqn:Ex. inversion H; subst.
        apply tidy_replace; auto. apply (IH v x r x'); auto.
      * destruct G as [G1 G2]. destruct (kwarg (l :: u) v); [inversion H; subst; auto|].
        destruct (post (l :: u) v x) as [r1 x'] eqn:Ex. inversion H; subst.
        apply tidy_replace; auto. apply (IH v x r x'); auto.
      * destruct (kwarg (l :: u) v); [inversion H; subst; auto|].
        apply (IH v o1 r o'); auto.
Qed.

Lemma tidy_keys_present p o o' : negb dd = true -> Forall named p -> tidy o' -> dict_keys_present p o o'.
Proof.
  intros Hd Hp Ho p1 k p2 c kvs E _ G. exfalso. subst p. apply Forall_app in Hp as [Hp _].
  apply tidy_get in G; auto. inversion G as [| | |c0 kvs0 D]; rewrite D in Hd; discriminate.
Qed.

(** a place that has a holder is not touched by a post elsewhere, also when it is empty *)
Lemma viv_made_other o s kw o' x b : plain b -> s <> b -> viv o s kw = VMade o' x -> step o' b = step o b.
Proof.
  intros Pb N E. apply viv_made in E as [(c&xs&->&->&_&->)|(c&sl&n&ty&y&->&->&_&_&_&_&_&->)].
  - rewrite !step_list. destruct b as [|j|]; auto. simpl in Pb.
    destruct (Z_lt_ge_dec j (Z.of_nat (length xs))) as [L|L].
    + replace (seq_get (xs ++ [x]) j) with (seq_get xs j); auto.
      unfold seq_get, norm_index. replace (j <? 0)%Z with false by (symmetry; apply Z.ltb_ge; lia).
      rewrite app_length. cbn [length].
      replace (j <? Z.of_nat (length xs))%Z with true by (symmetry; apply Z.ltb_lt; lia).
      replace (j <? Z.of_nat (length xs + 1))%Z with true by (symmetry; apply Z.ltb_lt; lia).
      destruct (0 <=? j)%Z; simpl; auto. rewrite nth_error_app1 by lia. reflexivity.
    + assert (j <> Z.of_nat (length xs)) by congruence.
      unfold seq_get, norm_index. replace (j <? 0)%Z with false by (symmetry; apply Z.ltb_ge; lia).
      rewrite app_length. cbn [length].
      replace (j <? Z.of_nat (length xs))%Z with false by (symmetry; apply Z.ltb_ge; lia).
      replace (j <? Z.of_nat (length xs + 1))%Z with false by (symmetry; apply Z.ltb_ge; lia).
      rewrite !andb_false_r. reflexivity.
  - rewrite !step_rec. destruct b as [m| |]; auto.
    rewrite (dict_set_other str_eqb str_eqb_eq); auto. congruence.
Qed.

Lemma post_here_other a p b v o r o' : negb dd = true -> Forall named (a :: p) -> plain a -> plain b -> a <> b -> tidy o ->
  post (a :: p) v o = (r, o') -> step o' b = step o b.
Proof.
  intros Hd Hn Pa Pb N Ho H. destruct p as [|l u].
  - cbn [TreeModel.post] in H. destruct (put_last a v o) as [[e|] o1] eqn:E; inversion H; subst;
      eapply put_last_other with (s := a); eauto.
  - assert (Na : named a) by now inversion Hn. rewrite post_cons in H by auto.
    destruct (viv o a (kwarg (l :: u) v)) as [e|x|o1 x|o1] eqn:E.
    + inversion H; subst; auto.
    + destruct (post (l :: u) v x) as [r1 x'] eqn:Ex. inversion H; subst. now apply step_replace_other.
    + destruct (kwarg (l :: u) v).
      * inversion H; subst. eapply viv_made_other; eauto.
      * destruct (post (l :: u) v x) as [r1 x'] eqn:Ex. inversion H; subst.
        rewrite step_replace_other by auto. eapply viv_made_other; eauto.
    + apply viv_stay in E as (c&kvs&x&->&_). inversion Ho as [| | |c0 kvs0 D]; rewrite D in Hd; discriminate.
Qed.

Lemma post_keeps_missing c b p v o h r o' : negb dd = true -> Forall named p -> part_ways p (c ++ [b]) ->
  Forall plain c -> plain b -> tidy o -> tidy v -> get c o = Ok h -> post p v o = (r, o') ->
  (exists h', get c o' = Ok h') /\ get (c ++ [b]) o' = get (c ++ [b]) o.
Proof.
  intros Hd Hn (d&x&y&p'&q'&->&Eq&Hc&Px&Py&N) Pc Pb Ho Hv G H.
  assert (Nc : Forall named c). { eapply Forall_impl; [|exact Pc]. intros e He ->. contradiction. }
  destruct (list_eq_dec elem_eq_dec d c) as [->|Nd].
  - (* they part at the last step *)
    apply app_inv_head in Eq. injection Eq as <- <-.
    destruct (post (x :: p') v h) as [r1 h'] eqn:Eh.
    destruct (post_down a_none a_key a_str a_indexable a_item a_attr a_iter a_len unset store istore itemtype valuetype call
      c (x :: p') v o h r1 h' Nc ltac:(discriminate) G Eh) as (o2&E1&E2&_).
    rewrite H in E1. inversion E1; subst. split; eauto. rewrite !get_app by auto. rewrite G, E2. cbn [bind].
    assert (Nb : named b) by (intros ->; contradiction). rewrite !get_cons by auto.
    assert (Forall named (x :: p')) as Hn1 by (now apply Forall_app in Hn as [_ Hn]).
    rewrite (post_here_other x p' b v h r1 h'); auto. eapply (tidy_get c o); eauto.
  - (* before *)
    assert (exists q'', c = d ++ y :: q'') as [q'' ->].
    { destruct (rev q') as [|z w] eqn:Er.
      - apply (f_equal (@rev elem)) in Er. rewrite rev_involutive in Er. simpl in Er. subst q'.
        apply app_inj_tail in Eq as [-> _]. congruence.
      - apply (f_equal (@rev elem)) in Er. rewrite rev_involutive in Er. simpl in Er. subst q'.
        change (d ++ y :: rev w ++ [z]) with (d ++ (y :: rev w) ++ [z]) in Eq. rewrite app_assoc in Eq.
        apply app_inj_tail in Eq as [-> _]. eauto. }
    assert (D : dict_keys_present (d ++ x :: p') o o').
    { apply tidy_keys_present; auto. eapply (tidy_post (d ++ x :: p') v o r o'); eauto. }
    assert (G' : get (d ++ y :: q'') o' = Ok h).
    { eapply (post_frame a_none) with (a := x); eauto. }
    split; eauto. rewrite !get_app with (p := d ++ y :: q'') by auto. now rewrite G, G'.
Qed.

Lemma lift_spec ps src : forall l, lift ps src = Ok l ->
  Forall2 (fun p pv => fst pv = p /\ match snd pv with
                                     | Some v => get p src = Ok v
                                     | None => exists e, get p src = Err e /\ is_attr_err e = true
                                     end) ps l.
Proof.
  induction ps as [|p t IH]; intros l H; cbn [MFSTreeModel.lift] in H.
  - inversion H; constructor.
  - destruct (get p src) as [v|e] eqn:E.
    + destruct (lift t src) as [l'|]; cbn [bind] in H; inversion H; subst. constructor; [simpl; split; auto|auto].
    + destruct (is_attr_err e) eqn:Ei; [|discriminate].
      destruct (lift t src) as [l'|]; cbn [bind] in H; inversion H; subst. constructor; [simpl; split; eauto|auto].
Qed.

Lemma lift_err ps src e : lift ps src = Err e -> exists p, In p ps /\ get p src = Err e /\ is_attr_err e = false.
Proof.
  induction ps as [|p t IH]; intros H; cbn [MFSTreeModel.lift] in H; [discriminate|].
  destruct (get p src) as [v|e'] eqn:E.
  - destruct (lift t src) as [l'|]; cbn [bind] in H; inversion H; subst.
    destruct (IH eq_refl) as (q&?&?). exists q. split; auto. now right.
  - destruct (is_attr_err e') eqn:Ei.
    + destruct (lift t src) as [l'|]; cbn [bind] in H; inversion H; subst.
      destruct (IH eq_refl) as (q&?&?). exists q. split; auto. now right.
    + inversion H; subst. exists p. auto. split; auto. now left.
Qed.

Variable R : obj -> obj -> Prop.
Hypothesis KR : keeps a_none a_key a_str a_indexable a_item a_attr a_iter unset store istore call R.

(** what patch does with the values lifted *)
Lemma apply_all_frame l : forall o r o' q y, negb dd = true -> tidy o ->
  (forall p v, In (p, v) l -> Forall is_name p /\ part_ways p q /\ match v with Some x => tidy x | None => True end) ->
  apply_all l o = (r, o') -> get q o = Ok y -> get q o' = Ok y.
Proof.
  induction l as [|[p [v|]] t IH]; intros o r o' q y Hd Ho Hl H G; cbn [MFSTreeModel.apply_all] in H.
  - inversion H; subst; auto.
  - destruct (Hl p (Some v) (or_introl eq_refl)) as (Hp&Pq&Hv). pose proof (name_named _ Hp) as Hp'.
    destruct (post p v o) as [[n|e] o1] eqn:Ep.
    + assert (T1 : tidy o1) by (eapply (tidy_post _ _ _ _ _ Hp' Ho); eauto).
      eapply (IH o1); eauto.
      * intros p0 v0 Hin. apply Hl. now right.
      * eapply (C07_post_frame a_none) with (p := p); eauto. apply tidy_keys_present; auto.
    + inversion H; subst. eapply (C07_post_frame a_none) with (p := p); eauto.
      apply tidy_keys_present; auto. eapply (tidy_post _ _ _ _ _ Hp' Ho); eauto.
  - destruct (Hl p None (or_introl eq_refl)) as (Hp&Pq&_). pose proof (name_named _ Hp) as Hp'.
    destruct (delete p o) as [[e|] o1] eqn:Ep.
    + inversion H; subst. rewrite (delete_name_frame p q o (Some e) o'); auto.
    + eapply (IH o1); eauto.
      * eapply (tidy_delete _ _ _ _ Hp' Ho); eauto.
      * intros p0 v0 Hin. apply Hl. now right.
      * rewrite (delete_name_frame p q o None o1); auto.
Qed.

Lemma delete_holder c b o o' h p : Forall is_name p -> part_ways p (c ++ [b]) -> Forall named c ->
  delete p o = (None, o') -> get c o = Ok h -> exists h', get c o' = Ok h'.
Proof.
  intros Hn (d&x&y&p'&q'&->&Eq&Hc&Px&Py&N) Nc H G.
  destruct (list_eq_dec elem_eq_dec d c) as [->|Nd].
  - clear Eq N. destruct p' as [|s u].
    + eapply delete_down in H as [(h1&h'&_&_&G')|(e&_&?&_)]; eauto. discriminate.
    + (* below the holder *)
      revert o o' h G H. clear - Nc. induction Nc as [|s1 t Hs Ht IH]; intros o o' h G H.
      * simpl. eauto.
      * rewrite get_cons in G by auto. destruct (step o s1) as [z|] eqn:Es; [|discriminate]. simpl in G.
        change ((s1 :: t) ++ x :: s :: u) with (s1 :: (t ++ x :: s :: u)) in H.
        assert (E : exists y w, t ++ x :: s :: u = y :: w) by (destruct t; simpl; eauto).
        destruct E as (y&w&E). rewrite E in H. rewrite delete_cons in H by auto. rewrite Es, <- E in H.
        destruct (delete (t ++ x :: s :: u) z) as [e z'] eqn:Ez. inversion H; subst.
        destruct (IH z z' h G Ez) as [h' Gh]. exists h'. rewrite get_cons by auto.
        rewrite (step_replace a_str a_indexable a_item a_attr unset o s1 z z'); auto.
        intros Ha. eapply delete_atom_same; eauto.
  - assert (exists q'', c = d ++ y :: q'') as [q'' ->].
    { destruct (rev q') as [|z w] eqn:Er.
      - apply (f_equal (@rev elem)) in Er. rewrite rev_involutive in Er. simpl in Er. subst q'.
        apply app_inj_tail in Eq as [-> _]. congruence.
      - apply (f_equal (@rev elem)) in Er. rewrite rev_involutive in Er. simpl in Er. subst q'.
        change (d ++ y :: rev w ++ [z]) with (d ++ (y :: rev w) ++ [z]) in Eq. rewrite app_assoc in Eq.
        apply app_inj_tail in Eq as [-> _]. eauto. }
    exists h. rewrite <- G. eapply delete_name_frame; eauto.
    exists d, x, y, p', q''. repeat split; auto.
Qed.

Lemma apply_all_missing l : forall o o' c b h e, negb dd = true -> tidy o -> Forall plain c -> plain b ->
  (forall p v, In (p, v) l -> Forall is_name p /\ part_ways p (c ++ [b]) /\ match v with Some x => tidy x | None => True end) ->
  apply_all l o = (None, o') -> get c o = Ok h -> get (c ++ [b]) o = Err e -> get (c ++ [b]) o' = Err e.
Proof.
  induction l as [|[p [v|]] t IH]; intros o o' c b h e Hd Ho Pc Pb Hl H G G2; cbn [MFSTreeModel.apply_all] in H.
  - inversion H; subst; auto.
  - destruct (Hl p (Some v) (or_introl eq_refl)) as (Hp&Pq&Hv). pose proof (name_named _ Hp) as Hp'.
    destruct (post p v o) as [[n|e1] o1] eqn:Ep; [|discriminate].
    destruct (post_keeps_missing c b p v o h (Ok n) o1) as [[h' Gh] Gb]; auto.
    eapply (IH o1); eauto.
    + eapply (tidy_post _ _ _ _ _ Hp' Ho); eauto.
    + intros p0 v0 Hin. apply Hl. now right.
    + congruence.
  - destruct (Hl p None (or_introl eq_refl)) as (Hp&Pq&_). pose proof (name_named _ Hp) as Hp'.
    destruct (delete p o) as [[e1|] o1] eqn:Ep; [discriminate|].
    assert (Nc : Forall named c). { eapply Forall_impl; [|exact Pc]. intros z Hz ->. contradiction. }
    destruct (delete_holder c b o o1 h p) as [h' Gh]; auto.
    eapply (IH o1); eauto.
    + eapply (tidy_delete _ _ _ _ Hp' Ho); eauto.
    + intros p0 v0 Hin. apply Hl. now right.
    + rewrite (delete_name_frame p (c ++ [b]) o None o1); auto.
Qed.

Lemma apply_all_spec l : forall o o', negb dd = true -> tidy o -> apart (map fst l) ->
  (forall p v, In (p, v) l -> Forall is_name p /\ p <> [] /\ (forall c n, In (EStr n) p -> unset c n = None) /\
     match v with Some x => tidy x | None => True end) ->
  apply_all l o = (None, o') -> forall p v, In (p, v) l ->
  match v with
  | Some x => exists x', get p o' = Ok x' /\ R x x'
  | None => exists e, get p o' = Err e
  end.
Proof.
  induction l as [|[p1 v1] t IH]; intros o o' Hd Ho Ha Hl H p v Hin; [destruct Hin|].
  cbn [map fst] in Ha. inversion Ha as [|? ? Hp1 Ht]; subst.
  destruct (Hl p1 v1 (or_introl eq_refl)) as (Hn&Hne&Hu&Hv). pose proof (name_named _ Hn) as Hn'.
  assert (Rest : forall p v, In (p, v) t -> Forall is_name p /\ part_ways p p1 /\ match v with Some x => tidy x | None => True end).
  { intros p0 v0 Hin0. destruct (Hl p0 v0 (or_intror Hin0)) as (?&?&?&?). split; auto. split; auto.
    rewrite Forall_forall in Hp1. apply part_ways_sym. apply Hp1. apply in_map_iff. exists (p0, v0). auto. }
  cbn [MFSTreeModel.apply_all] in H. destruct v1 as [x1|].
  - destruct (post p1 x1 o) as [[n|e1] o1] eqn:Ep; [|discriminate].
    assert (T1 : tidy o1) by (eapply (tidy_post _ _ _ _ _ Hn' Ho); eauto).
    destruct Hin as [E|Hin].
    + inversion E; subst.
      destruct (C07_post_get a_none a_key a_str a_indexable a_item a_attr a_iter a_len unset store istore itemtype valuetype call
        R p x1 o n o1 KR Hn' Ep) as (_&x'&G&HR). { apply tidy_keys_present; auto. }
      exists x'. split; auto. eapply apply_all_frame; eauto.
    + eapply (IH o1 o'); eauto. intros p0 v0 Hin0. apply Hl. now right.
  - destruct (delete p1 o) as [[e1|] o1] eqn:Ep; [discriminate|].
    assert (T1 : tidy o1) by (eapply (tidy_delete _ _ _ _ Hn' Ho); eauto).
    destruct Hin as [E|Hin].
    + inversion E; subst. destruct (delete_gone p o o1) as [e He]; auto. exists e.
      destruct p as [|b c _] using rev_ind; [congruence|].
      apply Forall_app in Hn as [Hc Hb], Hn' as [Hc' _].
      eapply delete_down in Ep as [(h&h'&_&_&G)|(e1&_&?&_)]; eauto; [|discriminate].
      eapply (apply_all_missing t o1 o' c b); eauto.
      * now apply name_plain.
      * inversion Hb as [|? ? [n ->] _]; subst. exact I.
    + eapply (IH o1 o'); eauto. intros p0 v0 Hin0. apply Hl. now right.
Qed.

End Del.
