(** Proofs for C58. *)
From Coq Require Import List Arith NArith ZArith Bool Lia.
From Verif Require Import Prelude SelPathModel FSModel PySeq MFSModel MFSTreeModel HeapModel HeapSpec HeapProofs
  HeapMFSModel HeapMFSSpec.
Import ListNotations.
Local Open Scope list_scope.

Lemma in_dict_set {K V} (eqb : K -> K -> bool) (d : list (K * V)) k v x y :
  In (x, y) (dict_set eqb d k v) -> y = v \/ exists z, In (z, y) d.
Proof.
  induction d as [|[k' v'] d IH]; cbn [dict_set].
  - intros [E|[]]. injection E as <- <-. now left.
  - destruct (eqb k' k).
    + intros [E|I]; [injection E as <- <-; now left|]. right. exists x. now right.
    + intros [E|I]; [injection E as <- <-; right; exists k'; now left|].
      destruct (IH I) as [->|(z & Iz)]; [now left|]. right. exists z. now right.
Qed.
Lemma in_dict_del {K V} (eqb : K -> K -> bool) (d : list (K * V)) k x y :
  In (x, y) (dict_del eqb d k) -> In (x, y) d.
Proof.
  induction d as [|[k' v'] d IH]; cbn [dict_del]; auto.
  destruct (eqb k' k); [now right|]. intros [E|I]; [now left|right; auto].
Qed.
Lemma in_dict_get {K V} (eqb : K -> K -> bool) (d : list (K * V)) k v :
  dict_get eqb d k = Some v -> exists z, In (z, v) d.
Proof.
  induction d as [|[k' v'] d IH]; cbn [dict_get]; [discriminate|].
  destruct (eqb k' k).
  - intros E. injection E as ->. exists k'. now left.
  - intros E. destruct (IH E) as (z & I). exists z. now right.
Qed.
Lemma in_seq_set {V} (l l' : list V) i x y : seq_set l i x = Ok l' -> In y l' -> y = x \/ In y l.
Proof.
  unfold seq_set. destruct (norm_index _ _) as [k|]; [|discriminate]. intros E I. injection E as <-.
  apply in_app_or in I as [I|[I|I]]; auto; right.
  - rewrite <- (firstn_skipn k l). apply in_or_app. now left.
  - rewrite <- (firstn_skipn (S k) l). apply in_or_app. now right.
Qed.
Lemma in_seq_del {V} (l l' : list V) i y : seq_del l i = Ok l' -> In y l' -> In y l.
Proof.
  unfold seq_del. destruct (norm_index _ _) as [k|]; [|discriminate]. intros E I. injection E as <-.
  apply in_app_or in I as [I|I].
  - rewrite <- (firstn_skipn k l). apply in_or_app. now left.
  - rewrite <- (firstn_skipn (S k) l). apply in_or_app. now right.
Qed.
Lemma in_seq_get {V} (l : list V) i y : seq_get l i = Ok y -> In y l.
Proof.
  unfold seq_get. destruct (norm_index _ _) as [k|]; [|discriminate].
  destruct (nth_error l k) eqn:E; [|discriminate]. intros Q. injection Q as <-. eapply nth_error_In; eauto.
Qed.

Section Proofs.
Context {A C T : Type}.
Notation val := (val A).
Notation cell := (cell A C).
Notation heap := (heap A C).
Variable a_none : A.
Variable a_key : elem -> A.
Variable a_str : A -> bool.
Variable a_indexable : A -> bool.
Variable a_item : A -> elem -> res A.
Variable a_attr : A -> str -> option A.
Variable a_iter : A -> res (list A).
Variable a_len : A -> Z.
Variable a_isnone : A -> bool.
Variable unset : C -> str -> option A.
Variable store : heap -> C -> str -> val -> res (list cell * val).
Variable istore : heap -> C -> val -> res (list cell * val).
Variable erase : C -> str -> bool -> option exn.
Variable fuel : nat.
Variable itemtype : C -> res T.
Variable valuetype : C -> str -> res T.
Variable call : heap -> T -> option (str * val) -> res (list cell * val).
Variable new_rec : heap -> C -> list (str * val) -> res (list cell * val).
Variable new_atom : heap -> A -> list (str * val) -> res (list cell * val).
Variable new_list : heap -> C -> list val -> res (list cell * val).
Variable new_dict : heap -> C -> list (elem * val) -> res (list cell * val).
Variable deepcopy : heap -> val -> res (list cell * val).
Notation item := (HeapModel.item a_item).
Notation attr := (HeapModel.attr a_attr unset).
Notation iter := (HeapModel.iter a_key a_iter).
Notation step := (HeapModel.step a_str a_indexable a_item a_attr unset).
Notation get := (HeapModel.get a_none a_key a_str a_indexable a_item a_attr a_iter unset).
Notation delete := (HeapModel.delete a_key a_str a_indexable a_item a_attr a_iter unset erase fuel).
Notation put_last := (HeapModel.put_last a_key a_str a_indexable a_iter store istore).
Notation mget := (mget a_attr a_isnone unset new_rec new_atom new_list new_dict deepcopy).
Notation viv := (viv a_str a_indexable a_item a_attr a_len unset store istore itemtype valuetype call).
Notation post := (post a_key a_str a_indexable a_item a_attr a_iter a_len unset store istore itemtype valuetype call).
Implicit Types (h : heap) (v w o u : val) (s : elem) (p : list elem) (c : cell).

(** ** A set of objects that is not left *)
Variable D : nat -> Prop.
Variable inS : nat -> Prop.
Variable base : nat.
Hypothesis S_new : forall m, (base <= m)%nat -> inS m.
Hypothesis S_D : forall m, D m -> inS m.
Definition okv (v : val) : Prop := match v with VR n => inS n | VA _ => True end.
Definition closed (h : heap) : Prop :=
  (base <= length h)%nat /\ forall n c v, inS n -> nth_error h n = Some c -> holds c v -> okv v.
(** [h'] differs from [h] by objects of the set only *)
Definition within (h h' : heap) : Prop :=
  (length h <= length h')%nat /\ forall n, ~ inS n -> nth_error h' n = nth_error h n.

Lemma within_refl h : within h h.
Proof. split; auto. Qed.
Lemma within_trans h1 h2 h3 : within h1 h2 -> within h2 h3 -> within h1 h3.
Proof. intros (L1 & W1) (L2 & W2). split; [lia|]. intros n N. rewrite W2, W1; auto. Qed.
Lemma reach_S h v n : closed h -> okv v -> reach h v n -> inS n.
Proof.
  intros (_ & Cl) Ov R. induction R as [n E|n c m R IH En Hd].
  - now rewrite E in Ov.
  - apply (Cl n c (VR m) IH En Hd).
Qed.
Lemma grow h args new v : closed h -> brings D h args (Ok (new, v)) -> (forall a, In a args -> okv a) ->
  closed (h ++ new) /\ within h (h ++ new) /\ okv v.
Proof.
  intros Cl B Oa. pose proof Cl as (Lb & Cl').
  assert (Q : forall m, v = VR m \/ (exists c, In c new /\ holds c (VR m)) -> inS m).
  { intros m Hm. destruct (B new v eq_refl m Hm) as [L|[(a & Ia & R)|Dm]]; auto.
    - apply S_new. lia.
    - eapply reach_S; eauto. }
  split; [split|split].
  - rewrite app_length. lia.
  - intros n c w Sn En Hw. destruct (Nat.lt_ge_cases n (length h)) as [Ln|Ln].
    + rewrite nth_error_app1 in En by auto. eauto.
    + rewrite nth_error_app2 in En by auto. destruct w as [a|m]; [exact I|]. apply Q. right. exists c. split; auto.
      eapply nth_error_In; eauto.
  - split; [rewrite app_length; lia|]. intros n N. apply nth_error_app1.
    destruct (Nat.lt_ge_cases n (length h)); auto. exfalso. apply N, S_new. lia.
  - destruct v as [a|m]; [exact I|]. apply Q. now left.
Qed.
Lemma replace_ok h n c c' : closed h -> inS n -> nth_error h n = Some c -> (forall v, holds c' v -> okv v) ->
  closed (upd h n c') /\ within h (upd h n c').
Proof.
  intros (Lb & Cl) Sn En Hc. pose proof (nth_len _ _ _ En) as Ln. split; split.
  - rewrite upd_length; auto.
  - intros m d v Sm Em Hd. rewrite upd_nth in Em by auto. destruct (Nat.eqb_spec m n) as [->|N]; [|eauto].
    injection Em as <-. auto.
  - rewrite upd_length; auto.
  - intros m N. rewrite upd_nth by auto. destruct (Nat.eqb_spec m n) as [->|N']; [contradiction|auto].
Qed.

Lemma item_S h o s w : closed h -> okv o -> item h o s = Ok w -> okv w.
Proof.
  intros (_ & Cl) Oo H. unfold HeapModel.item in H. destruct o as [a|n].
  - destruct (a_item a s); [|discriminate]. injection H as <-. exact I.
  - destruct (nth_error h n) as [[c sl|c xs|c kvs]|] eqn:En; try discriminate.
    + destruct s; try discriminate. apply (Cl _ _ w Oo En). cbn. eapply in_seq_get; eauto.
    + destruct (dict_get elem_eqb kvs s) eqn:E; [|discriminate]. injection H as <-.
      apply (Cl _ _ v Oo En). cbn. eapply in_dict_get; eauto.
Qed.
Lemma attr_S h o s w : closed h -> okv o -> attr h o s = Ok w -> okv w.
Proof.
  intros (_ & Cl) Oo H. unfold HeapModel.attr in H. destruct s as [m|i|]; try discriminate. destruct o as [a|n].
  - destruct (a_attr a m); [|discriminate]. injection H as <-. exact I.
  - destruct (nth_error h n) as [[c sl|c xs|c kvs]|] eqn:En; try discriminate.
    destruct (dict_get str_eqb sl m) eqn:E.
    + injection H as <-. apply (Cl _ _ v Oo En). cbn. eapply in_dict_get; eauto.
    + destruct (unset c m); [|discriminate]. injection H as <-. exact I.
Qed.
Lemma step_S h o s w : closed h -> okv o -> step h o s = Ok w -> okv w.
Proof.
  intros Cl Oo H. unfold HeapModel.step in H. destruct (try_index _ _ h o s).
  - destruct (item h o s) eqn:E; [injection H as <-; eapply item_S; eauto|]. destruct e; discriminate.
  - destruct (attr h o s) eqn:E; [injection H as <-; eapply attr_S; eauto|]. destruct (is_attr_err e); discriminate.
Qed.
Lemma iter_S h o xs : closed h -> okv o -> iter h o = Ok xs -> forall x, In x xs -> okv x.
Proof.
  intros (_ & Cl) Oo H x Ix. unfold HeapModel.iter in H. destruct o as [a|n].
  - destruct (a_iter a); [|discriminate]. injection H as <-. apply in_map_iff in Ix as (y & <- & _). exact I.
  - destruct (nth_error h n) as [[c sl|c ys|c kvs]|] eqn:En; try discriminate; injection H as <-.
    + apply (Cl _ _ x Oo En). exact Ix.
    + apply in_map_iff in Ix as (y & <- & _). exact I.
Qed.

Definition good {X} (h : heap) (r : X * heap) : Prop := closed (snd r) /\ within h (snd r).
Lemma good_refl {X} (h : heap) (x : X) : closed h -> good h (x, h).
Proof. intros. split; auto. apply within_refl. Qed.
Lemma good_trans {X} (h h1 : heap) (r : X * heap) : within h h1 -> good h1 r -> good h r.
Proof. intros W (Cl & W'). split; auto. eapply within_trans; eauto. Qed.

Hypothesis H_store : forall h (c : C) m v, brings D h [v] (store h c m v).
Hypothesis H_istore : forall h (c : C) v, brings D h [v] (istore h c v).
Lemma one_arg v : okv v -> forall a, In a [v] -> okv a.
Proof. intros O a [<-|[]]. auto. Qed.

Lemma coll_store_S h (c : option C) v new v' : closed h -> okv v -> coll_store istore h c v = Ok (new, v') ->
  closed (h ++ new) /\ within h (h ++ new) /\ okv v'.
Proof.
  intros Cl Ov H. destruct c as [c|]; cbn [coll_store] in H.
  - apply (grow h [v]); eauto using one_arg. rewrite <- H. apply H_istore.
  - injection H as <- <-. rewrite app_nil_r. repeat split; auto; apply Cl.
Qed.
Lemma store_all_S (c : option C) (vs : list val) : forall h, closed h -> (forall v, In v vs -> okv v) ->
  good h (store_all istore h c vs) /\ forall ws, fst (store_all istore h c vs) = Ok ws -> forall w, In w ws -> okv w.
Proof.
  induction vs as [|v vs IH]; intros h Cl Ov; cbn [store_all].
  - split; [now apply good_refl|]. intros ws E. injection E as <-. intros w [].
  - destruct (coll_store istore h c v) as [[new v']|e] eqn:E.
    + destruct (coll_store_S _ _ _ _ _ Cl (Ov v (or_introl eq_refl)) E) as (Cl1 & W1 & Ov').
      destruct (IH (h ++ new) Cl1 (fun x I => Ov x (or_intror I))) as ((Cl2 & W2) & Q).
      destruct (store_all istore (h ++ new) c vs) as [[t'|e] h2]; cbn [fst snd] in *.
      * split; [split; auto; eapply within_trans; eauto|]. intros ws X. injection X as <-.
        intros w [<-|Iw]; auto. eapply Q; eauto.
      * split; [split; auto; eapply within_trans; eauto|]. discriminate.
    + split; [now apply good_refl|]. discriminate.
Qed.

Lemma put_last_S s v o h : closed h -> okv o -> okv v -> good h (put_last s v o h).
Proof.
  intros Cl Oo Ov.
  assert (It : good h (HeapModel.item_set istore h o s v)).
  { unfold HeapModel.item_set. destruct o as [a|n]; [now apply good_refl|].
    destruct (nth_error h n) as [[c sl|c xs|c kvs]|] eqn:En; try now apply good_refl.
    - destruct (coll_store istore h c v) as [[new v']|e] eqn:E; [|now apply good_refl].
      destruct (coll_store_S _ _ _ _ _ Cl Ov E) as (Cl1 & W1 & Ov').
      destruct s as [m|i|]; try (split; auto; fail).
      destruct (seq_set xs i v') as [ys|e] eqn:Es; [|split; auto].
      assert (En1 : nth_error (h ++ new) n = Some (HList c xs)) by (rewrite nth_error_app1; auto; eapply nth_len; eauto).
      destruct (replace_ok _ _ _ (HList c ys) Cl1 Oo En1) as (Cl2 & W2).
      { intros y Iy. destruct (in_seq_set _ _ _ _ _ Es Iy) as [->|I]; auto. apply (proj2 Cl1 _ _ _ Oo En1 I). }
      split; auto. eapply within_trans; eauto.
    - destruct (coll_store istore h c v) as [[new v']|e] eqn:E; [|now apply good_refl].
      destruct (coll_store_S _ _ _ _ _ Cl Ov E) as (Cl1 & W1 & Ov').
      assert (En1 : nth_error (h ++ new) n = Some (HDict c kvs)) by (rewrite nth_error_app1; auto; eapply nth_len; eauto).
      destruct (replace_ok _ _ _ (HDict c (dict_set elem_eqb kvs s v')) Cl1 Oo En1) as (Cl2 & W2).
      { intros y (k & Iy). destruct (in_dict_set _ _ _ _ _ _ Iy) as [->|I]; auto. apply (proj2 Cl1 _ _ _ Oo En1 I). }
      split; auto. eapply within_trans; eauto. }
  assert (At : good h (HeapModel.attr_set store h o s v)).
  { unfold HeapModel.attr_set. destruct s as [m|i|]; try now apply good_refl. destruct o as [a|n]; [now apply good_refl|].
    destruct (nth_error h n) as [[c sl|c xs|c kvs]|] eqn:En; try now apply good_refl.
    destruct (store h c m v) as [[new v']|e] eqn:E; [|now apply good_refl].
    destruct (grow h [v] new v' Cl) as (Cl1 & W1 & Ov'); eauto using one_arg; [rewrite <- E; apply H_store|].
    assert (En1 : nth_error (h ++ new) n = Some (HRec c sl)) by (rewrite nth_error_app1; auto; eapply nth_len; eauto).
    destruct (replace_ok _ _ _ (HRec c (dict_set str_eqb sl m v')) Cl1 Oo En1) as (Cl2 & W2).
    { intros y (k & Iy). destruct (in_dict_set _ _ _ _ _ _ Iy) as [->|I]; auto. apply (proj2 Cl1 _ _ _ Oo En1 I). }
    split; auto. eapply within_trans; eauto. }
  assert (Sl : good h (HeapModel.slice_set a_key a_iter istore h o v)).
  { unfold HeapModel.slice_set. destruct o as [a|n]; [now apply good_refl|].
    destruct (nth_error h n) as [[c sl|c xs|c kvs]|] eqn:En; try now apply good_refl.
    - destruct (iter h v) as [vs|e] eqn:E; [|now apply good_refl].
      destruct (store_all_S c vs h Cl (iter_S _ _ _ Cl Ov E)) as ((Cl1 & W1) & Q).
      pose proof (store_all_kept istore c vs h) as K.
      destruct (store_all istore h c vs) as [[ws|e] h1]; cbn [fst snd] in *; [|split; auto].
      assert (En1 : nth_error h1 n = Some (HList c xs)).
      { destruct K as (new & ->). rewrite nth_error_app1; auto. eapply nth_len; eauto. }
      destruct (replace_ok _ _ _ (HList c ws) Cl1 Oo En1) as (Cl2 & W2); [intros y Iy; eapply Q; eauto|].
      split; auto. eapply within_trans; eauto.
    - destruct (coll_store istore h c v) as [[new v']|e] eqn:E; [|now apply good_refl].
      destruct (coll_store_S _ _ _ _ _ Cl Ov E) as (Cl1 & W1 & _). split; auto. }
  unfold HeapModel.put_last.
  destruct s as [m|i|]; auto; destruct (try_index _ _ h o _);
    try (destruct (HeapModel.item_set _ _ _ _ _) as [[e|] h1]; exact It);
    destruct (HeapModel.attr_set _ _ _ _ _) as [[e|] h1]; exact At.
Qed.

Lemma del_last_S s o h : closed h -> okv o -> good h (HeapModel.del_last a_str a_indexable a_attr unset erase s o h).
Proof.
  intros Cl Oo. unfold HeapModel.del_last. destruct (try_index _ _ h o s).
  - assert (It : good h (HeapModel.item_del h o s)).
    { unfold HeapModel.item_del. destruct o as [a|n]; [now apply good_refl|].
      destruct (nth_error h n) as [[c sl|c xs|c kvs]|] eqn:En; try now apply good_refl.
      - destruct s as [m|i|]; try now apply good_refl. destruct (seq_del xs i) as [ys|e] eqn:Es; [|now apply good_refl].
        apply (replace_ok _ _ _ (HList c ys) Cl Oo En). intros y Iy. apply (proj2 Cl _ _ _ Oo En). cbn.
        eapply in_seq_del; eauto.
      - destruct (dict_get elem_eqb kvs s); [|now apply good_refl].
        apply (replace_ok _ _ _ (HDict c (dict_del elem_eqb kvs s)) Cl Oo En). intros y (k & Iy).
        apply (proj2 Cl _ _ _ Oo En). exists k. eapply in_dict_del; eauto. }
    destruct s as [m|i|]; auto. unfold HeapModel.clear. destruct o as [a|n]; [now apply good_refl|].
    destruct (nth_error h n) as [[c sl|c xs|c kvs]|] eqn:En; try now apply good_refl.
    + apply (replace_ok _ _ _ (HList c []) Cl Oo En). intros y [].
    + apply (replace_ok _ _ _ (HDict c []) Cl Oo En). intros y (k & []).
  - destruct (attr h o s) as [x0|e].
    + unfold HeapModel.attr_del. destruct s as [m|i|], o as [a|n]; try now apply good_refl.
      destruct (nth_error h n) as [[c sl|c xs|c kvs]|] eqn:En; try now apply good_refl.
      destruct (erase _ _ _); [now apply good_refl|].
      apply (replace_ok _ _ _ (HRec c (dict_del str_eqb sl m)) Cl Oo En). intros y (k & Iy).
      apply (proj2 Cl _ _ _ Oo En). exists k. eapply in_dict_del; eauto.
    + destruct (is_attr_err e); now apply good_refl.
Qed.

Lemma sweep_S (f : val -> heap -> option exn * heap) :
  (forall o h, closed h -> okv o -> good h (f o h)) ->
  forall k n i x h, closed h -> inS n -> good h (HeapModel.sweep f k n i x h).
Proof.
  intros Hf. induction k as [|k IH]; intros n i x h Cl Sn; cbn [HeapModel.sweep]; [now apply good_refl|].
  destruct (nth_error h n) as [[c sl|c xs|c kvs]|] eqn:En; try now apply good_refl.
  destruct (nth_error xs i) as [r|] eqn:Ei; [|now apply good_refl].
  assert (Or : okv r) by (apply (proj2 Cl _ _ _ Sn En); cbn; eapply nth_error_In; eauto).
  destruct (Hf r h Cl Or) as (Cl1 & W1). destruct (f r h) as [[e|] h1]; cbn [snd] in *.
  - destruct (is_fs_exc e); [|split; auto]. eapply good_trans; eauto.
  - eapply good_trans; eauto.
Qed.
Lemma sweep_in_S (f : val -> heap -> option exn * heap) :
  (forall o h, closed h -> okv o -> good h (f o h)) ->
  forall xs x h, closed h -> (forall y, In y xs -> okv y) -> good h (HeapModel.sweep_in f xs x h).
Proof.
  intros Hf. induction xs as [|r xs IH]; intros x h Cl Ox; cbn [HeapModel.sweep_in]; [now apply good_refl|].
  destruct (Hf r h Cl (Ox r (or_introl eq_refl))) as (Cl1 & W1). destruct (f r h) as [[e|] h1]; cbn [snd] in *.
  - destruct (is_fs_exc e); [|split; auto]. eapply good_trans; eauto. apply IH; auto. intros; apply Ox; now right.
  - eapply good_trans; eauto. apply IH; auto. intros; apply Ox; now right.
Qed.
Lemma sweep_each_S (f : val -> heap -> option exn * heap) :
  (forall o h, closed h -> okv o -> good h (f o h)) ->
  forall o h, closed h -> okv o -> good h (HeapModel.sweep_each a_key a_iter fuel f o h).
Proof.
  intros Hf o h Cl Oo.
  assert (Q : good h (match iter h o with Ok ks => swept (sweep_in f ks XNone h) | Err e => (Some e, h) end)).
  { destruct (iter h o) as [ks|e] eqn:E; [|now apply good_refl].
    apply (sweep_in_S f Hf ks XNone h Cl (iter_S _ _ _ Cl Oo E)). }
  unfold HeapModel.sweep_each. destruct o as [a|n]; auto.
  destruct (nth_error h n) as [[c sl|c xs|c kvs]|]; auto. apply (sweep_S f Hf fuel n 0 XNone h Cl Oo).
Qed.
Lemma delete_S p : forall o h, closed h -> okv o -> good h (delete p o h).
Proof.
  induction p as [|s p IH]; intros o h Cl Oo; [now apply good_refl|].
  destruct p as [|s' p]; [now apply del_last_S|].
  assert (Q : good h (match step h o s with Err e => (Some e, h) | Ok x => delete (s' :: p) x h end)).
  { destruct (step h o s) as [x|e] eqn:E; [|now apply good_refl]. apply IH; auto. eapply step_S; eauto. }
  destruct s as [m|i|]; auto. apply (sweep_each_S (delete (s' :: p))); auto.
Qed.

Hypothesis H_call : forall h ty kw, brings D h (match kw with Some (_, v) => [v] | None => [] end) (call h ty kw).
Lemma made_S h args r : closed h -> (forall a, In a args -> okv a) -> brings D h args r ->
  good h (made h r) /\ (forall v, fst (made h r) = Ok v -> okv v) /\ kept h (snd (made h r)).
Proof.
  intros Cl Oa B. destruct r as [[new v]|e]; cbn [made fst snd].
  - destruct (grow h args new v Cl B Oa) as (Cl1 & W1 & Ov). split; [split; auto|]. split.
    + intros w E. now injection E as <-.
    + apply kept_app.
  - split; [now apply good_refl|]. split; [discriminate|apply kept_refl].
Qed.
Definition okw (kw : option (elem * val)) : Prop := match kw with Some (_, v) => okv v | None => True end.
Lemma make_S ty kw h : closed h -> okw kw ->
  good h (make call ty kw h) /\ (forall v, fst (make call ty kw h) = Ok v -> okv v) /\ kept h (snd (make call ty kw h)).
Proof.
  intros Cl Ok_. unfold make. destruct kw as [[[m|i|] v]|].
  - apply (made_S h [v]); eauto using one_arg. apply (H_call h ty (Some (m, v))).
  - split; [now apply good_refl|]. split; [discriminate|apply kept_refl].
  - split; [now apply good_refl|]. split; [discriminate|apply kept_refl].
  - apply (made_S h []); auto; [intros a []|]. apply (H_call h ty None).
Qed.
Lemma new_item_S (c : option C) kw h : closed h -> okw kw ->
  good h (new_item istore itemtype call c kw h) /\ (forall v, fst (new_item istore itemtype call c kw h) = Ok v -> okv v) /\
  kept h (snd (new_item istore itemtype call c kw h)).
Proof.
  intros Cl Ok_. assert (Tr : forall e, good h (@Err val e, h) /\ (forall v, fst (@Err val e, h) = Ok v -> okv v) /\ kept h (snd (@Err val e, h))).
  { intros e. split; [now apply good_refl|]. split; [discriminate|apply kept_refl]. }
  unfold new_item. destruct c as [c|]; auto. destruct (itemtype c) as [ty|e]; auto.
  destruct (make_S ty kw h Cl Ok_) as ((Cl1 & W1) & Ov & K1).
  destruct (make call ty kw h) as [[x|e] h1]; cbn [fst snd] in *.
  - destruct (made_S h1 [x] (istore h1 c x) Cl1 (one_arg _ (Ov x eq_refl)) (H_istore h1 c x)) as (G & Ov' & K2).
    split; [eapply good_trans; eauto|]. split; auto. eapply kept_trans; eauto.
  - split; [split; auto|]. split; [discriminate|auto].
Qed.
Lemma viv_S o s kw h : closed h -> okv o -> okw kw ->
  good h (viv o s kw h) /\ forall x b, fst (viv o s kw h) = Ok (x, b) -> okv x.
Proof.
  intros Cl Oo Ok_.
  assert (Tr : forall e, good h (@Err (val * bool) e, h) /\ forall x b, fst (@Err (val * bool) e, h) = Ok (x, b) -> okv x).
  { intros e. split; [now apply good_refl|discriminate]. }
  unfold HeapMFSModel.viv. destruct (try_index _ _ h o s).
  - destruct (item h o s) as [x|e] eqn:Ei.
    { split; [now apply good_refl|]. intros y b E. injection E as <- _. eapply item_S; eauto. }
    assert (Ot : e <> IndexErr -> let r := (if is_key_err e then
          match o with
          | VR n => match nth_error h n with
                    | Some (HDict c kvs) =>
                        match new_item istore itemtype call c kw h with
                        | (Err e, h1) => (Err e, h1)
                        | (Ok x, h1) => (Ok (o, true), upd h1 n (HDict c (dict_set elem_eqb kvs s x)))
                        end
                    | _ => (Err AttrErr, h)
                    end
          | VA _ => (Err AttrErr, h)
          end else (Err e, h)) in good h r /\ forall x b, fst r = Ok (x, b) -> okv x).
    { intros _. cbv zeta. destruct (is_key_err e); auto. destruct o as [a|n]; auto.
      destruct (nth_error h n) as [[c sl|c xs|c kvs]|] eqn:En; auto.
      destruct (new_item_S c kw h Cl Ok_) as ((Cl1 & W1) & Ov & K).
      destruct (new_item istore itemtype call c kw h) as [[x|e1] h1]; cbn [fst snd] in *; [|split; [split; auto|discriminate]].
      assert (En1 : nth_error h1 n = Some (HDict c kvs)).
      { destruct K as (new & ->). rewrite nth_error_app1; auto. eapply nth_len; eauto. }
      destruct (replace_ok _ _ _ (HDict c (dict_set elem_eqb kvs s x)) Cl1 Oo En1) as (Cl2 & W2).
      { intros y (k & Iy). destruct (in_dict_set _ _ _ _ _ _ Iy) as [->|I]; auto. apply (proj2 Cl1 _ _ _ Oo En1 I). }
      split; [split; auto; eapply within_trans; eauto|]. intros y b E. now injection E as <- _. }
    destruct e; try (apply Ot; discriminate).
    destruct s as [m|i|]; auto. destruct o as [a|n]; auto.
    destruct (nth_error h n) as [[c sl|c xs|c kvs]|] eqn:En; auto.
    destruct (Z.of_nat (length xs) =? i)%Z; auto.
    destruct (new_item_S c kw h Cl Ok_) as ((Cl1 & W1) & Ov & K).
    destruct (new_item istore itemtype call c kw h) as [[x|e1] h1]; cbn [fst snd] in *; [|split; [split; auto|discriminate]].
    assert (En1 : nth_error h1 n = Some (HList c xs)).
    { destruct K as (new & ->). rewrite nth_error_app1; auto. eapply nth_len; eauto. }
    destruct (replace_ok _ _ _ (HList c (xs ++ [x])) Cl1 Oo En1) as (Cl2 & W2).
    { intros y Iy. cbn in Iy. apply in_app_or in Iy as [Iy|[<-|[]]]; auto. apply (proj2 Cl1 _ _ _ Oo En1 Iy). }
    assert (G : good h (fst (new_item istore itemtype call c kw h), upd h1 n (HList c (xs ++ [x])))) by (split; auto; eapply within_trans; eauto).
    destruct (item (upd h1 n (HList c (xs ++ [x]))) (VR n) (EInt i)) as [y|e1] eqn:Ey.
    + split; [exact G|]. intros z b E. injection E as <- _. eapply item_S; [exact Cl2|exact Oo|exact Ey].
    + split; [exact G|discriminate].
  - destruct (attr h o s) as [x|e] eqn:Ea.
    { split; [now apply good_refl|]. intros y b E. injection E as <- _. eapply attr_S; eauto. }
    destruct (is_attr_err e); auto. destruct o as [a|n], s as [m|i|]; auto.
    destruct (nth_error h n) as [[c sl|c xs|c kvs]|] eqn:En; auto.
    destruct (valuetype c m) as [ty|e1]; auto.
    destruct (make_S ty kw h Cl Ok_) as ((Cl1 & W1) & Ov & K).
    destruct (make call ty kw h) as [[x|e1] h1]; cbn [fst snd] in *; [|split; [split; auto|discriminate]].
    destruct (made_S h1 [x] (store h1 c m x) Cl1 (one_arg _ (Ov x eq_refl)) (H_store h1 c m x)) as ((Cl2 & W2) & Ov2 & K2).
    destruct (made h1 (store h1 c m x)) as [[x'|e1] h2]; cbn [fst snd] in *;
      [|split; [split; auto; eapply within_trans; eauto|discriminate]].
    assert (En2 : nth_error h2 n = Some (HRec c sl)).
    { destruct (kept_trans _ _ _ K K2) as (new & ->). rewrite nth_error_app1; auto. eapply nth_len; eauto. }
    destruct (replace_ok _ _ _ (HRec c (dict_set str_eqb sl m x')) Cl2 Oo En2) as (Cl3 & W3).
    { intros y (k & Iy). destruct (in_dict_set _ _ _ _ _ _ Iy) as [->|I]; auto. apply (proj2 Cl2 _ _ _ Oo En2 I). }
    assert (G : within h (upd h2 n (HRec c (dict_set str_eqb sl m x')))).
    { eapply within_trans; [exact W1|]. eapply within_trans; eauto. }
    destruct (attr (upd h2 n (HRec c (dict_set str_eqb sl m x'))) (VR n) (EStr m)) as [y|e1] eqn:Ey.
    + split; [split; auto|]. intros z b E. injection E as <- _. eapply attr_S; [exact Cl3|exact Oo|exact Ey].
    + split; [split; auto|discriminate].
Qed.
Lemma post_S p v : okv v -> forall o h, closed h -> okv o -> good h (post p v o h).
Proof.
  intros Ov. induction p as [|s p IH]; intros o h Cl Oo; [now apply good_refl|].
  destruct p as [|last u].
  { cbn [HeapMFSModel.post]. pose proof (put_last_S s v o h Cl Oo Ov) as G. destruct (put_last s v o h) as [[e|] h1]; exact G. }
  set (kw := match u, last with [], ENone => None | [], _ => Some (last, v) | _, _ => None end).
  assert (Ok_ : okw kw) by (subst kw; destruct u, last; cbn; auto).
  assert (Q : good h (match viv o s kw h with
              | (Err e, h1) => (Err e, h1)
              | (Ok (x, mk), h1) =>
                  if mk && match kw with Some _ => true | None => false end then (Ok 1, h1) else post (last :: u) v x h1
              end)).
  { destruct (viv_S o s kw h Cl Oo Ok_) as ((Cl1 & W1) & Ox).
    destruct (viv o s kw h) as [[[x mk]|e] h1]; cbn [fst snd] in *; [|split; auto].
    destruct (mk && _); [split; auto|]. eapply good_trans; eauto. }
  destruct s as [m|i|]; auto. cbn [HeapMFSModel.post].
  destruct (iter h o) as [[|x xs]|e]; now apply good_refl.
Qed.
Lemma apply_all_S (f : heap -> val -> res (list cell * val)) l : (forall h v, brings D h [] (f h v)) ->
  forall o h, closed h -> okv o ->
  good h (apply_all a_key a_str a_indexable a_item a_attr a_iter a_len unset store istore erase fuel itemtype valuetype call (Some f) l o h).
Proof.
  intros Hf. induction l as [|[p [v|]] l IH]; intros o h Cl Oo; cbn [apply_all]; [now apply good_refl| |].
  - destruct (made_S h [] (f h v) Cl (fun a (I : In a []) => match I with end) (Hf h v)) as ((Cl1 & W1) & Ov & _).
    destruct (made h (f h v)) as [[v'|e] h1]; cbn [fst snd] in *; [|split; auto].
    destruct (post_S p v' (Ov v' eq_refl) o h1 Cl1 Oo) as (Cl2 & W2).
    destruct (post p v' o h1) as [[k|e] h2]; cbn [fst snd] in *.
    + eapply good_trans; [|apply IH; auto]. eapply within_trans; eauto.
    + split; auto. eapply within_trans; eauto.
  - destruct (delete_S p o h Cl Oo) as (Cl1 & W1). destruct (delete p o h) as [[e|] h1]; cbn [fst snd] in *.
    + split; auto.
    + eapply good_trans; eauto.
Qed.

(** ** get *)
Hypothesis H_rec : forall h (c : C) kw, brings D h (map snd kw) (new_rec h c kw).
Hypothesis H_atom : forall h a kw, brings D h (map snd kw) (new_atom h a kw).
Hypothesis H_list : forall h (c : C) vs, brings D h vs (new_list h c vs).
Hypothesis H_dict : forall h (c : C) kvs, brings D h (map snd kvs) (new_dict h c kvs).
Hypothesis H_copy : forall h v, brings D h [] (deepcopy h v).

(** whatever is given, the result is in the set, and only objects were added *)
Definition clean {X} (ok : X -> Prop) (h : heap) (r : res X * heap) : Prop :=
  closed (snd r) /\ kept h (snd r) /\ forall x, fst r = Ok x -> ok x.
Definition cleanly {Y X} (ok : X -> Prop) (f : Y -> heap -> res X * heap) : Prop := forall y h, closed h -> clean ok h (f y h).
Lemma clean_err {X} (ok : X -> Prop) h h1 e : closed h1 -> kept h h1 -> clean ok h (Err e, h1).
Proof. intros. split; auto. split; auto. discriminate. Qed.
Lemma collect_clean {Y X} (ok : X -> Prop) (f : Y -> heap -> res X * heap) : cleanly ok f ->
  cleanly (fun xs => forall x, In x xs -> ok x) (collect f).
Proof.
  intros Hf ys. induction ys as [|y ys IH]; intros h Cl; cbn [collect].
  - split; auto. split; [apply kept_refl|]. intros x E. injection E as <-. intros z [].
  - destruct (Hf y h Cl) as (Cl1 & K1 & O1). destruct (f y h) as [[x|e] h1]; cbn [fst snd] in *; [|now apply clean_err].
    destruct (IH h1 Cl1) as (Cl2 & K2 & O2). destruct (collect f ys h1) as [[xs|e] h2]; cbn [fst snd] in *.
    + split; auto. split; [eapply kept_trans; eauto|]. intros zs E. injection E as <-. intros z [<-|I]; auto. eapply O2; eauto.
    + apply clean_err; auto. eapply kept_trans; eauto.
Qed.
Lemma with_key_clean {K} (k : K) h r : clean okv h r -> clean (fun kv => okv (snd kv)) h (with_key k r).
Proof.
  intros (Cl & Kp & O). destruct r as [[v|e] h1]; cbn [with_key fst snd] in *; [|now apply clean_err].
  split; auto. split; auto. intros x E. injection E as <-. cbn. auto.
Qed.
Definition cleans (fs : list (elem * (val -> heap -> res val * heap))) : Prop := forall s f, In (s, f) fs -> cleanly okv f.
Lemma kwargs_clean o fs : cleans fs -> forall h, closed h ->
  clean (fun kw => forall nv, In nv kw -> okv (snd nv)) h (kwargs a_attr a_isnone unset o fs h).
Proof.
  induction fs as [|[s f] fs IH]; intros Hc h Cl; cbn [kwargs].
  { split; auto. split; [apply kept_refl|]. intros x E. injection E as <-. intros z []. }
  assert (IH' := IH (fun s f I => Hc s f (or_intror I))).
  destruct s as [m|i|]; try (apply clean_err; auto; apply kept_refl).
  destruct (attr h o (EStr m)) as [v|e].
  - destruct (is_none a_isnone v); [now apply IH'|].
    destruct (with_key_clean m h (f v h) (Hc _ f (or_introl eq_refl) v h Cl)) as (Cl1 & K1 & O1).
    destruct (with_key m (f v h)) as [[nv|e] h1]; cbn [fst snd] in *; [|now apply clean_err].
    destruct (IH' h1 Cl1) as (Cl2 & K2 & O2). destruct (kwargs a_attr a_isnone unset o fs h1) as [[kw|e] h2]; cbn [fst snd] in *.
    + split; auto. split; [eapply kept_trans; eauto|]. intros x E. injection E as <-. intros z [<-|I]; auto. eapply O2; eauto.
    + apply clean_err; auto. eapply kept_trans; eauto.
  - destruct (is_attr_err e); [now apply IH'|]. apply clean_err; auto; apply kept_refl.
Qed.
Lemma made_clean h args r : closed h -> (forall a, In a args -> okv a) -> brings D h args r -> clean okv h (made h r).
Proof. intros Cl Oa B. destruct (made_S h args r Cl Oa B) as ((Cl1 & _) & O & K). split; auto. Qed.
Lemma made_after h h1 args r : kept h h1 -> closed h1 -> (forall a, In a args -> okv a) -> brings D h1 args r ->
  clean okv h (made h1 r).
Proof.
  intros K Cl Oa B. destruct (made_clean h1 args r Cl Oa B) as (Cl1 & K1 & O). split; auto. split; auto.
  eapply kept_trans; eauto.
Qed.
Lemma okv_snd {K} (kw : list (K * val)) : (forall nv, In nv kw -> okv (snd nv)) -> forall a, In a (map snd kw) -> okv a.
Proof. intros Q a I. apply in_map_iff in I as (x & <- & I). auto. Qed.
Lemma hget_in {X} s (fs : list (elem * X)) f : hget s fs = Some f -> exists s', In (s', f) fs.
Proof.
  induction fs as [|[s' f'] fs IH]; cbn [hget]; [discriminate|].
  destruct (elem_eqb _ _).
  - intros E. injection E as ->. exists s'. now left.
  - intros E. destruct (IH E) as (x & I). exists x. now right.
Qed.
Lemma insert_head_in {X} (y kx : elem * X) l : In y (insert_head kx l) -> y = kx \/ In y l.
Proof.
  induction l as [|z l IH]; cbn [insert_head]; [intros [<-|[]]; auto|].
  destruct (key_leb _ _); [intros [<-|I]; auto|]. intros [<-|I]; [right; now left|]. destruct (IH I); auto. right. now right.
Qed.
Lemma sort_heads_in {X} (y : elem * X) l : In y (sort_heads l) -> In y l.
Proof.
  induction l as [|z l IH]; cbn [sort_heads]; auto. intros I. apply insert_head_in in I as [->|I]; [now left|right; auto].
Qed.
Lemma cleans_sub (fs fs' : list (elem * (val -> heap -> res val * heap))) : (forall x, In x fs' -> In x fs) -> cleans fs -> cleans fs'.
Proof. intros Q Hc s f I. apply (Hc s f), Q, I. Qed.
Lemma list_clean h h1 (c : option C) (vs : list val) : kept h h1 -> closed h1 -> (forall v, In v vs -> okv v) ->
  clean okv h (match c with
               | None => made h1 (Ok ([HList None vs], VR (length h1)))
               | Some c => made h1 (new_list h1 c vs)
               end).
Proof.
  intros K Cl O. destruct c as [c|].
  - apply (made_after h h1 vs); auto.
  - apply (made_after h h1 vs); auto. intros new v E m Hm. injection E as <- <-. destruct Hm as [E|(c & [<-|[]] & Hd)].
    + injection E as <-. left. lia.
    + right. left. exists (VR m). split; auto. now constructor.
Qed.
Lemma dict_clean h h1 (c : option C) (kvs : list (elem * val)) : kept h h1 -> closed h1 -> (forall kv, In kv kvs -> okv (snd kv)) ->
  clean okv h (match c with
               | None => made h1 (Ok ([HDict None kvs], VR (length h1)))
               | Some c => made h1 (new_dict h1 c kvs)
               end).
Proof.
  intros K Cl O. destruct c as [c|].
  - apply (made_after h h1 (map snd kvs)); auto. now apply okv_snd.
  - apply (made_after h h1 (map snd kvs)); auto; [now apply okv_snd|].
    intros new v E m Hm. injection E as <- <-. destruct Hm as [E|(c & [<-|[]] & (s & Hd))].
    + injection E as <-. left. lia.
    + right. left. exists (VR m). split; [|now constructor]. apply in_map_iff. exists (s, VR m). auto.
Qed.
Lemma mget_clean : forall m, cleanly okv (mget m).
Proof.
  fix IH 1. intros [hs] o h Cl.
  set (fs := map (fun ht : elem * option mfs => (fst ht, fun x h => match snd ht with
                                                           | None => made h (deepcopy h x)
                                                           | Some m' => mget m' x h
                                                           end)) hs).
  assert (Hc : cleans fs).
  { subst fs. clear o h Cl. induction hs as [|[s [m'|]] hs IHh]; intros s' f; cbn [map fst snd]; [intros []| |].
    - intros [E|I]; [|now apply (IHh s' f)]. injection E as _ <-. intros v h Cl. exact (IH m' v h Cl).
    - intros [E|I]; [|now apply (IHh s' f)]. injection E as _ <-. intros v h Cl. apply (made_clean h []); auto. intros a []. }
  clear IH.
  set (others := if has_int (Node hs) || (has_none (Node hs) && negb (complete (Node hs))) then (Err TypeErr, h)
        else if has_none (Node hs) then made h (deepcopy h o)
        else match kwargs a_attr a_isnone unset o fs h with
             | (Err e, h1) => (Err e, h1)
             | (Ok kw, h1) =>
                 match o with
                 | VA a => made h1 (new_atom h1 a kw)
                 | VR n => match nth_error h n with
                           | Some (HRec c _) => made h1 (new_rec h1 c kw)
                           | _ => (Err TypeErr, h1)
                           end
                 end
             end).
  assert (Ho : clean okv h others).
  { subst others. destruct (has_int _ || _); [apply clean_err; auto; apply kept_refl|].
    destruct (has_none _); [apply (made_clean h []); auto; intros a []|].
    destruct (kwargs_clean o fs Hc h Cl) as (Cl1 & K1 & O1).
    destruct (kwargs a_attr a_isnone unset o fs h) as [[kw|e] h1]; cbn [fst snd] in *; [|now apply clean_err].
    pose proof (okv_snd kw (O1 kw eq_refl)) as Ok_. destruct o as [a|n].
    - apply (made_after h h1 (map snd kw)); auto.
    - destruct (nth_error h n) as [[c sl|c xs|c kvs]|]; try now apply clean_err. apply (made_after h h1 (map snd kw)); auto. }
  change (clean okv h (match o with
      | VA _ => others
      | VR n =>
          match nth_error h n with
          | Some (HList c xs) =>
              if has_string (Node hs) then (Err TypeErr, h)
              else
                match (match hget ENone fs with
                       | Some f => collect f xs h
                       | None => collect (fun kf h1 => match fst kf with
                                                       | EInt i => match seq_get xs i with
                                                                   | Ok x => snd kf x h1
                                                                   | Err e => (Err e, h1)
                                                                   end
                                                       | _ => (Err TypeErr, h1)
                                                       end) (sort_heads fs) h
                       end) with
                | (Err e, h1) => (Err e, h1)
                | (Ok vs, h1) => match c with
                                 | None => made h1 (Ok ([HList None vs], VR (length h1)))
                                 | Some c => made h1 (new_list h1 c vs)
                                 end
                end
          | Some (HDict c kvs) =>
              match (match hget ENone fs with
                     | Some f => collect (fun kv h1 => with_key (fst kv) (f (snd kv) h1)) kvs h
                     | None => collect (fun kf h1 => match dict_get elem_eqb kvs (fst kf) with
                                                     | Some x => with_key (fst kf) (snd kf x h1)
                                                     | None => (Err KeyErr, h1)
                                                     end)
                                 (filter (fun kf => match dict_get elem_eqb kvs (fst kf) with
                                                    | Some _ => true | None => false end) fs) h
                     end) with
              | (Err e, h1) => (Err e, h1)
              | (Ok kvs', h1) => match c with
                                 | None => made h1 (Ok ([HDict None kvs'], VR (length h1)))
                                 | Some c => made h1 (new_dict h1 c kvs')
                                 end
              end
          | _ => others
          end
      end)).
  clearbody others fs. destruct o as [a|n]; auto. destruct (nth_error h n) as [[c sl|c xs|c kvs]|] eqn:En; auto.
  - destruct (has_string _); [apply clean_err; auto; apply kept_refl|].
    match goal with |- clean okv h (match ?r with _ => _ end) => assert (Hr : clean (fun vs => forall v, In v vs -> okv v) h r) end.
    { destruct (hget ENone fs) as [f|] eqn:Ef.
      - destruct (hget_in _ _ _ Ef) as (s' & If). apply (collect_clean okv f (Hc _ _ If) xs h Cl).
      - assert (Q : forall l, (forall x, In x l -> In x fs) -> forall h, closed h -> clean (fun vs => forall v, In v vs -> okv v) h
          (collect (fun kf h1 => match fst kf with
                                 | EInt i => match seq_get xs i with Ok x => snd kf x h1 | Err e => (Err e, h1) end
                                 | _ => (Err TypeErr, h1)
                                 end) l h)).
        { clear h Cl En Ho. induction l as [|[s f] l IHl]; intros Sub h Cl; cbn [collect fst snd].
          - split; auto. split; [apply kept_refl|]. intros x E. injection E as <-. intros z [].
          - destruct s as [m|i|]; try (apply clean_err; auto; apply kept_refl).
            destruct (seq_get xs i) as [x|e]; [|apply clean_err; auto; apply kept_refl].
            destruct (Hc _ f (Sub _ (or_introl eq_refl)) x h Cl) as (Cl1 & K1 & O1).
            destruct (f x h) as [[y|e] h1]; cbn [fst snd] in *; [|now apply clean_err].
            destruct (IHl (fun x I => Sub x (or_intror I)) h1 Cl1) as (Cl2 & K2 & O2).
            destruct (collect _ l h1) as [[ys|e] h2]; cbn [fst snd] in *.
            + split; auto. split; [eapply kept_trans; eauto|]. intros zs E. injection E as <-. intros z [<-|I]; auto. eapply O2; eauto.
            + apply clean_err; auto. eapply kept_trans; eauto. }
        apply Q; auto. intros x. exact (sort_heads_in x fs). }
    match goal with |- clean okv h (match ?r with _ => _ end) => destruct r as [[vs|e] h1] end;
      destruct Hr as (Cl1 & K1 & O1); cbn [fst snd] in *; [|now apply clean_err].
    apply list_clean; auto. exact (O1 vs eq_refl).
  - match goal with |- clean okv h (match ?r with _ => _ end) => assert (Hr : clean (fun kvs => forall kv, In kv kvs -> okv (snd kv)) h r) end.
    { destruct (hget ENone fs) as [f|] eqn:Ef.
      - destruct (hget_in _ _ _ Ef) as (s' & If).
        apply (collect_clean (fun kv => okv (snd kv)) (fun kv h1 => with_key (fst kv) (f (snd kv) h1))); auto.
        intros kv h1 Cl1. apply with_key_clean. apply (Hc _ _ If); auto.
      - assert (Q : forall l, (forall x, In x l -> In x fs) -> forall h, closed h -> clean (fun kvs => forall kv, In kv kvs -> okv (snd kv)) h
          (collect (fun kf h1 => match dict_get elem_eqb kvs (fst kf) with
                                 | Some x => with_key (fst kf) (snd kf x h1)
                                 | None => (Err KeyErr, h1)
                                 end) l h)).
        { clear h Cl En Ho. induction l as [|[s f] l IHl]; intros Sub h Cl; cbn [collect fst snd].
          - split; auto. split; [apply kept_refl|]. intros x E. injection E as <-. intros z [].
          - destruct (dict_get elem_eqb kvs s) as [x|]; [|apply clean_err; auto; apply kept_refl].
            destruct (with_key_clean s h _ (Hc _ f (Sub _ (or_introl eq_refl)) x h Cl)) as (Cl1 & K1 & O1).
            destruct (with_key s (f x h)) as [[y|e] h1]; cbn [fst snd] in *; [|now apply clean_err].
            destruct (IHl (fun x I => Sub x (or_intror I)) h1 Cl1) as (Cl2 & K2 & O2).
            destruct (collect _ l h1) as [[ys|e] h2]; cbn [fst snd] in *.
            + split; auto. split; [eapply kept_trans; eauto|]. intros zs E. injection E as <-. intros z [<-|I]; auto. eapply O2; eauto.
            + apply clean_err; auto. eapply kept_trans; eauto. }
        apply Q; auto. intros x I. apply filter_In in I. apply I. }
    match goal with |- clean okv h (match ?r with _ => _ end) => destruct r as [[kvs'|e] h1] end;
      destruct Hr as (Cl1 & K1 & O1); cbn [fst snd] in *; [|now apply clean_err].
    apply dict_clean; auto. exact (O1 kvs' eq_refl).
Qed.
End Proofs.

Section Paths.
Context {A C : Type}.
Notation val := (val A).
Notation cell := (cell A C).
Notation heap := (heap A C).
Variable a_str : A -> bool.
Variable a_indexable : A -> bool.
Variable a_item : A -> elem -> res A.
Variable a_attr : A -> str -> option A.
Variable unset : C -> str -> option A.
Notation leads := (leads a_str a_indexable a_item a_attr unset).
Implicit Types (h : heap) (v w o u : val).

Lemma reach_trans h v n m : reach h v n -> reach h (VR n) m -> reach h v m.
Proof.
  intros R1 R2. induction R2 as [k E|k c j R2 IH En Hd].
  - now injection E as <-.
  - eapply r_next; eauto.
Qed.
Lemma binds_in_list {K} (l : list (K * val)) k v : binds l k v -> In (k, v) l.
Proof. induction 1; [now left|now right]. Qed.
Lemma at_holds (c : cell) k v : at_place c k v -> holds c v.
Proof.
  intros P. inversion P; subst; cbn.
  - eexists. eapply binds_in_list; eauto.
  - eapply nth_error_In; eauto.
  - eexists. eapply binds_in_list; eauto.
Qed.
Lemma leads_atom h a p tr u : leads h (VA a) p tr u -> exists b, u = VA b /\ tr = [].
Proof.
  intros L. remember (VA a) as v eqn:E. revert a E. induction L; intros x E; try discriminate; eauto.
Qed.
(** a path leads to objects that are reached, past objects that are reached *)
Lemma leads_reach h v p tr u : leads h v p tr u ->
  (forall n, u = VR n -> reach h v n) /\ forall n k, In (n, k) tr -> reach h v n.
Proof.
  intros L. induction L as [v|n c s k w p tr u En M P L IH|n c sl m a p tr u En B U L IH|a s b p tr u Pt L IH].
  - split; [intros; subst; now constructor|intros n k []].
  - destruct IH as (IH1 & IH2).
    assert (Q : forall m, reach h w m -> reach h (VR n) m).
    { intros m R. destruct w as [a|j].
      - exfalso. clear - R. remember (VA a) as v eqn:E. induction R as [? E'|? ? ? ? IH]; subst; [discriminate|auto].
      - eapply reach_trans; [|exact R]. eapply r_next; [now constructor|exact En|]. eapply at_holds; eauto. }
    split; [intros; apply Q; auto|]. intros m k' [E|I]; [injection E as <- <-; now constructor|]. eapply Q, IH2; eauto.
  - destruct (leads_atom _ _ _ _ _ L) as (b & -> & ->). split; [discriminate|].
    intros j k' [E|[]]. injection E as <- <-. now constructor.
  - destruct (leads_atom _ _ _ _ _ L) as (b' & -> & ->). split; [discriminate|intros n k []].
Qed.
(** paths depend only on the objects reached *)
Lemma leads_agree h h' v p tr u : leads h v p tr u -> (forall n, reach h v n -> nth_error h' n = nth_error h n) -> leads h' v p tr u.
Proof.
  intros L. induction L as [v|n c s k w p tr u En M P L IH|n c sl m a p tr u En B U L IH|a s b p tr u Pt L IH]; intros Ag.
  - constructor.
  - eapply L_object; [rewrite Ag; [exact En|now constructor]|exact M|exact P|].
    apply IH. intros m R. apply Ag. destruct w as [a|j].
    + exfalso. clear - R. remember (VA a) as v eqn:E. induction R as [? E'|? ? ? ? IH]; subst; [discriminate|auto].
    + eapply reach_trans; [|exact R]. eapply r_next; [now constructor|exact En|]. eapply at_holds; eauto.
  - eapply L_class; [rewrite Ag; [exact En|now constructor]|exact B|exact U|].
    apply IH. intros m' R. exfalso. clear - R. remember (VA a) as v eqn:E. induction R as [? E'|? ? ? ? IH]; subst; [discriminate|auto].
  - eapply L_value; eauto. apply IH. intros m' R. exfalso. clear - R. remember (VA b) as v eqn:E. induction R as [? E'|? ? ? ? IH]; subst; [discriminate|auto].
Qed.
End Paths.
