(** C43: pickling preserves state. *)
From Coq Require Import String List NArith Arith Bool Lia.
From Verif Require Import Prelude GenModel PickleModel.
Import ListNotations.
Local Open Scope string_scope.
Local Open Scope list_scope.

(** ** Specification *)

(** [occurs c sl v]: an object of class [c] with entries [sl] is [v] or somewhere inside [v]. *)
Inductive occurs {A} (c : nat) (sl : list (str * pval A)) : pval A -> Prop :=
| occ_here : occurs c sl (PObj c sl)
| occ_list l x : In x l -> occurs c sl x -> occurs c sl (PList l)
| occ_dict l k x : In (k, x) l -> occurs c sl x -> occurs c sl (PDict l)
| occ_slot d sl' k x : In (k, x) sl' -> occurs c sl x -> occurs c sl (PObj d sl').

(** The items of the underlying container, when it is the right kind of container. *)
Definition items_of {A} (is_list : bool) (v : pval A) : option (list (pval A)) :=
  match is_list, v with
  | true, PList l => Some l
  | false, PDict l => Some (map snd l)
  | _, _ => None
  end.

(** A generic collection that nothing was added to: its class is what the loading process has under
    its key; it has items of the right type, no other entries, and no properties with defaults. *)
Definition plain_collection {A} (P : process A) (c : nat) (k : gkey) (sl : list (str * pval A)) : Prop :=
  p_types P k = Some c /\ p_eager P c = [] /\
  (forall rest, snd k <> s2l "__builtin__" ++ rest) /\
  exists v l, sl = [(s2l "_values", v)] /\ items_of (p_list P c) v = Some l /\
    forall x, In x l -> p_isa P c x = true.

(** ** Induction over nested values *)

Section Ind.
Variable A : Type.
Variable Q : pval A -> Prop.
Hypothesis Ha : forall a, Q (PAtom a).
Hypothesis Hl : forall l, (forall x, In x l -> Q x) -> Q (PList l).
Hypothesis Hd : forall l, (forall k x, In (k, x) l -> Q x) -> Q (PDict l).
Hypothesis Ho : forall c l, (forall k x, In (k, x) l -> Q x) -> Q (PObj c l).

Fixpoint pval_nested (v : pval A) : Q v :=
  match v with
  | PAtom a => Ha a
  | PList l => Hl l ((fix go l : forall x, In x l -> Q x :=
      match l with
      | [] => fun x H => match H with end
      | y :: t => fun x H => match H with
                             | or_introl e => eq_ind y Q (pval_nested y) x e
                             | or_intror H' => go t x H'
                             end
      end) l)
  | PDict l => Hd l ((fix go l : forall k x, In (k, x) l -> Q x :=
      match l with
      | [] => fun k x H => match H with end
      | (k', y) :: t => fun k x H => match H with
                             | or_introl e => eq_ind y Q (pval_nested y) x (f_equal snd e)
                             | or_intror H' => go t k x H'
                             end
      end) l)
  | PObj c l => Ho c l ((fix go l : forall k x, In (k, x) l -> Q x :=
      match l with
      | [] => fun k x H => match H with end
      | (k', y) :: t => fun k x H => match H with
                             | or_introl e => eq_ind y Q (pval_nested y) x (f_equal snd e)
                             | or_intror H' => go t k x H'
                             end
      end) l)
  end.
End Ind.

Lemma mapm_map {A B C} (f : B -> res C) (g : A -> B) l :
  mapm f (map g l) = mapm (fun x => f (g x)) l.
Proof. induction l as [|x t IH]; simpl; auto. now rewrite IH. Qed.

Lemma mapm_id {A} (f : A -> res A) l :
  (forall x, In x l -> f x = Ok x) -> mapm f l = Ok l.
Proof.
  induction l as [|x t IH]; simpl; intros H; auto.
  rewrite (H x (or_introl eq_refl)), IH; auto.
Qed.

Lemma strip_prefix_spec p s rest : strip_prefix p s = Some rest <-> s = p ++ rest.
Proof.
  revert s; induction p as [|a p IH]; simpl; intros s.
  - split; congruence.
  - destruct s as [|b s]; [split; discriminate|].
    destruct (N.eqb_spec a b); [subst; rewrite IH; split; congruence|].
    split; [discriminate|]. congruence.
Qed.

Lemma load_key_same k :
  (forall rest, snd k <> s2l "__builtin__" ++ rest) -> load_key k = k.
Proof.
  intros H. unfold load_key. destruct (strip_prefix (s2l "__builtin__") (snd k)) eqn:E; auto.
  apply strip_prefix_spec in E. exfalso. eapply H; eauto.
Qed.

Lemma mapm_pairs_id {K A} (f : A -> res A) (l : list (K * A)) :
  (forall k x, In (k, x) l -> f x = Ok x) ->
  mapm (fun kv => do x <- f (snd kv); Ok (fst kv, x)) l = Ok l.
Proof.
  intros H. apply mapm_id. intros [k x] I. simpl. rewrite (H k x I). reflexivity.
Qed.

(** ** Theorems *)

(** Records: every entry of every record, list and dict in the value comes back, in any loading
    process – whatever its classes would coerce, check or default, none of it takes part. *)
Theorem C43_records : forall A gk (v : pval A),
  (forall c sl, occurs c sl v -> gk c = None) ->
  forall P, loads P (dumps gk v) = Ok v.
Proof.
  intros A gk v H P. revert H.
  induction v as [a|l IH|l IH|c l IH] using pval_nested; intros H; cbn [dumps loads]; auto.
  - rewrite mapm_map, mapm_id; auto.
    intros x I. apply IH; auto. intros c sl O. apply (H c sl). eapply occ_list; eauto.
  - rewrite mapm_map. cbn [fst snd].
    rewrite (mapm_pairs_id (fun x => loads P (dumps gk x))); auto.
    intros k x I. apply (IH k x I). intros c sl O. apply (H c sl). eapply occ_dict; eauto.
  - rewrite (H c l (occ_here _ _)). cbn [loads]. rewrite mapm_map. cbn [fst snd].
    rewrite (mapm_pairs_id (fun x => loads P (dumps gk x))); auto.
    intros k x I. apply (IH k x I). intros c' sl O. apply (H c' sl). eapply occ_slot; eauto.
Qed.

Lemma to_values_same {A} (P : process A) d v l :
  items_of (p_list P d) v = Some l -> (forall x, In x l -> p_isa P d x = true) ->
  to_values P d v = Ok v.
Proof.
  unfold items_of, to_values. intros H I.
  destruct (p_list P d), v; try discriminate; injection H as <-.
  - rewrite mapm_id; auto. intros x X. unfold coerce_value. rewrite (I x X). auto.
  - rewrite (mapm_pairs_id (coerce_value P d)); auto.
    intros k x X. unfold coerce_value. rewrite (I x); auto.
    apply in_map_iff. exists (k, x); auto.
Qed.

(** Collections too, when every generic collection inside is a plain one. *)
Theorem C43_round_trip : forall A gk (P : process A) (v : pval A),
  (forall c sl k, occurs c sl v -> gk c = Some k -> plain_collection P c k sl) ->
  loads P (dumps gk v) = Ok v.
Proof.
  intros A gk P v.
  induction v as [a|l IH|l IH|c l IH] using pval_nested; intros H; cbn [dumps loads]; auto.
  - rewrite mapm_map, mapm_id; auto.
    intros x I. apply IH; auto. intros c sl k O. apply H. eapply occ_list; eauto.
  - rewrite mapm_map. cbn [fst snd].
    rewrite (mapm_pairs_id (fun x => loads P (dumps gk x))); auto.
    intros k x I. apply (IH k x I). intros c sl k' O. apply H. eapply occ_dict; eauto.
  - assert (R : forall k x, In (k, x) l -> loads P (dumps gk x) = Ok x).
    { intros k x I. apply (IH k x I). intros c' sl k' O. apply H. eapply occ_slot; eauto. }
    destruct (gk c) as [k|] eqn:G.
    + destruct (H c l k (occ_here _ _) G) as (T & E & B & v & its & -> & S & I).
      simpl. rewrite (R (s2l "_values") v (or_introl eq_refl)). simpl.
      rewrite load_key_same, T by auto. unfold construct.
      rewrite (to_values_same P c v its) by auto. rewrite E. reflexivity.
    + cbn [loads]. rewrite mapm_map. cbn [fst snd].
      rewrite (mapm_pairs_id (fun x => loads P (dumps gk x))); auto.
Qed.

Lemma find_name_map {A B} (f : A -> B) n (l : list (str * A)) :
  find_name n (map (fun kv => (fst kv, f (snd kv))) l) = option_map f (find_name n l).
Proof.
  induction l as [|[k x] t IH]; simpl; auto. destruct (str_eqb n k); auto.
Qed.

Lemma mapm_eager {A} (l : list (str * res (pval A))) ds :
  map fst ds = map fst l -> map (fun kv => Ok (snd kv)) ds = map snd l ->
  mapm (fun kr : str * res (pval A) => do x <- snd kr; Ok (fst kr, x)) l = Ok ds.
Proof.
  revert ds; induction l as [|[k r] t IH]; intros [|[k' x] ds]; simpl; intros F V; auto; try discriminate.
  injection F as -> F. injection V as <- V. simpl. rewrite (IH ds); auto.
Qed.

(** Any generic collection: what comes back is an object of the class registered under its key, with
    the items (given that these come back and are of the item type), and beyond that exactly the
    defaults of that class – nothing else of the collection's own entries. *)
Theorem C43_generic : forall A gk (P : process A) c sl k v l d ds,
  gk c = Some k -> (forall rest, snd k <> s2l "__builtin__" ++ rest) ->
  find_name (s2l "_values") sl = Some v ->
  loads P (dumps gk v) = Ok v ->
  p_types P k = Some d ->
  items_of (p_list P d) v = Some l -> (forall x, In x l -> p_isa P d x = true) ->
  map fst ds = map fst (p_eager P d) -> map (fun kv => Ok (snd kv)) ds = map snd (p_eager P d) ->
  loads P (dumps gk (PObj c sl)) = Ok (PObj d ((s2l "_values", v) :: ds)).
Proof.
  intros A gk P c sl k v l d ds G B F R T S I E1 E2.
  cbn [dumps]. rewrite G, (find_name_map (dumps gk)).
  change values_slot with (s2l "_values"). rewrite F. cbn [option_map loads].
  rewrite R. cbn [bind]. rewrite load_key_same, T by auto. unfold construct.
  rewrite (to_values_same P d v l) by auto. cbn [bind].
  rewrite (mapm_eager _ ds) by auto. reflexivity.
Qed.

(** Two generic collections of one class with the same items cannot be told apart after loading. *)
Theorem C43_only_items_matter : forall A gk (P : process A) c sl sl' k,
  gk c = Some k -> find_name (s2l "_values") sl = find_name (s2l "_values") sl' ->
  loads P (dumps gk (PObj c sl)) = loads P (dumps gk (PObj c sl')).
Proof.
  intros A gk P c sl sl' k G F. cbn [dumps]. rewrite G, !(find_name_map (dumps gk)).
  change values_slot with (s2l "_values"). rewrite F. reflexivity.
Qed.

(** A process that has not made the type cannot load the collection. *)
Theorem C43_unregistered : forall A gk (P : process A) c sl k v,
  gk c = Some k -> find_name (s2l "_values") sl = Some v -> loads P (dumps gk v) = Ok v ->
  p_types P (load_key k) = None ->
  loads P (dumps gk (PObj c sl)) = Err KeyErr.
Proof.
  intros A gk P c sl k v G F R T. cbn [dumps]. rewrite G, (find_name_map (dumps gk)).
  change values_slot with (s2l "_values"). rewrite F. cbn [option_map loads].
  rewrite R. cbn [bind]. now rewrite T.
Qed.

(** Collections of builtin types pickled by Python 2 are found under their Python 3 name. *)
Theorem C43_python2_names : forall A (P : process A) n t vs,
  ~ In 95%N (s2l t) ->
  loads P (KGen (n, s2l "__builtin__" ++ s2l t) vs) = loads P (KGen (n, s2l "builtins" ++ s2l t) vs).
Proof.
  intros A P n t vs U. cbn [loads].
  replace (load_key (n, s2l "__builtin__" ++ s2l t)) with (load_key (n, s2l "builtins" ++ s2l t)); auto.
  unfold load_key. cbn [fst snd].
  rewrite (proj2 (strip_prefix_spec _ _ (s2l t)) eq_refl).
  destruct (strip_prefix (s2l "__builtin__") (s2l "builtins" ++ s2l t)) eqn:E.
  { apply strip_prefix_spec in E. discriminate. }
  f_equal. rewrite app_length. change (length (s2l "__builtin__")) with 11.
  change (11 + length (s2l t)) with (S (10 + length (s2l t))). cbn [replace].
  rewrite (proj2 (strip_prefix_spec _ _ (s2l t)) eq_refl). f_equal.
  generalize (10 + length (s2l t)). intros m. revert U. generalize (s2l t). clear.
  induction m as [|m IH]; intros s U; cbn [replace]; auto.
  destruct (strip_prefix (s2l "__builtin__") s) eqn:E.
  { apply strip_prefix_spec in E. exfalso. apply U. subst s. simpl. auto. }
  destruct s as [|a s]; auto. f_equal. apply IH. intros I. apply U. simpl; auto.
Qed.

(** ** Findings *)

Definition ex_key : gkey := (s2l "ListCollection", s2l "m.Item").
(** class 1: the generic list of class-2 items; class 3: a subclass of class 1; class 4: a record *)
Definition ex_gk (c : nat) : option gkey := match c with 1 | 3 => Some ex_key | _ => None end.
Definition ex_proc (eager : list (str * res (pval nat))) : process nat :=
  {| p_types := fun k => if gkey_eqb k ex_key then Some 1 else None;
     p_list := fun _ => true;
     p_isa := fun _ v => match v with PObj 2 _ => true | _ => false end;
     p_coerce := fun _ v => match v with PAtom n => Ok (PObj 2 [(s2l "id", PAtom n)]) | _ => Err CollItemCoerceErr end;
     p_eager := fun c => match c with 1 => eager | _ => [] end |}.
Definition ex_item (n : nat) : pval nat := PObj 2 [(s2l "id", PAtom n)].

(** Extra properties of a generic collection are lost. *)
Theorem C43_extra_property_refuted : exists A gk (P : process A) c sl sl',
  loads P (dumps gk (PObj c sl)) = Ok (PObj c sl') /\
  exists x, find_name (s2l "total") sl = Some x /\ find_name (s2l "total") sl' = None.
Proof.
  exists nat, ex_gk, (ex_proc []), 1,
    [(s2l "_values", PList [ex_item 5]); (s2l "total", PAtom 1)], [(s2l "_values", PList [ex_item 5])].
  split; [vm_compute; reflexivity|]. eexists; split; vm_compute; reflexivity.
Qed.

(** … or replaced by their defaults … *)
Theorem C43_extra_default_refuted : exists A gk (P : process A) c sl sl' x y,
  loads P (dumps gk (PObj c sl)) = Ok (PObj c sl') /\
  find_name (s2l "total") sl = Some x /\ find_name (s2l "total") sl' = Some y /\ x <> y.
Proof.
  exists nat, ex_gk, (ex_proc [(s2l "total", Ok (PAtom 0))]), 1,
    [(s2l "_values", PList [ex_item 5]); (s2l "total", PAtom 1)],
    [(s2l "_values", PList [ex_item 5]); (s2l "total", PAtom 0)], (PAtom 1), (PAtom 0).
  repeat split; try (vm_compute; reflexivity). discriminate.
Qed.

(** … and with a required extra property the pickle cannot be loaded at all. *)
Theorem C43_required_refuted : exists A gk (P : process A) c sl,
  find_name (s2l "total") sl <> None /\ loads P (dumps gk (PObj c sl)) = Err PropRequired.
Proof.
  exists nat, ex_gk, (ex_proc [(s2l "total", Err PropRequired)]), 1,
    [(s2l "_values", PList [ex_item 5]); (s2l "total", PAtom 1)].
  split; [discriminate|vm_compute; reflexivity].
Qed.

(** An instance of a subclass of a generic collection comes back as an instance of the base. *)
Theorem C43_subclass_refuted : exists A gk (P : process A) c d sl,
  c <> d /\ loads P (dumps gk (PObj c sl)) = Ok (PObj d sl).
Proof.
  exists nat, ex_gk, (ex_proc []), 3, 1, [(s2l "_values", PList [ex_item 5])].
  split; [discriminate|vm_compute; reflexivity].
Qed.

(** Items are coerced again: a collection holding an item of another type (put there through
    [_values] or with coerce=False) comes back with a different item. *)
Theorem C43_items_coerced_refuted : exists A gk (P : process A) c sl sl',
  loads P (dumps gk (PObj c sl)) = Ok (PObj c sl') /\ map fst sl = map fst sl' /\ sl <> sl'.
Proof.
  exists nat, ex_gk, (ex_proc []), 1, [(s2l "_values", PList [PAtom 5])],
    [(s2l "_values", PList [ex_item 5])].
  split; [vm_compute; reflexivity|]. split; [reflexivity|discriminate].
Qed.

(** ** Examples *)

(** a record with a slot violating its type, a list, and an unset attribute *)
Example C43_records_case :
  let v := PObj 4 [(s2l "age", PAtom 7); (s2l "tags", PList [PAtom 1; PObj 2 []])] in
  (forall c sl, occurs c sl v -> ex_gk c = None) /\ loads (ex_proc []) (dumps ex_gk v) = Ok v.
Proof.
  simpl. split; [|vm_compute; reflexivity].
  intros c sl O.
  repeat match goal with
  | H : In _ (_ :: _) |- _ => destruct H as [H|H]
  | H : In _ [] |- _ => destruct H
  | H : (_, _) = (_, _) |- _ => injection H as <- <-
  | H : _ = ?x |- _ => is_var x; subst x
  | H : occurs _ _ _ |- _ => inversion H; clear H; subst
  end; reflexivity.
Qed.

(** a record holding a generic collection of records *)
Example C43_round_trip_case :
  let coll := PObj 1 [(s2l "_values", PList [ex_item 5; ex_item 6])] in
  plain_collection (ex_proc []) 1 ex_key [(s2l "_values", PList [ex_item 5; ex_item 6])] /\
  loads (ex_proc []) (dumps ex_gk (PObj 4 [(s2l "items", coll)])) = Ok (PObj 4 [(s2l "items", coll)]).
Proof.
  simpl. split; [|vm_compute; reflexivity].
  split; [reflexivity|]. split; [reflexivity|]. split; [intros rest; discriminate|].
  exists (PList [ex_item 5; ex_item 6]), [ex_item 5; ex_item 6]. split; [reflexivity|].
  split; [reflexivity|]. simpl. intros x [<-|[<-|[]]]; reflexivity.
Qed.

Example C43_generic_case :
  loads (ex_proc [(s2l "total", Ok (PAtom 0))])
        (dumps ex_gk (PObj 3 [(s2l "x", PAtom 9); (s2l "_values", PList [ex_item 5])]))
  = Ok (PObj 1 [(s2l "_values", PList [ex_item 5]); (s2l "total", PAtom 0)]).
Proof. vm_compute. reflexivity. Qed.

Example C43_unregistered_case :
  loads {| p_types := fun _ => None; p_list := fun _ => true; p_isa := fun _ _ => true;
           p_coerce := fun _ => Ok; p_eager := fun _ => [] |}
        (dumps ex_gk (PObj 1 [(s2l "_values", PList [PAtom 5])])) = Err KeyErr.
Proof. reflexivity. Qed.

Example C43_python2_case :
  load_key (s2l "ListCollection", s2l "__builtin__.int") = (s2l "ListCollection", s2l "builtins.int").
Proof. vm_compute. reflexivity. Qed.

Print Assumptions C43_records.
Print Assumptions C43_round_trip.
Print Assumptions C43_generic.
Print Assumptions C43_only_items_matter.
Print Assumptions C43_unregistered.
Print Assumptions C43_python2_names.
Print Assumptions C43_extra_property_refuted.
Print Assumptions C43_extra_default_refuted.
Print Assumptions C43_required_refuted.
Print Assumptions C43_subclass_refuted.
Print Assumptions C43_items_coerced_refuted.
