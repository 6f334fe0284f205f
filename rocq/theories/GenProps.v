(** C44: generic collection types are unique per item type. *)
From Coq Require Import String List NArith Arith Bool Lia.
From Verif Require Import Prelude GenModel.
Import ListNotations.
Local Open Scope string_scope.
Local Open Scope list_scope.

Lemma gkey_eqb_eq a b : gkey_eqb a b = true <-> a = b.
Proof.
  unfold gkey_eqb. rewrite andb_true_iff, !str_eqb_eq. destruct a, b; simpl.
  split; [intros [-> ->]; auto | intros H; injection H; auto].
Qed.
Lemma gkey_eqb_refl a : gkey_eqb a a = true.
Proof. now apply gkey_eqb_eq. Qed.

Lemma ty_eqb_eq a b : ty_eqb a b = true <-> a = b.
Proof.
  unfold ty_eqb. rewrite !andb_true_iff, !str_eqb_eq, Nat.eqb_eq. destruct a, b; simpl.
  split; [intros [[-> ->] ->]; auto | intros H; injection H; auto].
Qed.

(** ** Invariant over a history *)

(** An answer after which the type is in the table. *)
Definition made (r : res gtype) : Prop := (exists g, r = Ok g) \/ r = Err KeyErr.

Record inv (st : state) (tr : list answer) : Prop := {
  i_find : forall k g, find_type k (st_types st) = Some g ->
     g_key g = k /\ k = key_for (g_item g) (g_coll g) /\ t_id (g_ty g) < st_next st /\
     c_is_coll (g_coll g) = true /\
     exists r, In (g_item g, g_coll g, r) tr /\ made r;
  i_made : forall of c r, In (of, c, r) tr -> made r ->
     exists g, find_type (key_for of c) (st_types st) = Some g /\ g_item g = of /\
       c_is_coll c = true /\ forall g', r = Ok g' -> g' = g;
  i_ids : forall k k' g g', find_type k (st_types st) = Some g ->
     find_type k' (st_types st) = Some g' -> t_id (g_ty g) = t_id (g_ty g') -> g = g'
}.

Lemma make_mono of c st st' r k g :
  make_generic of c st = (st', r) -> find_type k (st_types st) = Some g ->
  find_type k (st_types st') = Some g.
Proof.
  unfold make_generic. intros H F.
  destruct (negb (c_is_coll c)); [injection H as <- <-; auto|].
  destruct (find_type (key_for of c) (st_types st)) eqn:E.
  - destruct (ty_eqb _ _); injection H as <- <-; auto.
  - destruct (c_suffix c); [|injection H as <- <-; auto].
    assert (G : gkey_eqb k (key_for of c) = false).
    { destruct (gkey_eqb k (key_for of c)) eqn:Q; auto. apply gkey_eqb_eq in Q. congruence. }
    destruct (find_name (t_mod of) (st_mods st)); [destruct (find_name _ _)|];
      injection H as <- <-; simpl; rewrite G; auto.
Qed.

Lemma run_mono evs : forall st st' tr k g,
  run evs st = (st', tr) -> find_type k (st_types st) = Some g ->
  find_type k (st_types st') = Some g.
Proof.
  induction evs as [|[of c|m|n] t IH]; simpl; intros st st' tr k g H F.
  - injection H as <- <-; auto.
  - destruct (make_generic of c st) as [st1 r] eqn:E.
    destruct (run t st1) as [st2 tr2] eqn:E2. injection H as <- <-.
    eapply IH; eauto. eapply make_mono; eauto.
  - eapply IH; eauto.
  - eapply IH; eauto.
Qed.

(** What one request does. *)
Lemma make_cases of c st st' r :
  make_generic of c st = (st', r) ->
  (c_is_coll c = false /\ st' = st /\ r = Err AssertErr) \/
  (c_is_coll c = true /\
   ((exists g, find_type (key_for of c) (st_types st) = Some g /\ st' = st /\
       ((g_item g = of /\ r = Ok g) \/ (g_item g <> of /\ r = Err NotUnique))) \/
    (find_type (key_for of c) (st_types st) = None /\
     ((c_suffix c = None /\ st' = st /\ r = Err AttrErr) \/
      exists sfx, c_suffix c = Some sfx /\
        let g := new_type of c sfx (st_next st) in
        st_types st' = (key_for of c, g) :: st_types st /\ st_next st' = S (st_next st) /\
        (r = Ok g \/ r = Err KeyErr))))).
Proof.
  unfold make_generic. intros H.
  destruct (c_is_coll c); simpl in H; [|injection H as <- <-; left; auto].
  right; split; auto.
  destruct (find_type (key_for of c) (st_types st)) as [g|] eqn:E.
  - left. exists g. destruct (ty_eqb (g_item g) of) eqn:Q; injection H as <- <-;
      (split; [auto|split; [auto|]]).
    + left. split; auto. now apply ty_eqb_eq.
    + right. split; auto. intros N. apply ty_eqb_eq in N. congruence.
  - right. split; auto. destruct (c_suffix c) as [sfx|]; [|injection H as <- <-; left; auto].
    right. exists sfx. split; auto. simpl in H.
    destruct (find_name (t_mod of) (st_mods st)); [destruct (find_name _ _)|];
      injection H as <- <-; simpl; auto 6.
Qed.

Lemma inv_make of c st st' r tr :
  inv st tr -> make_generic of c st = (st', r) -> inv st' (tr ++ [(of, c, r)]).
Proof.
  intros [I1 I2 I3] H.
  destruct (make_cases _ _ _ _ _ H) as
    [(A & -> & ->) | (A & [(g & F & -> & G) | (F & [(B & -> & ->) | (sfx & B & T & N & R)])])].
  - split; [|  |exact I3].
    + intros k g Fk. destruct (I1 k g Fk) as (a & b & d & e & x & X & Y).
      repeat split; auto. exists x. rewrite in_app_iff; auto.
    + intros of' c' r' X Y. rewrite in_app_iff in X. destruct X as [X|[X|[]]]; eauto.
      injection X as <- <- <-. destruct Y as [[y Y]|Y]; discriminate.
  - split; [|  |exact I3].
    + intros k g' Fk. destruct (I1 k g' Fk) as (a & b & d & e & x & X & Y).
      repeat split; auto. exists x. rewrite in_app_iff; auto.
    + intros of' c' r' X Y. rewrite in_app_iff in X. destruct X as [X|[X|[]]]; eauto.
      injection X as <- <- <-. destruct G as [[G ->]|[G ->]].
      * exists g. repeat split; auto. congruence.
      * destruct Y as [[y Y]|Y]; discriminate.
  - split; [|  |exact I3].
    + intros k g Fk. destruct (I1 k g Fk) as (a & b & d & e & x & X & Y).
      repeat split; auto. exists x. rewrite in_app_iff; auto.
    + intros of' c' r' X Y. rewrite in_app_iff in X. destruct X as [X|[X|[]]]; eauto.
      injection X as <- <- <-. destruct Y as [[y Y]|Y]; discriminate.
  - set (g := new_type of c sfx (st_next st)) in *.
    assert (MD : made r) by (destruct R; [left; eauto | right; auto]).
    split.
    + intros k g' Fk. rewrite T in Fk. simpl in Fk.
      destruct (gkey_eqb k (key_for of c)) eqn:Q.
      * injection Fk as <-. apply gkey_eqb_eq in Q. subst k. rewrite N.
        split; [reflexivity|]. split; [reflexivity|]. split; [simpl; lia|].
        split; [exact A|]. exists r. split; auto. rewrite in_app_iff; simpl; auto.
      * destruct (I1 k g' Fk) as (a & b & d & e & x & X & Y). rewrite N.
        repeat split; auto. exists x. rewrite in_app_iff; auto.
    + intros of' c' r' X Y. rewrite in_app_iff in X. destruct X as [X|[X|[]]].
      * destruct (I2 _ _ _ X Y) as (g' & Fg & Z). exists g'. split; auto.
        eapply make_mono; eauto.
      * injection X as <- <- <-. exists g. rewrite T. simpl. rewrite gkey_eqb_refl.
        repeat split; auto. intros g' ->. destruct R as [R|R]; congruence.
    + intros k k' g1 g2 F1 F2 E. rewrite T in F1, F2. simpl in F1, F2.
      destruct (gkey_eqb k (key_for of c)), (gkey_eqb k' (key_for of c)).
      * congruence.
      * injection F1 as <-. destruct (I1 _ _ F2) as (_ & _ & L & _).
        unfold g in E; simpl in E. rewrite <- E in L. lia.
      * injection F2 as <-. destruct (I1 _ _ F1) as (_ & _ & L & _).
        unfold g in E; simpl in E. rewrite E in L. lia.
      * eauto.
Qed.

Lemma inv_mods st tr m n :
  inv st tr ->
  inv {| st_types := st_types st; st_mods := m; st_next := n + st_next st |} tr.
Proof.
  intros [I1 I2 I3]. split; simpl; auto.
  intros k g F. destruct (I1 k g F) as (a & b & d & e & x). repeat split; auto. lia.
Qed.

Lemma inv_run evs : forall st tr st' tr',
  inv st tr -> run evs st = (st', tr') -> inv st' (tr ++ tr').
Proof.
  induction evs as [|[of c|m|n] t IH]; simpl; intros st tr st' tr' I H.
  - injection H as <- <-. now rewrite app_nil_r.
  - destruct (make_generic of c st) as [st1 r] eqn:E.
    destruct (run t st1) as [st2 tr2] eqn:E2. injection H as <- <-.
    replace (tr ++ (of, c, r) :: tr2) with ((tr ++ [(of, c, r)]) ++ tr2)
      by (rewrite <- app_assoc; reflexivity).
    eapply IH; eauto. eapply inv_make; eauto.
  - eapply IH; [|exact H]. exact (inv_mods st tr m 0 I).
  - eapply IH; [|exact H]. exact (inv_mods st tr (st_mods st) n I).
Qed.

Lemma inv_start m n evs st tr : run evs (start m n) = (st, tr) -> inv st tr.
Proof.
  intros H. apply (inv_run evs (start m n) [] st tr); auto.
  split; simpl; try discriminate. intros ? ? ? [].
Qed.

(** ** Theorems

    Throughout: any modules to begin with, any history [evs] of requests, of changes to
    sys.modules and of objects created elsewhere. *)

(** The same request gives the same type, whatever else happened before or in between. *)
Theorem C44_same_type : forall m n evs st tr of c st1 g evs' st2 tr',
  run evs (start m n) = (st, tr) ->
  make_generic of c st = (st1, Ok g) ->
  run evs' st1 = (st2, tr') ->
  make_generic of c st2 = (st2, Ok g).
Proof.
  intros m n evs st tr of c st1 g evs' st2 tr' H E R.
  pose proof (inv_make _ _ _ _ _ _ (inv_start _ _ _ _ _ H) E) as I.
  destruct (i_made _ _ I of c (Ok g)) as (g' & F & G & Q & U).
  { rewrite in_app_iff; simpl; auto. }
  { left; eauto. }
  rewrite (U g eq_refl) in *.
  pose proof (run_mono _ _ _ _ _ _ R F) as F2.
  unfold make_generic. rewrite Q, F2. simpl.
  rewrite (proj2 (ty_eqb_eq _ _) G). reflexivity.
Qed.

(** Its items are of the type asked for, and it was derived from a collection class of the name
    asked for. *)
Theorem C44_items : forall m n evs st tr of c st1 g,
  run evs (start m n) = (st, tr) ->
  make_generic of c st = (st1, Ok g) ->
  g_item g = of /\ c_name (g_coll g) = c_name c /\ g_key g = key_for of c.
Proof.
  intros m n evs st tr of c st1 g H E.
  pose proof (inv_make _ _ _ _ _ _ (inv_start _ _ _ _ _ H) E) as I.
  destruct (i_made _ _ I of c (Ok g)) as (g' & F & G & Q & U).
  { rewrite in_app_iff; simpl; auto. }
  { left; eauto. }
  rewrite (U g eq_refl) in *. destruct (i_find _ _ I _ _ F) as (K1 & K2 & _).
  split; auto. split; auto. unfold key_for in K2. congruence.
Qed.

(** If no two different collection classes of the same name are used, the type is derived from the
    very class asked for; in particular list_of and dict_of. *)
Theorem C44_collection : forall m n evs st tr of c st1 g,
  run evs (start m n) = (st, tr) ->
  (forall of' c' r, In (of', c', r) tr -> c_name c' = c_name c -> c' = c) ->
  make_generic of c st = (st1, Ok g) ->
  g_coll g = c.
Proof.
  intros m n evs st tr of c st1 g H U E.
  pose proof (inv_make _ _ _ _ _ _ (inv_start _ _ _ _ _ H) E) as I.
  destruct (i_made _ _ I of c (Ok g)) as (g' & F & G & Q & V).
  { rewrite in_app_iff; simpl; auto. }
  { left; eauto. }
  rewrite (V g eq_refl) in *. destruct (i_find _ _ I _ _ F) as (_ & K2 & _ & _ & r & X & _).
  unfold key_for in K2.
  rewrite in_app_iff in X. destruct X as [X|[X|[]]].
  - eapply U; eauto. congruence.
  - injection X as _ X _. congruence.
Qed.

(** Different item types never share a generic type: one and the same class object is never the
    answer to requests with different item types or differently named collection classes. *)
Theorem C44_distinct : forall m n evs st tr of c g of' c' g',
  run evs (start m n) = (st, tr) ->
  In (of, c, Ok g) tr -> In (of', c', Ok g') tr ->
  t_id (g_ty g) = t_id (g_ty g') ->
  of = of' /\ c_name c = c_name c' /\ g = g'.
Proof.
  intros m n evs st tr of c g of' c' g' H X X' E.
  pose proof (inv_start _ _ _ _ _ H) as I.
  destruct (i_made _ _ I _ _ _ X) as (h & F & G & _ & U). { left; eauto. }
  destruct (i_made _ _ I _ _ _ X') as (h' & F' & G' & _ & U'). { left; eauto. }
  rewrite <- (U g eq_refl) in *. rewrite <- (U' g' eq_refl) in *.
  pose proof (i_ids _ _ I _ _ _ _ F F' E) as W. subst g'.
  destruct (i_find _ _ I _ _ F) as (K1 & _). destruct (i_find _ _ I _ _ F') as (K1' & _).
  unfold key_for in *. split; [congruence|]. split; [congruence|auto].
Qed.

(** Exactly the conflicting requests are rejected, and rejection changes nothing: an earlier request
    made a type under the same collection name and the same "module.name" text, for another item
    type. *)
Theorem C44_rejected : forall m n evs st tr of c st1 r,
  run evs (start m n) = (st, tr) ->
  make_generic of c st = (st1, r) ->
  (r = Err NotUnique <->
   c_is_coll c = true /\
   exists of' c' r', In (of', c', r') tr /\ made r' /\ key_for of' c' = key_for of c /\ of' <> of)
  /\ (r = Err NotUnique -> st1 = st).
Proof.
  intros m n evs st tr of c st1 r H E.
  pose proof (inv_start _ _ _ _ _ H) as I.
  destruct (make_cases _ _ _ _ _ E) as
    [(A & -> & ->) | (A & [(g & F & -> & G) | (F & [(B & -> & ->) | (sfx & B & T & N & R)])])].
  - split; auto. split; [discriminate|]. intros [Q _]; congruence.
  - split; auto. split.
    + intros ->. split; auto. destruct G as [[_ G]|[G _]]; [discriminate|].
      destruct (i_find _ _ I _ _ F) as (_ & K & _ & _ & r & X & Y).
      exists (g_item g), (g_coll g), r. auto.
    + intros [_ (of' & c' & r' & X & Y & K & W)].
      destruct (i_made _ _ I _ _ _ X Y) as (g' & F' & G' & _).
      rewrite K in F'. destruct G as [[G ->]|[G ->]]; auto. congruence.
  - split; [|discriminate]. split; [discriminate|].
    intros [_ (of' & c' & r' & X & Y & K & W)].
    destruct (i_made _ _ I _ _ _ X Y) as (g' & F' & _). congruence.
  - split; [|destruct R as [-> | ->]; discriminate]. split; [destruct R as [-> | ->]; discriminate|].
    intros [_ (of' & c' & r' & X & Y & K & W)].
    destruct (i_made _ _ I _ _ _ X Y) as (g' & F' & _). congruence.
Qed.

(** Same module and same name, different classes: rejected, not confused. *)
Theorem C44_same_name_rejected : forall m n evs st tr of c g of',
  run evs (start m n) = (st, tr) ->
  In (of, c, Ok g) tr ->
  t_mod of' = t_mod of -> t_name of' = t_name of -> of' <> of ->
  make_generic of' c st = (st, Err NotUnique).
Proof.
  intros m n evs st tr of c g of' H X M N W.
  destruct (make_generic of' c st) as [st1 r] eqn:E.
  destruct (C44_rejected _ _ _ _ _ _ _ _ _ H E) as [[_ R1] R2].
  assert (Q : r = Err NotUnique).
  { apply R1. split.
    - destruct (i_made _ _ (inv_start _ _ _ _ _ H) _ _ _ X) as (_ & _ & _ & C & _); auto.
      left; eauto.
    - exists of, c, (Ok g). split; auto. split; [left; eauto|]. split; auto.
      unfold key_for. rewrite M, N. auto. }
  rewrite (R2 Q), Q. reflexivity.
Qed.

(** A request without conflict, for a proper collection class and a loaded module, is granted. *)
Theorem C44_granted : forall m n evs st tr of c sfx,
  run evs (start m n) = (st, tr) ->
  c_is_coll c = true -> c_suffix c = Some sfx ->
  find_name (t_mod of) (st_mods st) <> None ->
  (forall of' c' r', In (of', c', r') tr -> made r' -> key_for of' c' = key_for of c -> of' = of) ->
  exists st1 g, make_generic of c st = (st1, Ok g) /\ g_item g = of.
Proof.
  intros m n evs st tr of c sfx H Q S M U.
  pose proof (inv_start _ _ _ _ _ H) as I.
  unfold make_generic. rewrite Q, S. simpl.
  destruct (find_type (key_for of c) (st_types st)) as [g|] eqn:F.
  - destruct (i_find _ _ I _ _ F) as (_ & K & _ & _ & r & X & Y).
    assert (W : g_item g = of) by (eapply U; eauto).
    rewrite (proj2 (ty_eqb_eq _ _) W). eauto.
  - destruct (find_name (t_mod of) (st_mods st)) as [ns|]; [|congruence].
    destruct (find_name _ ns); eexists; eexists; split; reflexivity.
Qed.

(** Module attributes: nothing already there is changed; at most one name is added, in the item
    type's module, called item name + suffix and bound to the new type. *)
Definition attr_of (m : list (str * list (str * nat))) (mod_ name : str) : option nat :=
  match find_name mod_ m with Some ns => find_name name ns | None => None end.

Lemma set_attr_find md x n l md' :
  find_name md' (set_attr md n x l) =
  if str_eqb md' md then
    match find_name md l with Some ns => Some ((n, x) :: ns) | None => None end
  else find_name md' l.
Proof.
  induction l as [|[m' ns] t IH]; simpl.
  - destruct (str_eqb md' md); auto.
  - destruct (str_eqb md m') eqn:E; simpl.
    + apply str_eqb_eq in E. subst m'. destruct (str_eqb md' md); auto.
    + destruct (str_eqb md' m') eqn:E'.
      * apply str_eqb_eq in E'. subst m'. destruct (str_eqb md' md) eqn:Q; auto.
        apply str_eqb_eq in Q. subst. rewrite str_eqb_refl in E. discriminate.
      * exact IH.
Qed.

Theorem C44_names : forall of c st st1 r md nm,
  make_generic of c st = (st1, r) ->
  (attr_of (st_mods st) md nm <> None -> attr_of (st_mods st1) md nm = attr_of (st_mods st) md nm) /\
  (attr_of (st_mods st1) md nm <> attr_of (st_mods st) md nm ->
   exists g sfx, r = Ok g /\ md = t_mod of /\ c_suffix c = Some sfx /\ nm = t_name of ++ sfx /\
     t_name (g_ty g) = nm /\ attr_of (st_mods st1) md nm = Some (t_id (g_ty g))).
Proof.
  unfold make_generic. intros of c st st1 r md nm H.
  destruct (negb (c_is_coll c)); [injection H as <- <-; split; congruence|].
  destruct (find_type (key_for of c) (st_types st)) eqn:E.
  { destruct (ty_eqb _ _); injection H as <- <-; split; congruence. }
  destruct (c_suffix c) as [sfx|]; [|injection H as <- <-; split; congruence].
  simpl in H. destruct (find_name (t_mod of) (st_mods st)) as [ns|] eqn:F;
    [|injection H as <- <-; simpl; split; congruence].
  destruct (find_name (t_name of ++ sfx) ns) eqn:G;
    [injection H as <- <-; simpl; split; congruence|].
  injection H as <- <-. cbn [st_mods]. unfold attr_of. rewrite set_attr_find, F.
  destruct (str_eqb md (t_mod of)) eqn:M; [|split; congruence].
  apply str_eqb_eq in M. subst md. rewrite F. simpl.
  destruct (str_eqb nm (t_name of ++ sfx)) eqn:N; [|split; congruence].
  apply str_eqb_eq in N. subst nm. rewrite G. split; [congruence|].
  intros _. exists (new_type of c sfx (st_next st)), sfx. simpl. auto 8.
Qed.

(** ** Where the property fails or surprises *)

Definition T (id : nat) (md nm : string) : ty := {| t_id := id; t_mod := s2l md; t_name := s2l nm |}.
Definition mods0 : list (str * list (str * nat)) :=
  [(s2l "a", [(s2l "FooList", 7)]); (s2l "b", []); (s2l "normalize.record.meta", [])].

(** Two collection classes of the same name (in different modules) are confused: the second gets the
    type derived from the first. *)
Theorem C44_same_named_class_refuted : exists of c c' st g st',
  c_id c <> c_id c' /\ c_name c = c_name c' /\
  make_generic of c (start mods0 100) = (st, Ok g) /\
  make_generic of c' st = (st', Ok g) /\ g_coll g = c.
Proof.
  exists (T 1 "a" "Foo"), ListColl,
    {| c_id := 5; c_name := s2l "ListCollection"; c_suffix := Some (s2l "Rows"); c_is_coll := true |}.
  do 3 eexists. split; [discriminate|]. split; [reflexivity|].
  split; [reflexivity|]. split; [vm_compute; reflexivity|]. reflexivity.
Qed.

(** Lists of lists: the generic types all live in module normalize.record.meta, so two item types of
    the same name from different modules have lists, but not both lists of lists. *)
Theorem C44_lists_of_lists_refuted : exists of of' st1 g1 st2 g2 st3 g3,
  t_mod of <> t_mod of' /\
  list_of of (start mods0 100) = (st1, Ok g1) /\
  list_of of' st1 = (st2, Ok g2) /\
  list_of (g_ty g1) st2 = (st3, Ok g3) /\
  list_of (g_ty g2) st3 = (st3, Err NotUnique).
Proof.
  exists (T 1 "a" "Foo"), (T 2 "b" "Foo"). do 6 eexists. split; [discriminate|].
  split; [vm_compute; reflexivity|]. split; [vm_compute; reflexivity|].
  split; [vm_compute; reflexivity|]. vm_compute. reflexivity.
Qed.

(** When the item type's module is not in sys.modules the first request raises KeyError and the
    second one, in the same situation, succeeds. *)
Theorem C44_missing_module_refuted : exists of st1 g,
  list_of of (start mods0 100) = (st1, Err KeyErr) /\ st_mods st1 = mods0 /\
  list_of of st1 = (st1, Ok g).
Proof.
  exists (T 1 "gone" "Foo"). do 2 eexists.
  split; [vm_compute; reflexivity|]. split; vm_compute; reflexivity.
Qed.

(** Different module and name with the same dotted text are rejected too. *)
Theorem C44_dotted_refuted : exists of of' st1 g,
  t_mod of <> t_mod of' /\ t_name of <> t_name of' /\
  list_of of (start mods0 100) = (st1, Ok g) /\ list_of of' st1 = (st1, Err NotUnique).
Proof.
  exists (T 1 "a" "b.Foo"), (T 2 "a.b" "Foo"). do 2 eexists.
  split; [discriminate|]. split; [discriminate|]. split; vm_compute; reflexivity.
Qed.

(** ** Examples *)

Definition ex_history : list event :=
  [Request (T 1 "a" "Foo") ListColl; OtherObjects 3; Request (T 2 "b" "Foo") ListColl;
   Request (T 1 "a" "Foo") DictColl; Modules mods0; Request (T 3 "b" "Foo") ListColl;
   Request (T 1 "a" "Foo") ListColl].

Example C44_history_case :
  map (fun x : answer => match snd x with Ok g => Some (t_id (g_ty g), t_id (g_item g)) | Err _ => None end)
      (snd (run ex_history (start mods0 100)))
  = [Some (100, 1); Some (104, 2); Some (105, 1); None; Some (100, 1)]
  /\ snd (make_generic (T 3 "b" "Foo") ListColl (fst (run ex_history (start mods0 100))))
     = Err NotUnique.
Proof. split; vm_compute; reflexivity. Qed.

(** an existing attribute a.FooList stays; b.FooList is added *)
Example C44_names_case :
  let st := fst (run [Request (T 1 "a" "Foo") ListColl; Request (T 2 "b" "Foo") ListColl]
                     (start mods0 100)) in
  attr_of (st_mods st) (s2l "a") (s2l "FooList") = Some 7 /\
  attr_of (st_mods st) (s2l "b") (s2l "FooList") = Some 101.
Proof. split; vm_compute; reflexivity. Qed.

Example C44_collection_case :
  exists st g, list_of (T 1 "a" "Foo") (fst (run ex_history (start mods0 100))) = (st, Ok g)
    /\ g_coll g = ListColl /\ t_name (g_ty g) = s2l "FooList".
Proof. do 2 eexists. split; [vm_compute; reflexivity|]. split; vm_compute; reflexivity. Qed.

Example C44_granted_case :
  find_name (s2l "b") (st_mods (fst (run ex_history (start mods0 100)))) <> None.
Proof. vm_compute. discriminate. Qed.

Print Assumptions C44_same_type.
Print Assumptions C44_items.
Print Assumptions C44_collection.
Print Assumptions C44_distinct.
Print Assumptions C44_rejected.
Print Assumptions C44_same_name_rejected.
Print Assumptions C44_granted.
Print Assumptions C44_names.
Print Assumptions C44_same_named_class_refuted.
Print Assumptions C44_lists_of_lists_refuted.
Print Assumptions C44_missing_module_refuted.
Print Assumptions C44_dotted_refuted.
