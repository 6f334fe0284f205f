(** C54: collection-valued properties. *)
From Coq Require Import String List Arith NArith ZArith Bool Lia Permutation.
From Verif Require Import Prelude FSModel PySeq CollModel CollProofs CollProps CollPropModel.
Import ListNotations.
Local Open Scope list_scope.

(** ** Declarations *)
Section Decl.
Variable sub : nat -> nat -> bool.
Variable COLL LIST DICT : nat.
Variable itemtype : nat -> option nat.
Variable generic : nat -> nat -> res nat.

(** [issubclass] is a preorder; the type made by _make_generic derives from the container class
    and has the item type asked for (C37). *)
Definition class_laws : Prop :=
  (forall c, sub c c = true) /\
  (forall a b c, sub a b = true -> sub b c = true -> sub a c = true) /\
  sub LIST COLL = true /\ sub DICT COLL = true /\
  (forall o c g, generic o c = Ok g -> sub g c = true /\ itemtype g = Some o).

Notation coll_init := (coll_init sub COLL itemtype generic).
Notation keyed_init := (keyed_init sub COLL itemtype generic).

(** What may be passed as container and concrete type for items [o]: the concrete type derives
    from the container and takes items of class [o]; without one a generic type is made. *)
Definition fits (o : option nat) (c : option nat) (isa : option nat) (t : nat) : Prop :=
  match isa with
  | Some i => t = i /\ (forall k, c = Some k -> sub i k = true) /\
              exists it, itemtype i = Some it /\ (forall x, o = Some x -> sub x it = true)
  | None => exists k x, c = Some k /\ o = Some x /\ sub k COLL = true /\ generic x k = Ok t
  end.

Theorem C54_collection_declared of coll isa t :
  (exists d, coll_init of coll isa = Ok d /\ d_type d = t) <-> fits of coll isa t.
Proof.
  unfold CollPropModel.coll_init, fits. destruct isa as [i|].
  - split.
    + intros (d & H & <-).
      assert (Cb : match coll with Some c => negb (sub i c) | None => false end = false).
      { destruct coll as [c|]; auto. destruct (negb (sub i c)); auto. cbn in H. discriminate. }
      rewrite Cb in H. unfold bind in H.
      destruct of as [o|], (itemtype i) as [it|] eqn:It; try discriminate.
      * destruct (negb (sub o it)) eqn:So; [discriminate|]. injection H as <-. cbn [d_type].
        split; auto. split.
        -- intros k ->. now apply negb_false_iff in Cb.
        -- exists it. split; auto. intros x E. injection E as <-. now apply negb_false_iff in So.
      * injection H as <-. cbn [d_type]. split; auto. split.
        -- intros k ->. now apply negb_false_iff in Cb.
        -- exists it. split; auto. discriminate.
    + intros (-> & Hc & it & It & Ho). rewrite It.
      assert (Cb : match coll with Some c => negb (sub i c) | None => false end = false).
      { destruct coll as [c|]; auto. rewrite (Hc c eq_refl). reflexivity. }
      rewrite Cb. destruct of as [o|].
      * rewrite (Ho o eq_refl). cbn. eauto.
      * cbn. eauto.
  - destruct coll as [c|].
    + destruct (sub c COLL) eqn:Sc; cbn [negb].
      * destruct of as [o|].
        -- split.
           ++ intros (d & H & <-). unfold bind in H. destruct (generic o c) as [g|] eqn:G; [|discriminate].
              injection H as <-. cbn [d_type]. eauto 6.
           ++ intros (k & x & E1 & E2 & _ & G). injection E1 as <-. injection E2 as <-.
              rewrite G. cbn. eauto.
        -- split; [intros (d & H & _); discriminate|]. intros (k & x & _ & E & _). discriminate.
      * split; [intros (d & H & _); discriminate|].
        intros (k & x & E1 & _ & E & _). injection E1 as <-. congruence.
    + split; [intros (d & H & _); discriminate|]. intros (k & x & E & _). discriminate.
Qed.

(** A ListProperty (DictProperty) is accepted exactly if the item type is given once, the
    container derives from ListCollection (DictCollection), and the rest fits. *)
Theorem C54_declared base list_of of coll isa t :
  (exists d, keyed_init base list_of of coll isa = Ok d /\ d_type d = t) <->
  exists o c,
    ((list_of = Some o /\ of = None) \/ (list_of = None /\ of = Some o)) /\
    (coll = Some (Some c) \/ coll = None /\ c = base) /\ sub c base = true /\
    fits (Some o) (Some c) isa t.
Proof.
  unfold CollPropModel.keyed_init. split.
  - intros (d & H & Ht).
    destruct (match list_of with None => of | Some _ => list_of end) as [o|] eqn:Eo; [|discriminate].
    destruct (match coll with None => Some base | Some c => c end) as [c|] eqn:Ec; [|discriminate].
    destruct (sub c base) eqn:Sb; cbn [negb] in H; [|discriminate].
    exists o, c.
    assert (X : ((list_of = Some o /\ of = None) \/ (list_of = None /\ of = Some o)) /\
                coll_init (Some o) (Some c) isa = Ok d).
    { destruct list_of as [x|], of as [y|]; try discriminate; auto. }
    destruct X as [X1 X2]. split; [exact X1|]. split.
    { destruct coll as [[c'|]|]; try discriminate; injection Ec as <-; auto. }
    split; [exact Sb|]. apply C54_collection_declared. eauto.
  - intros (o & c & X & Y & Sb & F). apply C54_collection_declared in F as (d & F & Ft).
    exists d. split; auto.
    assert (Ec : match coll with None => Some base | Some c => c end = Some c).
    { destruct Y as [->|[-> ->]]; reflexivity. }
    destruct X as [[-> ->]|[-> ->]]; rewrite Ec, Sb; exact F.
Qed.

(** The attribute then takes collections of a class derived from the container class, with
    an item type that takes what was asked for, exactly that if no concrete type was given. *)
Theorem C54_declared_type base list_of of coll isa d o :
  class_laws -> keyed_init base list_of of coll isa = Ok d ->
  list_of = Some o \/ (list_of = None /\ of = Some o) ->
  sub (d_type d) base = true /\
  exists it, itemtype (d_type d) = Some it /\ sub o it = true /\ (isa = None -> it = o).
Proof.
  intros (Refl & Trans & _ & _ & Gen) H Ho.
  destruct (proj1 (C54_declared base list_of of coll isa (d_type d))) as (o' & c & X & Y & Sb & F); eauto.
  assert (o' = o).
  { destruct X as [[A B]|[A B]], Ho as [C|[C D]]; congruence. }
  subst o'. unfold fits in F. destruct isa as [i|].
  - destruct F as (Et & Hc & it & It & Hi). rewrite Et. split; [eapply Trans; eauto|].
    exists it. split; [auto|]. split; [auto|]. discriminate.
  - destruct F as (k & x & E1 & E2 & _ & G). injection E1 as <-. injection E2 as <-.
    apply Gen in G as [G1 G2]. split; [eapply Trans; eauto|]. exists o. auto.
Qed.
End Decl.

(** ** What the attributes hold *)
Section Values.
Context {A K W : Type}.
Variable sub : nat -> nat -> bool.
Variable COLL LIST DICT : nat.
Variable itemtype : nat -> option nat.
Variable atom_class : A -> nat.
Notation cval := (@cval A).
Variable asource : A -> @source cval K.
Variable vkey : K -> cval.
Variable coerceitem : nat -> cval -> W -> res cval * W.
Variable sort_keys : list K -> list K.
Variable keqb : K -> K -> bool.
Variable key_of_nat : nat -> K.
Variable as_pair : cval -> option (K * cval).
Variable eqv : cval -> cval -> bool.
Variable iter_of : cval -> @iterable cval.
Variable fmt_fails : cval -> bool.
Variable sorter : list cval -> list cval * option exn.
Variable check : nat -> option (cval -> bool).
Variable attrs : nat -> option decl.
Notation state := (@state A K W).
Notation isinst := (isinst sub atom_class).
Notation isitem := (isitem sub itemtype atom_class).
Notation construct := (construct sub LIST DICT itemtype atom_class asource vkey coerceitem sort_keys keqb
  key_of_nat as_pair).
Notation type_safe := (type_safe sub LIST DICT itemtype atom_class asource vkey coerceitem sort_keys keqb
  key_of_nat as_pair check).
Notation safe_set := (safe_set sub LIST DICT itemtype atom_class asource vkey coerceitem sort_keys keqb
  key_of_nat as_pair check).
Notation coll_set := (coll_set sub LIST DICT itemtype atom_class asource vkey coerceitem sort_keys keqb
  key_of_nat as_pair check).
Notation exec := (exec sub LIST DICT itemtype atom_class asource vkey coerceitem sort_keys keqb
  key_of_nat as_pair eqv iter_of fmt_fails sorter check attrs).
Notation run := (run sub LIST DICT itemtype atom_class asource vkey coerceitem sort_keys keqb
  key_of_nat as_pair eqv iter_of fmt_fails sorter check attrs).
Notation possible := (possible sub LIST DICT itemtype atom_class asource vkey coerceitem sort_keys keqb
  key_of_nat as_pair eqv iter_of fmt_fails sorter check attrs).

Lemma type_safe_ok n d v st x st' : type_safe n d v st = (Ok x, st') ->
  isinst x (d_type d) = true /\
  (match check n with Some f => f x | None => true end) = true.
Proof.
  unfold CollPropModel.type_safe.
  assert (J : forall y, (match check n with Some f => if f y then Ok y else Err ValueCheckErr | None => Ok y end) = Ok x ->
    y = x /\ (match check n with Some f => f x | None => true end) = true).
  { intros y. destruct (check n) as [f|].
    - destruct (f y) eqn:E; [|discriminate]. intros H. injection H as <-. auto.
    - intros H. injection H as <-. auto. }
  destruct (isinst v (d_type d)) eqn:I.
  - intros H. injection H as H1 H2. apply J in H1 as [<- H1]. auto.
  - destruct (construct (d_type d) v st) as [[y|e] s1]; [|discriminate].
    destruct (isinst y (d_type d)) eqn:I2; [|discriminate].
    intros H. injection H as H1 H2. apply J in H1 as [<- H1]. auto.
Qed.

(** The conversion that SafeCollectionProperty does before SafeProperty does it again changes
    nothing: same outcome, same objects, same effects. *)
Theorem C54_converted_once o n d v st : coll_set o n d v st = safe_set o n d v st.
Proof.
  unfold CollPropModel.coll_set, CollPropModel.safe_set at 2.
  destruct (type_safe n d v st) as [[x|e] st'] eqn:E; auto.
  apply type_safe_ok in E as [I C].
  unfold CollPropModel.safe_set, CollPropModel.type_safe. rewrite I.
  destruct (check n) as [f|]; [now rewrite C|reflexivity].
Qed.

(** A collection of the right class is stored itself, not a copy. *)
Theorem C54_same_object o n d v st : isinst v (d_type d) = true -> check n = None ->
  coll_set o n d v st = (Ok tt, store o n v st).
Proof.
  intros I C. rewrite C54_converted_once. unfold CollPropModel.safe_set, CollPropModel.type_safe.
  now rewrite I, C.
Qed.

(** Anything else is copied into a collection that nothing else refers to yet; no existing
    collection changes. *)
Theorem C54_fresh o n d v st st' : isinst v (d_type d) = false ->
  coll_set o n d v st = (Ok tt, st') ->
  exists x, slots st' o n = Some (VRef (d_type d) (length (heap st))) /\
    heap st' = heap st ++ [(d_type d, x)] /\
    (forall o' n', (o', n') <> (o, n) -> slots st' o' n' = slots st o' n').
Proof.
  intros I. rewrite C54_converted_once. unfold CollPropModel.safe_set.
  destruct (type_safe n d v st) as [[x|e] s1] eqn:E; [|discriminate]. intros H. injection H as <-.
  unfold CollPropModel.type_safe in E. rewrite I in E.
  destruct (construct (d_type d) v st) as [[y|e] s2] eqn:Cn; [|discriminate].
  assert (Y : exists z, y = VRef (d_type d) (length (heap st)) /\ heap s2 = heap st ++ [(d_type d, z)]
              /\ slots s2 = slots st).
  { unfold CollPropModel.construct in Cn. destruct (sub (d_type d) LIST).
    - destruct (list_new _ _ _ _ _ _) as [[l|] w]; [|discriminate]. injection Cn as <- <-.
      exists (CList l). auto.
    - destruct (sub (d_type d) DICT); [|discriminate].
      destruct (dict_new _ _ _ _ _ _ _) as [[l|] w]; [|discriminate]. injection Cn as <- <-.
      exists (CDict l). auto. }
  destruct Y as (z & -> & Hh & Hs). exists z.
  assert (X : x = VRef (d_type d) (length (heap st)) /\ s1 = s2).
  { destruct (isinst (VRef (d_type d) (length (heap st))) (d_type d)); [|discriminate].
    destruct (check n) as [f|].
    - destruct (f _); [|discriminate]. injection E as <- <-. auto.
    - injection E as <- <-. auto. }
  destruct X as [-> ->]. cbn [store slots heap]. rewrite !Nat.eqb_refl. cbn [andb].
  split; [reflexivity|]. split; [auto|].
  intros o' n' Ne. rewrite Hs.
  destruct (Nat.eqb_spec o o') as [->|]; [|reflexivity].
  destruct (Nat.eqb_spec n n') as [->|]; [congruence|reflexivity].
Qed.

(** *** The invariant *)
Hypothesis refl : forall c, sub c c = true.
Hypothesis trans : forall a b c, sub a b = true -> sub b c = true -> sub a c = true.
(** plain values are no collections *)
Hypothesis atoms : forall a, sub (atom_class a) COLL = false.
Hypothesis keq : forall a b, keqb a b = true <-> a = b.
(** what a coercion of items returns is of the item type; sorting permutes *)
Hypothesis good : forall c, good_coercion (isitem c) (coerceitem c).
Hypothesis perm : sorter_permutes sorter.
(** the attributes are declared with collection classes *)
Hypothesis declared : forall n d, attrs n = Some d -> sub (d_type d) COLL = true.

Definition content_ok (c : nat) (x : @content A K) : Prop :=
  match x with
  | CList l => typed (isitem c) l
  | CDict d => dtyped (isitem c) d
  end.
Definition inv (st : state) : Prop :=
  (forall r c x, nth_error (heap st) r = Some (c, x) -> content_ok c x) /\
  (forall o n d v, attrs n = Some d -> slots st o n = Some v ->
     exists c r x, v = VRef c r /\ nth_error (heap st) r = Some (c, x) /\ sub c (d_type d) = true).

Lemma nth_app_last {B} (l : list B) x r y : nth_error (l ++ [x]) r = Some y ->
  nth_error l r = Some y \/ (r = length l /\ y = x).
Proof.
  intros H. destruct (Nat.lt_ge_cases r (length l)) as [L|L].
  - rewrite nth_error_app1 in H by auto. auto.
  - rewrite nth_error_app2 in H by auto. destruct (r - length l) as [|k] eqn:E.
    + injection H as <-. right. split; [lia|auto].
    + destruct k; discriminate.
Qed.

Lemma dict_new_typed c src w d w' :
  dict_new (isitem c) (coerceitem c) keqb key_of_nat as_pair src w = (Ok d, w') -> dtyped (isitem c) d.
Proof.
  intros H. pose proof (C21_dict_values_typed _ _ _ keq _ _ src w d w' [] [] d w' (good c) H eq_refl) as [_ T].
  intros x Hx. apply in_map_iff in Hx as ((k & y) & <- & Hy). eapply T; eauto.
Qed.
Lemma list_new_typed c src w l w' :
  list_new (isitem c) (coerceitem c) sort_keys keqb src w = (Ok l, w') -> typed (isitem c) l.
Proof.
  intros H. exact (C21_list_items_typed _ _ _ _ eqv iter_of fmt_fails sorter src w l w' [] [] l w' (good c) perm H eq_refl).
Qed.

Lemma construct_inv c v st r st' : inv st -> construct c v st = (r, st') ->
  inv st' /\ (exists more, heap st' = heap st ++ more) /\ slots st' = slots st /\
  (forall x, r = Ok x -> exists q z, x = VRef c q /\ nth_error (heap st') q = Some (c, z)).
Proof.
  intros [I1 I2] H. unfold CollPropModel.construct in H.
  assert (Alloc : forall x w, content_ok c x ->
    let st1 := mkSt (heap st ++ [(c, x)]) (slots st) w in
    inv st1 /\ (exists more, heap st1 = heap st ++ more) /\ slots st1 = slots st /\
    (forall y : cval, Ok (VRef c (length (heap st))) = Ok y -> exists q z, y = VRef c q /\ nth_error (heap st1) q = Some (c, z))).
  { intros x w Cx. cbn. split; [split|].
    - cbn [heap]. intros q c' x' Hq. apply nth_app_last in Hq as [Hq|[_ Hq]]; [eauto|].
      injection Hq as -> ->. auto.
    - cbn [heap slots]. intros o n d v' Hn Hs. destruct (I2 o n d v' Hn Hs) as (c' & q & x' & -> & Hq & Sc).
      exists c', q, x'. split; auto. split; auto. rewrite nth_error_app1; auto.
      apply nth_error_Some. congruence.
    - split; [eauto|]. split; auto. intros y Hy. injection Hy as <-.
      exists (length (heap st)), x. split; auto. rewrite nth_error_app2 by auto.
      rewrite Nat.sub_diag. reflexivity. }
  assert (Fail : forall w e, let st1 := mkSt (heap st) (slots st) w in
    inv st1 /\ (exists more, heap st1 = heap st ++ more) /\ slots st1 = slots st /\
    (forall y : cval, Err e = Ok y -> exists q z, y = VRef c q /\ nth_error (heap st1) q = Some (c, z))).
  { intros w e. cbn. split; [split; auto|]. split; [exists []; now rewrite app_nil_r|].
    split; auto. discriminate. }
  destruct (sub c LIST).
  - destruct (list_new _ _ _ _ _ _) as [[l|e] w] eqn:E; injection H as <- <-.
    + apply (Alloc (CList l)). eapply list_new_typed; eauto.
    + apply Fail.
  - destruct (sub c DICT).
    + destruct (dict_new _ _ _ _ _ _ _) as [[l|e] w] eqn:E; injection H as <- <-.
      * apply (Alloc (CDict l)). eapply dict_new_typed; eauto.
      * apply Fail.
    + injection H as <- <-. destruct st as [h s w]. apply (Fail w CollDefErr).
Qed.

Lemma set_nth_length {B} i (x : B) l : length (set_nth i x l) = length l.
Proof. revert i; induction l as [|y t IH]; intros [|i]; cbn; auto. Qed.
Lemma set_nth_same {B} i (x : B) l : i < length l -> nth_error (set_nth i x l) i = Some x.
Proof. revert i; induction l as [|y t IH]; intros [|i] H; cbn in *; try lia; auto. apply IH. lia. Qed.
Lemma set_nth_other {B} i j (x : B) l : i <> j -> nth_error (set_nth i x l) j = nth_error l j.
Proof.
  revert i j; induction l as [|y t IH]; intros [|i] [|j] H; cbn; auto; try congruence.
Qed.

Lemma update_inv st r c x x' w : inv st -> nth_error (heap st) r = Some (c, x) -> content_ok c x' ->
  inv (mkSt (set_nth r (c, x') (heap st)) (slots st) w).
Proof.
  intros [I1 I2] Hr C.
  assert (L : r < length (heap st)) by (apply nth_error_Some; congruence).
  split; cbn [heap slots].
  - intros q c' y Hq. destruct (Nat.eq_dec r q) as [<-|Ne].
    + rewrite set_nth_same in Hq by auto. injection Hq as <- <-. auto.
    + rewrite set_nth_other in Hq by auto. eauto.
  - intros o n d v Hn Hs. destruct (I2 o n d v Hn Hs) as (c' & q & y & -> & Hq & Sc).
    destruct (Nat.eq_dec r q) as [<-|Ne].
    + rewrite Hr in Hq. injection Hq as <- <-. exists c, r, x'. rewrite set_nth_same by auto. auto.
    + exists c', q, y. rewrite set_nth_other by auto. auto.
Qed.

Lemma store_inv st o n v : inv st ->
  (forall d, attrs n = Some d -> exists c r x, v = VRef c r /\ nth_error (heap st) r = Some (c, x) /\ sub c (d_type d) = true) ->
  inv (store o n v st).
Proof.
  intros [I1 I2] Hv. split; cbn [store heap slots]; auto.
  intros o' n' d v' Hn. destruct (Nat.eqb_spec o o') as [->|]; cbn [andb]; [|now apply I2].
  destruct (Nat.eqb_spec n n') as [->|]; [|now apply I2].
  intros Hs. injection Hs as <-. auto.
Qed.

Lemma exec_inv p st : inv st -> match p with OAssign _ _ v => live st v | _ => True end ->
  inv (exec p st).
Proof.
  intros I L. destruct p as [c v|o n v|r m|r m]; cbn [CollPropModel.exec].
  - destruct (construct c v st) as [x st'] eqn:E. cbn [snd].
    now apply (construct_inv c v st x st' I).
  - destruct (attrs n) as [d|] eqn:Hn.
    + rewrite C54_converted_once. unfold CollPropModel.safe_set.
      destruct (type_safe n d v st) as [[x|e] st'] eqn:E.
      * pose proof (type_safe_ok _ _ _ _ _ _ E) as [Ix _]. cbn [snd].
        unfold CollPropModel.type_safe in E. destruct (isinst v (d_type d)) eqn:Iv.
        -- assert (x = v /\ st' = st) as [-> ->].
           { destruct (check n) as [f|]; [destruct (f v); [|discriminate]|]; injection E as <- <-; auto. }
           apply store_inv; auto. intros d' Hd. rewrite Hn in Hd. injection Hd as <-.
           destruct v as [a|c r].
           ++ exfalso. unfold CollPropModel.isinst in Iv. cbn [class_of] in Iv.
              pose proof (trans _ _ _ Iv (declared _ _ Hn)). rewrite atoms in H. discriminate.
           ++ cbn [live] in L. destruct L as [z Hz]. exists c, r, z. auto.
        -- destruct (construct (d_type d) v st) as [[y|e] s2] eqn:Cn; [|discriminate].
           destruct (construct_inv _ _ _ _ _ I Cn) as (I' & _ & _ & R).
           assert (x = y /\ st' = s2) as [-> ->].
           { destruct (isinst y (d_type d)); [|discriminate].
             destruct (check n) as [f|]; [destruct (f y); [|discriminate]|]; injection E as <- <-; auto. }
           destruct (R y eq_refl) as (q & z & -> & Hq).
           apply store_inv; auto. intros d' Hd. rewrite Hn in Hd. injection Hd as <-.
           exists (d_type d), q, z. auto.
      * cbn [snd]. unfold CollPropModel.type_safe in E. destruct (isinst v (d_type d)).
        -- injection E as _ <-. auto.
        -- destruct (construct (d_type d) v st) as [[y|e'] s2] eqn:Cn; injection E as _ <-;
             now apply (construct_inv _ _ _ _ _ I) in Cn.
    + apply store_inv; auto. intros d Hd. congruence.
  - destruct (nth_error (heap st) r) as [[c [l|d]]|] eqn:Hr; auto.
    destruct (list_exec _ _ _ _ _ _ m (l, world st)) as [o [l' w']] eqn:E.
    eapply update_inv; eauto. destruct I as [I1 _]. apply I1 in Hr.
    eapply list_exec_typed; eauto.
  - destruct (nth_error (heap st) r) as [[c [l|d]]|] eqn:Hr; auto.
    destruct (dict_exec _ _ _ m (d, world st)) as [o [d' w']] eqn:E.
    eapply update_inv; eauto. destruct I as [I1 _]. apply I1 in Hr.
    eapply dict_exec_typed; eauto.
Qed.

(** Whatever is done to records and collections, in whatever order and through whatever
    reference, an attribute declared as a collection holds a collection of a class derived from the
    declared one, and every item in it is of the item type of its class; hence of the declared item type,
    unless a derived class replaces that. *)
Theorem C54_holds ps h0 w0 o n d v :
  possible ps (mkSt h0 (fun _ _ => None) w0) ->
  (forall r c x, nth_error h0 r = Some (c, x) -> content_ok c x) ->
  attrs n = Some d ->
  slots (run ps (mkSt h0 (fun _ _ => None) w0)) o n = Some v ->
  exists c r x, v = VRef c r /\ sub c (d_type d) = true /\
    nth_error (heap (run ps (mkSt h0 (fun _ _ => None) w0))) r = Some (c, x) /\
    forall i, (match x with CList l => In i l | CDict kv => In i (map snd kv) end) ->
      isitem c i = true /\
      forall it it', itemtype (d_type d) = Some it -> itemtype c = Some it' ->
        sub it' it = true -> isinst i it = true.
Proof.
  intros P H0 Hn Hs.
  assert (I0 : inv (mkSt h0 (fun _ _ => None) w0)).
  { split; [exact H0|]. cbn. discriminate. }
  assert (R : forall ps st, inv st -> possible ps st -> inv (run ps st)).
  { clear ps P Hs. induction ps as [|p t IH]; intros st I Pp; cbn [CollPropModel.run]; auto.
    cbn [CollPropModel.possible] in Pp. destruct Pp. apply IH; auto. now apply exec_inv. }
  destruct (R ps _ I0 P) as [I1 I2].
  destruct (I2 o n d v Hn Hs) as (c & r & x & -> & Hr & Sc).
  exists c, r, x. split; auto. split; auto. split; auto.
  intros i Hi. apply I1 in Hr.
  assert (T : isitem c i = true) by (destruct x; apply Hr; exact Hi).
  split; auto. intros it it' E1 E2 S. unfold CollPropModel.isitem in T. rewrite E2 in T.
  eapply trans; eauto.
Qed.
End Values.

(** ** Examples and refutations *)
Module Ex.
(** 0 object, 1 Collection, 2 ListCollection, 3 DictCollection, 4 A, 5 B(A), 6 AList, 7 BList, 8 AMap,
    9 BMap, 10 Other, 11 OddList(AList) with itemtype Other *)
Definition parents (c : nat) : list nat :=
  match c with
  | 0 => [0] | 1 => [1; 0] | 2 => [2; 1; 0] | 3 => [3; 1; 0] | 4 => [4; 0] | 5 => [5; 4; 0]
  | 6 => [6; 2; 1; 0] | 7 => [7; 2; 1; 0] | 8 => [8; 3; 1; 0] | 9 => [9; 3; 1; 0] | 10 => [10; 0]
  | 11 => [11; 6; 2; 1; 0]
  | c => [c; 0]
  end.
Definition sub (a b : nat) : bool := existsb (Nat.eqb b) (parents a).
Definition itemtype (c : nat) : option nat :=
  match c with 6 => Some 4 | 7 => Some 5 | 8 => Some 4 | 9 => Some 5 | 11 => Some 10 | _ => None end.
Definition generic (o c : nat) : res nat :=
  match o, c with
  | 4, 2 => Ok 6 | 5, 2 => Ok 7 | 4, 3 => Ok 8 | 5, 3 => Ok 9 | _, _ => Err AttrErr
  end.

Lemma sub_cases a b : sub a b = true -> a < 12 \/ (b = a \/ b = 0).
Proof.
  intros H. destruct (Nat.lt_ge_cases a 12) as [|L]; auto. right.
  do 12 (destruct a as [|a]; [lia|]). unfold sub in H. cbn [parents existsb] in H.
  rewrite orb_false_r in H. apply orb_true_iff in H as [H|H]; apply Nat.eqb_eq in H; auto.
Qed.
Lemma laws : class_laws sub 1 2 3 itemtype generic.
Proof.
  split; [|split; [|split; [reflexivity|split; [reflexivity|]]]].
  - intros c. unfold sub. do 12 (destruct c as [|c]; [reflexivity|]).
    cbn [parents existsb]. now rewrite Nat.eqb_refl.
  - intros a b c H1 H2. pose proof (sub_cases _ _ H1) as [L|[->| ->]]; auto.
    + unfold sub in H1. apply existsb_exists in H1 as (x & Hx & E). apply Nat.eqb_eq in E. subst x.
      unfold sub in H2. apply existsb_exists in H2 as (y & Hy & E). apply Nat.eqb_eq in E. subst y.
      unfold sub. apply existsb_exists. exists c. split; [|apply Nat.eqb_refl].
      do 12 (destruct a as [|a]; [cbn [parents In] in Hx;
        repeat (destruct Hx as [<-|Hx]; [cbn [parents In] in *; tauto|]); contradiction|]). lia.
    + unfold sub in H2. cbn [parents existsb] in H2. rewrite orb_false_r in H2.
      apply Nat.eqb_eq in H2. subst c. unfold sub.
      do 12 (destruct a as [|a]; [reflexivity|]). cbn [parents existsb]. now rewrite orb_true_r.
  - intros o c g. unfold generic.
    destruct o as [|[|[|[|[|[|o]]]]]]; try discriminate;
      destruct c as [|[|[|[|c]]]]; try discriminate; intros H; injection H as <-; auto.
Qed.

(** atoms: (class, number); a list of atoms may be given as [inr] *)
Definition atom : Type := (nat * nat) + list (nat * nat).
Definition aclass (a : atom) : nat := match a with inl (c, _) => c | inr _ => 0 end.
Definition asource (a : atom) : @source (@cval atom) nat :=
  match a with inl _ => SOther | inr l => SSequence (map (fun x => VAtom (inl x)) l) end.
Definition vkey (k : nat) : @cval atom := VAtom (inl (0, k)).
(** items are converted to the item type if they are plain atoms *)
Definition coerceitem (c : nat) (v : @cval atom) (w : unit) : res (@cval atom) * unit :=
  match itemtype c, v with
  | Some t, VAtom (inl (10, k)) => (Ok (VAtom (inl (t, k))), w)
  | _, _ => (Err TypeErr, w)
  end.
Definition attrs (n : nat) : option decl :=
  match n with
  | 0 => match list_init sub 1 2 itemtype generic (Some 4) None None None with Ok d => Some d | _ => None end
  | 1 => match dict_init sub 1 3 itemtype generic (Some 4) None None None with Ok d => Some d | _ => None end
  | 2 => match list_init sub 1 2 itemtype generic None (Some 5) None (Some 6) with Ok d => Some d | _ => None end
  | _ => None
  end.
Definition run := run sub 2 3 itemtype aclass asource vkey coerceitem (fun l => l) Nat.eqb (fun n => n)
  (fun _ => None) (fun _ _ => false) (fun _ => NotIter) (fun _ => false) (fun l => (l, None)) (fun _ => None) attrs.
Definition possible := possible sub 2 3 itemtype aclass asource vkey coerceitem (fun l => l) Nat.eqb (fun n => n)
  (fun _ => None) (fun _ _ => false) (fun _ => NotIter) (fun _ => false) (fun l => (l, None)) (fun _ => None) attrs.
Definition empty : @state atom nat unit := mkSt [] (fun _ _ => None) tt.

Definition a1 : @cval atom := VAtom (inl (4, 1)).
Definition b2 : @cval atom := VAtom (inl (5, 2)).
Definition x3 : @cval atom := VAtom (inl (10, 3)).
End Ex.

(** r.items = [A(1), B(2), Other(3)]; s.items = r.items; s.items.append(Other(9)) changes both *)
Example C54_ex :
  let ps := [OAssign 0 0 (VAtom (inr [(4, 1); (5, 2); (10, 3)])); OAssign 1 0 (VRef 6 0);
             OList 0 (LAppend (VAtom (inl (10, 9)))); OList 0 (LAppend (VRef 6 0))] in
  Ex.possible ps Ex.empty /\
  slots (Ex.run ps Ex.empty) 0 0 = Some (VRef 6 0) /\
  slots (Ex.run ps Ex.empty) 1 0 = Some (VRef 6 0) /\
  heap (Ex.run ps Ex.empty)
  = [(6, CList [Ex.a1; Ex.b2; VAtom (inl (4, 3)); VAtom (inl (4, 9))])].
Proof. vm_compute. repeat split; eauto. Qed.

Example C54_ex_laws : class_laws Ex.sub 1 2 3 Ex.itemtype Ex.generic.
Proof. exact Ex.laws. Qed.
Example C54_ex_hypotheses : (forall c, good_coercion (isitem Ex.sub Ex.itemtype Ex.aclass c) (Ex.coerceitem c))
  /\ Ex.attrs 0 = Some (mkDecl 6 None None) /\ Ex.attrs 1 = Some (mkDecl 8 None None)
  /\ Ex.attrs 2 = Some (mkDecl 6 (Some 4) (Some 6)).
Proof.
  split; [|split; [|split]]; try reflexivity.
  intros c v w v' w' H. unfold Ex.coerceitem in H. unfold isitem, isinst.
  destruct (Ex.itemtype c) as [t|]; [|discriminate].
  destruct v as [[[k j]|l]|c' r]; try discriminate.
  do 10 (destruct k as [|k]; [discriminate|]). destruct k as [|k]; [|discriminate].
  injection H as <- _. cbn. apply (proj1 Ex.laws).
Qed.
(** declarations that are refused *)
Example C54_ex_refused :
  list_init Ex.sub 1 2 Ex.itemtype Ex.generic None None None None = Err OfWhat /\
  list_init Ex.sub 1 2 Ex.itemtype Ex.generic (Some 4) None (Some (Some 3)) None = Err MustDerive /\
  list_init Ex.sub 1 2 Ex.itemtype Ex.generic (Some 10) None None (Some 6) = Err CollTypeMismatch /\
  list_init Ex.sub 1 2 Ex.itemtype Ex.generic (Some 4) None None (Some 8) = Err CollTypeMismatch /\
  list_init Ex.sub 1 2 Ex.itemtype Ex.generic (Some 4) (Some 4) None None = Err TypeErr /\
  coll_init Ex.sub 1 Ex.itemtype Ex.generic None None None = Err CollRequired.
Proof. repeat split. Qed.

(** It is not true that a ListProperty can be declared by its concrete type alone, although a
    CollectionProperty can. *)
Theorem C54_isa_alone_refuted sub COLL LIST itemtype generic i :
  list_init sub COLL LIST itemtype generic None None None (Some i) = Err OfWhat /\
  (forall t, itemtype i = Some t ->
     coll_init sub COLL itemtype generic None None (Some i) = Ok (mkDecl i (Some t) (Some i))).
Proof. split; [reflexivity|]. intros t E. cbn. now rewrite E. Qed.

(** It is not true that the item type asked for is the one enforced: with a concrete type of wider
    items [of=] is only compared. Here of=B, isa=AList takes an A. *)
Theorem C54_narrower_of_refuted :
  list_init Ex.sub 1 2 Ex.itemtype Ex.generic None (Some 5) None (Some 6) = Ok (mkDecl 6 (Some 4) (Some 6)) /\
  let st := Ex.run [OAssign 0 2 (VAtom (inr [(4, 1)]))] Ex.empty in
  slots st 0 2 = Some (VRef 6 0) /\ heap st = [(6, CList [Ex.a1])] /\
  isinst Ex.sub Ex.aclass Ex.a1 5 = false.
Proof. vm_compute. repeat split. Qed.

(** It is not true that every item is of the declared item type: a derived collection class may
    replace it. *)
Theorem C54_replaced_itemtype_refuted :
  let st := Ex.run [ONew 11 (VAtom (inr [(10, 3)])); OAssign 0 0 (VRef 11 0)] Ex.empty in
  Ex.attrs 0 = Some (mkDecl 6 None None) /\ Ex.itemtype 6 = Some 4 /\
  slots st 0 0 = Some (VRef 11 0) /\ heap st = [(11, CList [Ex.x3])] /\
  isinst Ex.sub Ex.aclass Ex.x3 4 = false.
Proof. vm_compute. repeat split. Qed.

(** It is not true that a typed dict assigned to an attribute keeps its items: if it is of another
    class it is replaced by an empty one, and a list attribute takes its keys. *)
Theorem C54_typed_dict_lost_refuted A K W sub COLL LIST DICT itemtype atom_class asource vkey coerceitem
  sort_keys keqb key_of_nat as_pair check o n d c r kv (st : @state A K W) :
  class_laws sub COLL LIST DICT itemtype (fun _ _ => Err AttrErr) ->
  check n = None ->
  nth_error (heap st) r = Some (c, CDict kv) ->
  sub (d_type d) LIST = false -> sub (d_type d) DICT = true -> sub c (d_type d) = false ->
  exists st', coll_set sub LIST DICT itemtype atom_class asource vkey coerceitem sort_keys keqb key_of_nat
    as_pair check o n d (VRef c r) st = (Ok tt, st') /\
    slots st' o n = Some (VRef (d_type d) (length (heap st))) /\
    nth_error (heap st') (length (heap st)) = Some (d_type d, CDict []).
Proof.
  intros (Refl & _) Ck Hr Nl Dd Nc. eexists. rewrite C54_converted_once.
  unfold safe_set, type_safe, isinst. cbn [class_of]. rewrite Nc.
  unfold construct, source_of. rewrite Nl, Dd, Hr. cbn [dict_new dict_source coerce_pairs fold_left].
  cbn [class_of]. rewrite Refl, Ck. split; [reflexivity|]. cbn [slots store heap].
  rewrite !Nat.eqb_refl. split; [reflexivity|].
  rewrite nth_error_app2 by auto. rewrite Nat.sub_diag. reflexivity.
Qed.

(** a BMap given to an attribute for AMaps, though every B is an A *)
Example C54_ex_lost :
  let st := mkSt [(9, CDict [(1, Ex.b2)])] (fun _ _ => None) tt in
  heap (Ex.run [OAssign 0 1 (VRef 9 0)] st) = [(9, CDict [(1, Ex.b2)]); (8, CDict [])] /\
  heap (Ex.run [OAssign 0 0 (VAtom (inr [(4, 1)])); OAssign 0 0 (VRef 9 0)] st)
  = [(9, CDict [(1, Ex.b2)]); (6, CList [Ex.a1])] (* its key 1 is no A *).
Proof. vm_compute. repeat split. Qed.

(** None is taken as no items. *)
Theorem C54_falsy_is_empty A K W sub COLL LIST DICT itemtype atom_class asource vkey coerceitem
  sort_keys keqb key_of_nat as_pair check o n d a (st : @state A K W) :
  class_laws sub COLL LIST DICT itemtype (fun _ _ => Err AttrErr) ->
  check n = None -> asource a = SFalsy -> sub (atom_class a) (d_type d) = false ->
  sub (d_type d) LIST = true ->
  exists st', coll_set sub LIST DICT itemtype atom_class asource vkey coerceitem sort_keys keqb key_of_nat
    as_pair check o n d (VAtom a) st = (Ok tt, st') /\
    slots st' o n = Some (VRef (d_type d) (length (heap st))) /\
    nth_error (heap st') (length (heap st)) = Some (d_type d, CList []).
Proof.
  intros (Refl & _) Ck Ha Nc Dl. eexists. rewrite C54_converted_once.
  unfold safe_set, type_safe, isinst. cbn [class_of]. rewrite Nc.
  unfold construct, source_of. rewrite Dl, Ha. cbn [list_new list_source coerce_items].
  cbn [class_of]. rewrite Refl, Ck. split; [reflexivity|]. cbn [slots store heap].
  rewrite !Nat.eqb_refl. split; [reflexivity|].
  rewrite nth_error_app2 by auto. rewrite Nat.sub_diag. reflexivity.
Qed.

Print Assumptions C54_collection_declared.
Print Assumptions C54_declared.
Print Assumptions C54_declared_type.
Print Assumptions C54_converted_once.
Print Assumptions C54_same_object.
Print Assumptions C54_fresh.
Print Assumptions C54_holds.
Print Assumptions C54_isa_alone_refuted.
Print Assumptions C54_narrower_of_refuted.
Print Assumptions C54_replaced_itemtype_refuted.
Print Assumptions C54_typed_dict_lost_refuted.
Print Assumptions C54_falsy_is_empty.
