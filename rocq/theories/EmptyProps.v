(** C36: empty placeholders. *)
From Coq Require Import String List NArith Bool Arith Lia.
From Verif Require Import Prelude PropModel PropProofs EmptyModel EmptyProofs.
Import ListNotations.

Section Props.
Variable class : nat -> cinfo.

(** A state that programs can bring about. *)
Definition reached (s : estate) : Prop := exists os, s = ehist class os empty0.
Lemma reached_inv s : reached s -> inv class s.
Proof. intros [os ->]. apply hist_inv, inv0. Qed.

(** ** Specification
    What the types of an attribute, or of the items, of a class are taken to be: [R c h].
    [collects R cs hs]: the classes [cs] have the hints [hs], in order, those without one
    being passed over. *)
Inductive collects (R : nat -> hint -> Prop) : list nat -> list hint -> Prop :=
| col_nil : collects R [] []
| col_skip c cs hs : (forall h, ~ R c h) -> collects R cs hs -> collects R (c :: cs) hs
| col_take c cs h hs : R c h -> collects R cs hs -> collects R (c :: cs) (h :: hs).

(** the class has the attribute, with a type or without one; or makes up attributes *)
Inductive attr_hint (n : str) (c : nat) : hint -> Prop :=
| ah_typed h : c_attr (class c) n = Some (Some h) -> attr_hint n c h
| ah_untyped : c_attr (class c) n = Some None -> attr_hint n c (One Any)
| ah_dynamic : c_attr (class c) n = None -> c_own (class c) (s2l "__getattr__") = true -> attr_hint n c (One Any).
(** the class is a collection; or has a method for subscription *)
Inductive item_hint (c : nat) : hint -> Prop :=
| ih_coll h : c_item (class c) = Some (Ok h) -> item_hint c h
| ih_other : c_item (class c) = None -> c_own (class c) (s2l "__getitem__") = true -> item_hint c (One Any).

(** [j] is the placeholder for the types of [hs]: each once, in the order in which they
    come up; the universal one if [any] is among them. *)
Definition placeholder_for (s : estate) (j : nat) (hs : list hint) : Prop :=
  exists ts k, first_seen (flat hs) ts /\ denotes ts k /\ stands s j k.

(** ** itertypes *)
Theorem C36_itertypes (l : list hint) (r : list ty) : itertypes l = r <-> first_seen (flat l) r.
Proof.
  unfold itertypes. rewrite it_types_dd. split; [intros <-; apply dd_first_seen|].
  intros h. eapply first_seen_det; [apply dd_first_seen|exact h].
Qed.
Theorem C36_itertypes_once (l : list hint) :
  NoDup (itertypes l) /\ forall t, In t (itertypes l) <-> In t (flat l).
Proof.
  assert (h : first_seen (flat l) (itertypes l)) by (now apply C36_itertypes).
  split; [|apply first_seen_in, h].
  induction h as [|a r x h IH i|a r x h IH i]; auto; [constructor|].
  apply nodup_snoc; auto. now rewrite (first_seen_in _ _ h).
Qed.

(** ** The objects *)

(** One object for each tuple of types: asked for in any state, and again after anything
    else has happened, it is the same; two requests give the same object only if both
    mention [any] or both are the same tuple. *)
Theorem C36_persistent s h os : reached s ->
  let (i, s1) := placeholder h s in
  fst (placeholder h (ehist class os s1)) = i /\ snd (placeholder h (ehist class os s1)) = ehist class os s1.
Proof.
  intros hr. destruct (placeholder h s) as [i s1] eqn:e. apply reached_inv in hr.
  destruct (placeholder_spec class _ _ _ _ hr e) as (hi & _ & st & _). destruct (hist_inv class os s1 hi) as [hi2 ex].
  unfold placeholder. assert (G : kget (key_of h) (vals (ehist class os s1)) = Some i).
  { apply in_kget; [apply (inv_nodup _ _ hi2)|]. apply (inv_vals _ _ hi2), ex, st. }
  rewrite G. auto.
Qed.

Theorem C36_same_object s h1 h2 : reached s ->
  let (i, s1) := placeholder h1 s in
  let (j, s2) := placeholder h2 s1 in
  (i = j <-> (In Any (hint_list h1) /\ In Any (hint_list h2)) \/
             (~ In Any (hint_list h1) /\ hint_list h1 = hint_list h2)).
Proof.
  intros hr. apply reached_inv in hr. destruct (placeholder h1 s) as [i s1] eqn:e1.
  destruct (placeholder_spec class _ _ _ _ hr e1) as (hi1 & _ & st1 & _).
  destruct (placeholder h2 s1) as [j s2] eqn:e2. destruct (placeholder_spec class _ _ _ _ hi1 e2) as (hi2 & ex & st2 & _).
  apply ex in st1. assert (N : forall cs, ~ In Any (map Cls cs)) by (intros cs x; apply in_map_iff in x as [c [y _]]; discriminate).
  pose proof (key_of_denotes h1) as d1. pose proof (key_of_denotes h2) as d2.
  transitivity (key_of h1 = key_of h2).
  - split.
    + intros ->. eapply stands_fun; eauto.
    + intros E. rewrite E in st1. eapply stands_inj; eauto.
  - split.
    + intros E. rewrite <- E in d2. destruct d1 as [[a1 k1]|[cs [a1 k1]]], d2 as [[a2 k2]|[ds [a2 k2]]].
      * auto.
      * congruence.
      * congruence.
      * right. rewrite a1, a2. split; [apply N|]. congruence.
    + intros [[a b]|[a b]].
      * destruct d1 as [[a1 k1]|[cs [a1 k1]]]; [|rewrite a1 in a; destruct (N _ a)].
        destruct d2 as [[a2 k2]|[ds [a2 k2]]]; [congruence|]. rewrite a2 in b. destruct (N _ b).
      * rewrite <- b in d2. eapply denotes_det; eauto.
Qed.

(** What each object stands for never changes. *)
Theorem C36_kept s i k os : reached s -> stands s i k -> stands (ehist class os s) i k.
Proof. intros hr. apply reached_inv in hr. apply (hist_inv class os s hr). Qed.

(** ** Access *)

(** The universal placeholder absorbs everything. *)
Theorem C36_any_absorbs s i : stands s i KAny ->
  (forall n, get_attr class i n s = (EOk i, s)) /\
  (forall ix, get_item class i ix s = (EOk i, s)) /\ call class i s = (EOk i, s).
Proof.
  intros [o [h1 h2]]. unfold get_attr, get_item, call. rewrite h1, h2. auto.
Qed.
Theorem C36_any s h i s' : reached s -> In Any (hint_list h) -> placeholder h s = (i, s') -> stands s' i KAny.
Proof.
  intros hr ha e. apply reached_inv in hr. destruct (placeholder_spec class _ _ _ _ hr e) as (_ & _ & st & _).
  assert (key_of h = KAny) as <-; auto. apply (denotes_det (hint_list h)); [apply key_of_denotes|left; auto].
Qed.

Lemma collects_attrs n cs : collects (attr_hint n) cs (attrs_found class cs n).
Proof.
  induction cs as [|c cs IH]; [constructor|]. unfold attrs_found. cbn [flat_map]. fold (attrs_found class cs n).
  destruct (c_attr (class c) n) as [[h|]|] eqn:e.
  - apply col_take; auto. now constructor.
  - apply col_take; auto. now constructor.
  - destruct (c_own (class c) (s2l "__getattr__")) eqn:eo.
    + apply col_take; auto. now apply ah_dynamic.
    + constructor; auto. intros h x. inversion x; congruence.
Qed.
Lemma collects_items cs : (forall c e, In c cs -> c_item (class c) <> Some (Err e)) ->
  exists hs, coll_types class cs = inr hs /\ collects item_hint cs hs.
Proof.
  induction cs as [|c cs IH]; intros h; cbn [coll_types]; [exists []; split; constructor|].
  destruct IH as [hs [e1 e2]]; [intros d e i; apply h; simpl; auto|]. rewrite e1.
  destruct (c_item (class c)) as [[x|x]|] eqn:e.
  - eexists. split; [reflexivity|]. apply col_take; auto. now constructor.
  - destruct (h c x (or_introl eq_refl) e).
  - destruct (c_own (class c) (s2l "__getitem__")) eqn:eo.
    + eexists. split; [reflexivity|]. apply col_take; auto. now apply ih_other.
    + eexists. split; [reflexivity|]. constructor; auto. intros y z. inversion z; congruence.
Qed.
Lemma collects_det (R : nat -> hint -> Prop) cs h1 : (forall c a b, R c a -> R c b -> a = b) -> collects R cs h1 -> forall h2, collects R cs h2 -> h1 = h2.
Proof.
  intros hR. induction 1 as [|c cs hs n h IH|c cs x hs r h IH]; intros h2 k; inversion k; subst; auto.
  - exfalso. eapply n; eauto.
  - exfalso. match goal with H : forall h, ~ R c h |- _ => eapply H; eauto end.
  - f_equal; eauto.
Qed.
Lemma attr_hint_det n c a b : attr_hint n c a -> attr_hint n c b -> a = b.
Proof. intros [] []; congruence. Qed.
Lemma item_hint_det c a b : item_hint c a -> item_hint c b -> a = b.
Proof. intros [] []; congruence. Qed.

Lemma for_itertypes s j hs : stands s j (key_of (Many (itertypes hs))) -> placeholder_for s j hs.
Proof.
  intros st. exists (itertypes hs), (key_of (Many (itertypes hs))). split; [now apply C36_itertypes|]. split; auto.
  apply (key_of_denotes (Many (itertypes hs))).
Qed.

(** An attribute of the placeholder for some classes: whatever was accessed before, the
    placeholder for the types that the classes declare for the attribute; if none of them
    has it, an error. *)
Theorem C36_attribute s i cs n hs : reached s -> stands s i (KTup cs) -> collects (attr_hint n) cs hs ->
  let (r, s') := get_attr class i n s in
  (hs = [] -> r = EErr ENoSuchAttribute /\ s' = s) /\
  (hs <> [] -> exists j, r = EOk j /\ placeholder_for s' j hs).
Proof.
  intros hr st hc. destruct (get_attr class i n s) as [r s'] eqn:e. apply reached_inv in hr.
  destruct (attrs_step class _ _ _ _ _ hr e) as (_ & _ & k). destruct (k _ st) as [_ k2]. destruct (k2 cs eq_refl) as [k3 k4].
  assert (hs = attrs_found class cs n) as -> by (eapply collects_det; [apply attr_hint_det|exact hc|apply collects_attrs]).
  split; auto. intros ne. destruct (k4 ne) as [j [-> q]]. exists j. split; auto. now apply for_itertypes.
Qed.

(** The same for an item, under any index that is not a slice. *)
Theorem C36_item s i cs x hs : reached s -> stands s i (KTup cs) -> collects item_hint cs hs ->
  (forall c e, In c cs -> c_item (class c) <> Some (Err e)) ->
  let (r, s') := get_item class i (Index x) s in
  (hs = [] -> r = EErr ENotSubscriptable /\ s' = s) /\
  (hs <> [] -> exists j, r = EOk j /\ placeholder_for s' j hs).
Proof.
  intros hr st hc he. destruct (get_item class i (Index x) s) as [r s'] eqn:e. apply reached_inv in hr.
  destruct (item_step class _ _ _ _ _ hr e) as (_ & _ & k). destruct (k _ st) as (_ & _ & k2).
  destruct (k2 cs eq_refl) as (_ & k3 & k4); [discriminate|]. destruct (collects_items cs he) as [hs' [e1 e2]].
  assert (hs' = hs) as -> by (eapply collects_det; [apply item_hint_det|exact e2|exact hc]).
  split; [intros ->; auto|]. intros ne. destruct (k4 _ e1 ne) as [j [-> q]]. exists j. split; auto. now apply for_itertypes.
Qed.

(** Calling gives the universal placeholder, if one of the classes defines [__call__]. *)
Theorem C36_call s i cs : reached s -> stands s i (KTup cs) ->
  let (r, s') := call class i s in
  ((exists c, In c cs /\ c_own (class c) (s2l "__call__") = true) -> exists j, r = EOk j /\ stands s' j KAny) /\
  ((forall c, In c cs -> c_own (class c) (s2l "__call__") = false) -> r = EErr ENotCallable /\ s' = s).
Proof.
  intros hr st. destruct (call class i s) as [r s'] eqn:e. apply reached_inv in hr.
  destruct (call_step class _ _ _ _ hr e) as (_ & _ & k). destruct (k _ st) as [_ k2]. exact (k2 cs eq_refl).
Qed.

(** Repeating an access gives the same object, whatever happened in between. *)
Theorem C36_repeatable s i os : reached s ->
  (forall n j s1, get_attr class i n s = (EOk j, s1) -> fst (get_attr class i n (ehist class os s1)) = EOk j) /\
  (forall ix j s1, get_item class i ix s = (EOk j, s1) -> fst (get_item class i ix (ehist class os s1)) = EOk j).
Proof.
  intros hr. apply reached_inv in hr.
  split.
  - intros n j s1 e. destruct (attrs_step class _ _ _ _ _ hr e) as (hi & ex & k).
    destruct (hist_inv class os s1 hi) as [hi2 ex2]. destruct (get_attr class i n (ehist class os s1)) as [r s2] eqn:e2.
    destruct (attrs_step class _ _ _ _ _ hi2 e2) as (hi3 & ex3 & k').
    assert (st : exists key, stands s i key).
    { unfold get_attr in e. destruct (nth_error (objs s) i) as [o|] eqn:q; [|discriminate]. exists (e_key o), o. auto. }
    destruct st as [key st]. destruct (k _ st) as [k1 k2]. destruct (k' key) as [k1' k2']; [apply ex2, ex, st|]. simpl.
    destruct key as [|l].
    + destruct (k1 eq_refl) as [E _]. destruct (k1' eq_refl) as [-> _]. congruence.
    + destruct (k2 l eq_refl) as [a b]. destruct (k2' l eq_refl) as [a' b'].
      assert (D : attrs_found class l n = [] \/ attrs_found class l n <> []) by (destruct (attrs_found class l n); [left|right]; congruence).
      destruct D as [D|D]; [destruct (a D); discriminate|].
      destruct (b D) as [j1 [E1 q1]]. destruct (b' D) as [j2 [-> q2]]. injection E1 as <-. f_equal.
      eapply stands_inj; [exact hi3|exact q2|]. apply ex3, ex2, q1.
  - intros ix j s1 e. destruct (item_step class _ _ _ _ _ hr e) as (hi & ex & k).
    destruct (hist_inv class os s1 hi) as [hi2 ex2]. destruct (get_item class i ix (ehist class os s1)) as [r s2] eqn:e2.
    destruct (item_step class _ _ _ _ _ hi2 e2) as (hi3 & ex3 & k').
    assert (st : exists key, stands s i key).
    { unfold get_item in e. destruct (nth_error (objs s) i) as [o|] eqn:q; [|discriminate]. exists (e_key o), o. auto. }
    destruct st as [key st]. destruct (k _ st) as (k1 & k0 & k2). destruct (k' key) as (k1' & k0' & k2'); [apply ex2, ex, st|]. simpl.
    destruct ix as [|x].
    { destruct (k0 eq_refl) as [E _]. destruct (k0' eq_refl) as [-> _]. congruence. }
    destruct key as [|l].
    + destruct (k1 eq_refl) as [E _]. destruct (k1' eq_refl) as [-> _]. congruence.
    + destruct (k2 l eq_refl) as (a & b & c); [discriminate|]. destruct (k2' l eq_refl) as (a' & b' & c'); [discriminate|].
      destruct (coll_types class l) as [err|[|f fs]] eqn:D.
      * destruct (a _ eq_refl); discriminate.
      * destruct (b eq_refl); discriminate.
      * destruct (c _ eq_refl) as [j1 [E1 q1]]; [discriminate|]. destruct (c' _ eq_refl) as [j2 [-> q2]]; [discriminate|].
        injection E1 as <-. f_equal. eapply stands_inj; [exact hi3|exact q2|]. apply ex3, ex2, q1.
Qed.

(** Assignment of an attribute or item is refused and changes nothing. *)
Theorem C36_not_writable s i n ix : (exists k, stands s i k) ->
  set_ i (AName n) s = (EErr EBadAssignment, s) /\ set_ i (AItem ix) s = (EErr EBadAssignment, s).
Proof. intros [k [o [q _]]]. unfold set_. rewrite q. auto. Qed.

(** ** The accessor of an attribute *)
Theorem C36_accessor {A W} (C : cls A W) fuel n h (st : state A W) s : reached s ->
  (forall v, slots st n = Some v -> aux_get C (S fuel) n h st s = (Ok (AVal v), st, s)) /\
  (forall v st1, getattr C fuel n st = (Ok v, st1) -> aux_get C fuel n h st s = (Ok (AVal v), st1, s)) /\
  (forall e st1, getattr C fuel n st = (Err e, st1) -> is_attr_err e = true ->
     exists i s1 ts k, aux_get C fuel n h st s = (Ok (AEmpty i), st1, s1) /\
       ts = (match h with Some h => hint_list h | None => [Any] end) /\ denotes ts k /\ stands s1 i k) /\
  (forall e st1, getattr C fuel n st = (Err e, st1) -> is_attr_err e = false -> aux_get C fuel n h st s = (Err e, st1, s)).
Proof.
  intros hr. apply reached_inv in hr. unfold aux_get. repeat split.
  - intros v q. simpl. now rewrite q.
  - intros v st1 ->. reflexivity.
  - intros e st1 -> ha. rewrite ha. destruct (placeholder _ s) as [i s1] eqn:ep.
    destruct (placeholder_spec class _ _ _ _ hr ep) as (_ & _ & q & _). exists i, s1. do 2 eexists. split; [reflexivity|]. split; [reflexivity|].
    split; [|exact q]. destruct h as [h|]; [apply key_of_denotes|exact (key_of_denotes (One Any))].
  - intros e st1 -> ha. now rewrite ha.
Qed.
End Props.

(** ** Examples
    0: a person, with an attribute pets (typed: 1), an untyped one nick, one typed by two
    classes; 1: the list of pets, items of class 2; 2: a pet, owner typed 0; 3: makes up
    attributes and can be called and subscribed; 4: a subclass of 3. *)
Definition ex_class (c : nat) : cinfo :=
  match c with
  | 0 => {| c_attr := fun n => if str_eqb n (s2l "pets") then Some (Some (One (Cls 1)))
                               else if str_eqb n (s2l "nick") then Some None
                               else if str_eqb n (s2l "both") then Some (Some (Many [Cls 2; Cls 0; Cls 2])) else None;
            c_own := fun _ => false; c_mro := [0]; c_item := None |}
  | 1 => {| c_attr := fun _ => None; c_own := fun _ => false; c_mro := [1]; c_item := Some (Ok (One (Cls 2))) |}
  | 2 => {| c_attr := fun n => if str_eqb n (s2l "owner") then Some (Some (One (Cls 0)))
                               else if str_eqb n (s2l "both") then Some (Some (Many [Cls 0; Cls 1])) else None;
            c_own := fun _ => false; c_mro := [2]; c_item := None |}
  | 3 => {| c_attr := fun _ => None; c_own := fun n => existsb (str_eqb n) [s2l "__getattr__"; s2l "__call__"; s2l "__getitem__"];
            c_mro := [3]; c_item := None |}
  | _ => {| c_attr := fun _ => None; c_own := fun _ => false; c_mro := [c; 3]; c_item := None |}
  end.
(** pets, items, owner: back to the first object *)
Definition ex_ops : list eop :=
  [Ask (One (Cls 0)); Attr 0 (s2l "pets"); Item 1 (Index 7); Attr 2 (s2l "owner"); Ask (Many [Cls 2; Cls 0]); Attr 4 (s2l "both");
   Attr 0 (s2l "nick"); Ask (Many [Cls 3])].
Definition ex_state := ehist ex_class ex_ops empty0.
Example ex_reached : reached ex_class ex_state.
Proof. exists ex_ops. reflexivity. Qed.
Example ex_objects : map e_key (objs ex_state) =
  [KTup [0]; KTup [1]; KTup [2]; KTup [2; 0]; KAny; KTup [3]] /\
  fst (get_attr ex_class 2 (s2l "owner") ex_state) = EOk 0.
Proof. vm_compute. auto. Qed.
Example ex_itertypes : itertypes [Many [Cls 0; Cls 1]; One (Cls 2); Many [Cls 2; Cls 0; Any]; One Any] = [Cls 0; Cls 1; Cls 2; Any].
Proof. reflexivity. Qed.
Example ex_stands : stands ex_state 3 (KTup [2; 0]) /\ collects (attr_hint ex_class (s2l "both")) [2; 0] [Many [Cls 0; Cls 1]; Many [Cls 2; Cls 0; Cls 2]].
Proof. split; [eexists; split; reflexivity|]. apply col_take; [now constructor|]. apply col_take; [now constructor|]. constructor. Qed.
Example ex_infer : match get_attr ex_class 3 (s2l "both") ex_state with
  | (EOk j, s) => stands s j (KTup [0; 1; 2])
  | _ => False
  end.
Proof. vm_compute. eexists. split; reflexivity. Qed.
Example ex_item_hyp : stands ex_state 1 (KTup [1]) /\ collects (item_hint ex_class) [1] [One (Cls 2)] /\
  forall c e, In c [1] -> c_item (ex_class c) <> Some (Err e).
Proof.
  split; [eexists; split; reflexivity|]. split; [apply col_take; constructor; reflexivity|]. intros c e [<-|[]]. discriminate.
Qed.
Example ex_errors : fst (get_attr ex_class 1 (s2l "owner") ex_state) = EErr ENoSuchAttribute /\
  fst (get_item ex_class 0 (Index 0) ex_state) = EErr ENotSubscriptable /\ fst (call ex_class 0 ex_state) = EErr ENotCallable /\
  fst (call ex_class 5 ex_state) = EOk 4.
Proof. vm_compute. auto. Qed.
Example ex_any_absorbs : stands ex_state 4 KAny.
Proof. eexists. split; reflexivity. Qed.
(** an attribute that is not set, and one that is *)
Definition ex_rec : cls nat unit := [(s2l "x", mkProp false Safe false None (fun v w => (CRet v, w)) None DNone PNone (fun _ => false))].
Example ex_accessor : aux_get ex_rec 3 (s2l "x") (Some (One (Cls 2))) (empty_state tt) ex_state = (Ok (AEmpty 2), empty_state tt, ex_state) /\
  aux_get ex_rec 3 (s2l "x") (Some (One (Cls 2))) (store (s2l "x") (PV 1) (empty_state tt)) ex_state
    = (Ok (AVal (PV 1)), store (s2l "x") (PV 1) (empty_state tt), ex_state).
Proof. vm_compute. auto. Qed.

(** ** What does not hold *)

(** "Each set of types gets a single object": the order and repetition of types matter. *)
Theorem C36_set_of_types_refuted : exists h1 h2 h3,
  (forall t, In t (hint_list h1) <-> In t (hint_list h2)) /\ (forall t, In t (hint_list h1) <-> In t (hint_list h3)) /\
  let (i, s1) := placeholder h1 empty0 in let (j, s2) := placeholder h2 s1 in let (k, s3) := placeholder h3 s2 in
  i <> j /\ i <> k /\ j <> k.
Proof.
  exists (Many [Cls 0; Cls 1]), (Many [Cls 1; Cls 0]), (Many [Cls 0; Cls 1; Cls 0]). simpl.
  split; [intros t; intuition|]. split; [intros t; intuition|]. vm_compute. repeat split; discriminate.
Qed.

(** An empty collection has items: subscription with any number gives one, so that iterating
    over the placeholder of a collection, which Python does by subscription with 0, 1, 2, ...
    up to an IndexError, never ends. *)
Theorem C36_iteration_refuted : exists s i, reached ex_class s /\ stands s i (KTup [1]) /\
  c_item (ex_class 1) = Some (Ok (One (Cls 2))) /\
  forall n os, (forall o, In o os -> exists k, o = Item i (Index k)) ->
    exists j, fst (get_item ex_class i (Index n) (ehist ex_class os s)) = EOk j.
Proof.
  exists ex_state, 1. split; [apply ex_reached|]. split; [eexists; split; reflexivity|]. split; [reflexivity|].
  intros n os _. exists 2. destruct (C36_repeatable ex_class ex_state 1 os ex_reached) as [_ h].
  apply (h (Index n) 2 ex_state). reflexivity.
Qed.

(** A slice of a placeholder is the placeholder, also for classes that cannot be
    subscribed. *)
Theorem C36_slice_refuted : exists s i, reached ex_class s /\ stands s i (KTup [0]) /\
  fst (get_item ex_class i (Index 0) s) = EErr ENotSubscriptable /\ fst (get_item ex_class i Slice s) = EOk i.
Proof. exists ex_state, 0. split; [apply ex_reached|]. split; [eexists; split; reflexivity|]. split; reflexivity. Qed.

(** Inherited methods do not count: a class that inherits [__call__] is taken not to be
    callable. *)
Theorem C36_inherited_refuted : exists c d s i, In d (c_mro (ex_class c)) /\ c_own (ex_class d) (s2l "__call__") = true /\
  reached ex_class s /\ stands s i (KTup [c]) /\ fst (call ex_class i s) = EErr ENotCallable.
Proof.
  exists 4, 3, (ehist ex_class [Ask (One (Cls 4))] empty0), 0. split; [simpl; auto|]. split; [reflexivity|].
  split; [eexists; reflexivity|]. split; [eexists; split; reflexivity|]. reflexivity.
Qed.

(** The fields of a placeholder are writable, and assigning to one changes what the object
    gives from then on. *)
Theorem C36_writable_refuted : exists s i j, reached ex_class s /\
  let (r, s1) := set_ i (AMember j) s in
  r = EOk i /\ fst (get_item ex_class i (Index 0) s) <> fst (get_item ex_class i (Index 0) s1).
Proof. exists ex_state, 1, 0. split; [apply ex_reached|]. vm_compute. split; [reflexivity|discriminate]. Qed.

(** The accessor of a lazy attribute hides an AttributeError of the default: though the
    attribute has a default it reads as an empty placeholder. *)
Theorem C36_lazy_masked_refuted : exists (C : cls nat unit) n st s i,
  (exists p m, find n C = Some p /\ p_lazy p = true /\ p_default p = DMeth m) /\
  fst (getattr C 5 n st) = Err AttrErr /\ fst (fst (aux_get C 5 n (Some (One (Cls 2))) st s)) = Ok (AEmpty i).
Proof.
  exists [(s2l "x", mkProp true Safe false None (fun v w => (CRet v, w)) None
            (DMeth (PGet (s2l "y") (fun r => match r with Ok v => PRet v | Err e => PRaise e end))) PNone (fun _ => false))],
    (s2l "x"), (empty_state tt), empty0, 0.
  split; [do 2 eexists; split; [reflexivity|split; reflexivity]|]. split; reflexivity.
Qed.

Print Assumptions C36_itertypes.
Print Assumptions C36_itertypes_once.
Print Assumptions C36_persistent.
Print Assumptions C36_same_object.
Print Assumptions C36_kept.
Print Assumptions C36_any_absorbs.
Print Assumptions C36_any.
Print Assumptions C36_attribute.
Print Assumptions C36_item.
Print Assumptions C36_call.
Print Assumptions C36_repeatable.
Print Assumptions C36_not_writable.
Print Assumptions C36_accessor.
Print Assumptions C36_set_of_types_refuted.
Print Assumptions C36_iteration_refuted.
Print Assumptions C36_slice_refuted.
Print Assumptions C36_inherited_refuted.
Print Assumptions C36_writable_refuted.
Print Assumptions C36_lazy_masked_refuted.
