(** C24: == of records and collections.  C25: equal records hash alike. *)
From Coq Require Import String List Arith NArith ZArith Bool Lia.
From Verif Require Import Prelude SelPathModel FSModel PySeq MFSModel ValModel EqModel EqProofs HashProofs.
Import ListNotations.

(** == of the opaque values, of classes, and of item types *)
Definition equivalence {X} (r : X -> X -> bool) : Prop :=
  (forall a, r a a = true) /\ (forall a b, r a b = r b a) /\
  (forall a b c, r a b = true -> r b c = true -> r a c = true).
Definition identity {X} (r : X -> X -> bool) : Prop := forall a b, r a b = true <-> a = b.

Section C24.
Context {A C : Type}.
Variable W : classes A C.
Variable aeqb : A -> A -> bool.
Variable ceqb : C -> C -> bool.
Variable same_item : C -> C -> bool.
Notation val := (val A C).
Notation veq := (veq W aeqb ceqb same_item).
Notation vne := (vne W aeqb ceqb same_item).
Notation same := (same W aeqb same_item).

Hypothesis Ha : equivalence aeqb.
Hypothesis Hc : identity ceqb.
Hypothesis Hi : equivalence same_item.

(** Whatever == answers is what [same] says; the answer does not depend on the fuel. *)
Theorem C24_meaning n (x y : val) b : coerce_wf W -> wf x -> wf y -> veq n x y = Ok b -> (b = true <-> same x y).
Proof. intros; eapply veq_decides; eauto. Qed.

Theorem C24_reflexive n (x : val) : wf x -> depth x < n -> veq n x x = Ok true.
Proof. apply veq_refl; [apply Ha|apply Hi|intros c; now apply Hc]. Qed.

Theorem C24_symmetric n m (x y : val) b b' : coerce_wf W -> wf x -> wf y ->
  veq n x y = Ok b -> veq m y x = Ok b' -> b = b'.
Proof.
  intros CW Wx Wy E1 E2. apply C24_meaning in E1; auto. apply C24_meaning in E2; auto.
  assert (S : same x y <-> same y x) by (split; apply same_sym; [apply Ha|apply Hi|apply Ha|apply Hi]).
  destruct b, b'; intuition.
Qed.

(** Every place (slot of a class, items of a collection) is one for typed collections or one
    for plain lists and dicts, see [disc]. *)
Section Places.
Variable slot_typed : C -> str -> bool.
Variable item_typed : C -> bool.
Hypothesis Ht : forall c d, same_item c d = true -> item_typed c = item_typed d.
Notation disc := (disc slot_typed item_typed).

Theorem C24_terminates n b (x y : val) : disc b x -> disc b y -> depth x < n -> exists r, veq n x y = Ok r.
Proof. intros D1 D2 L. eapply veq_total; eauto. Qed.

Theorem C24_transitive n m k b (x y z : val) : coerce_wf W -> wf x -> wf y -> wf z ->
  disc b x -> disc b y -> disc b z -> depth x < k ->
  veq n x y = Ok true -> veq m y z = Ok true -> veq k x z = Ok true.
Proof.
  intros CW Wx Wy Wz Dx Dy Dz L E1 E2. apply C24_meaning in E1; auto. apply C24_meaning in E2; auto.
  destruct (C24_terminates k b x z Dx Dz L) as [r E]. rewrite E. f_equal. apply C24_meaning in E; auto.
  apply E. eapply same_trans; [apply Ha|apply Hi|exact Ht|apply E1; reflexivity|exact Dx|exact Dy|exact Dz|]. apply E2; reflexivity.
Qed.
End Places.

Theorem C24_negation n (x y : val) b : vne n x y = Ok b <-> veq n x y = Ok (negb b).
Proof.
  unfold EqModel.vne. destruct (veq n x y) as [r|e]; cbn [bind]; [|split; discriminate].
  split; intros [= E]; subst; now rewrite negb_involutive.
Qed.

(** A record equals nothing but records of its class; a collection nothing but collections of
    its kind and item type, and plain lists or dicts. *)
Theorem C24_false_across_types n (x y : val) :
  match x with VRec _ _ | VLC _ _ _ | VDC _ _ _ => True | _ => False end ->
  match x, y with
  | VRec c _, VRec d _ => c <> d
  | VLC c _ _, VLC d _ _ | VDC c _ _, VDC d _ _ => same_item c d = false
  | VLC _ _ _, VSeq false _ | VDC _ _ _, VMap _ => False
  | _, _ => True
  end -> veq (S n) x y = Ok false /\ veq (S n) y x = Ok false.
Proof.
  destruct Ha as (_ & As & _), Hi as (_ & Is & _).
  destruct x, y; cbn [EqModel.veq]; try contradiction; intros _ Hn; try (split; reflexivity).
  - destruct tup; try contradiction; auto.
  - destruct (ceqb c c0) eqn:E; [now apply Hc in E|]. destruct (ceqb c0 c) eqn:E'; [apply Hc in E'; congruence|]. auto.
  - destruct tup; try contradiction; auto.
  - rewrite (Is c0 c), Hn. auto.
  - destruct tup; auto.
  - rewrite (Is c0 c), Hn. auto.
Qed.

(** Slots of extraneous properties (and anything which is not a property) have no influence. *)
Theorem C24_extraneous_ignored n c sl sl' (y : val) :
  (forall p, In p (props W c) -> p_extraneous p = false ->
     dict_get str_eqb sl (p_name p) = dict_get str_eqb sl' (p_name p)) ->
  veq n (VRec c sl) y = veq n (VRec c sl') y /\ veq n y (VRec c sl) = veq n y (VRec c sl').
Proof.
  intros E. destruct n; [split; reflexivity|].
  assert (G : forall ps (f : val -> val -> res bool) z, (forall p, In p ps -> In p (props W c)) ->
    eq_slots f ps (VRec c sl) z = eq_slots f ps (VRec c sl') z /\ eq_slots f ps z (VRec c sl) = eq_slots f ps z (VRec c sl')).
  { intros ps f z. induction ps as [|p ps IH]; intros I; cbn [eq_slots]; auto.
    destruct IH as [E1 E2]; [intros; apply I; cbn; auto|]. rewrite E1, E2.
    destruct (p_extraneous p) eqn:X; auto. cbn [slot]. rewrite (E p); auto. apply I; cbn; auto. }
  destruct y; try (split; reflexivity). cbn [EqModel.veq]. split.
  - destruct (ceqb c c0) eqn:X; auto. apply G; auto.
  - destruct (ceqb c0 c) eqn:X; auto. apply Hc in X as ->. apply G; auto.
Qed.

(** Properties of the collections themselves have no influence. *)
Theorem C24_collection_props_ignored n c sl sl' (y : val) l d :
  veq n (VLC c sl l) y = veq n (VLC c sl' l) y /\ veq n y (VLC c sl l) = veq n y (VLC c sl' l) /\
  veq n (VDC c sl d) y = veq n (VDC c sl' d) y /\ veq n y (VDC c sl d) = veq n y (VDC c sl' d).
Proof. destruct n; [cbn; auto|]. destruct y; cbn; auto. Qed.
End C24.

(** Without the discipline of places, == is not transitive: a plain list equals collections of
    two item types, which differ from each other. *)
Theorem C24_transitive_refuted : exists (W : classes nat nat) (x y z : val nat nat),
  forall n, veq W Nat.eqb Nat.eqb Nat.eqb (3 + n) x y = Ok true /\
            veq W Nat.eqb Nat.eqb Nat.eqb (3 + n) y z = Ok true /\
            veq W Nat.eqb Nat.eqb Nat.eqb (3 + n) x z = Ok false.
Proof.
  exists (mkClasses (fun _ => KList) (fun _ => []) (fun _ => []) (fun _ => IPlain) (fun _ => None) (fun _ v => Ok v)).
  exists (VLC 0 [] [VAtom 1]), (VSeq false [VAtom 1]), (VLC 1 [] [VAtom 1]). intros n. repeat split.
Qed.

(** *** An instance: class 0 a record with a name, a note (extraneous), a list of tags and a
    typed collection of class 1, whose items are records of class 0. *)
Definition name := s2l "name".
Definition note := s2l "note".
Definition tags := s2l "tags".
Definition kids := s2l "kids".
Definition P n x vt : prop nat nat := mkProp n x vt None.
Definition W1 (pk : list (prop nat nat)) : classes nat nat :=
  mkClasses
    (fun c => match c with 1 => KList | 2 => KDict | _ => KRec end)
    (fun c => match c with
              | 0 => [P name false None; P note true None; P tags false None; P kids false (Some [Some 1])]
              | 3 => [P kids false (Some [Some 2])]
              | _ => [] end)
    (fun c => match c with 0 => pk | _ => [] end)
    (fun c => match c with 1 => IRec 0 | _ => IPlain end)
    (fun _ => None) (fun _ v => Ok v).
Definition kid s : val nat nat := VRec 0 [(name, VText (s2l s)); (note, VAtom 7)].
Definition boss x : val nat nat :=
  VRec 0 [(name, VText (s2l "b")); (note, VAtom x); (tags, VSeq true [VText (s2l "t")]);
          (kids, VLC 1 [] [kid "k"; kid "l"])].
Definition st1 (c : nat) (n : str) : bool := str_eqb n kids.
Definition it1 (c : nat) : bool := false.

Lemma eqb_equivalence : equivalence Nat.eqb.
Proof.
  split; [apply Nat.eqb_refl|]. split; [apply Nat.eqb_sym|]. intros a b c E1 E2.
  apply Nat.eqb_eq in E1, E2. subst. apply Nat.eqb_refl.
Qed.

Example C24_case :
  equivalence Nat.eqb /\ identity Nat.eqb /\ coerce_wf (W1 []) /\
  wf (boss 1) /\ wf (boss 2) /\ disc st1 it1 false (boss 1) /\ disc st1 it1 false (boss 2) /\
  boss 1 <> boss 2 /\
  veq (W1 []) Nat.eqb Nat.eqb Nat.eqb (S (depth (boss 1))) (boss 1) (boss 2) = Ok true /\
  veq (W1 []) Nat.eqb Nat.eqb Nat.eqb 9 (boss 1) (kid "b") = Ok false /\
  veq (W1 []) Nat.eqb Nat.eqb Nat.eqb 9 (VSeq false [kid "k"]) (VLC 1 [(name, VNone)] [kid "k"]) = Ok true.
Proof.
  split; [apply eqb_equivalence|]. split; [intros a b; apply Nat.eqb_eq|]. split; [intros c v v' Wv [= <-]; auto|].
  split; [repeat (constructor; cbn [snd])|]. split; [repeat (constructor; cbn [snd])|].
  split; [repeat (constructor; cbn [snd fst])|]. split; [repeat (constructor; cbn [snd fst])|].
  split; [discriminate|]. repeat split.
Qed.

(** ** C25 *)

Section C25.
Context {A C H : Type}.
Variable W : classes A C.
Variable aeqb : A -> A -> bool.
Variable same_item : C -> C -> bool.
Variable sort_items : list (elem * val A C) -> list (elem * val A C).
Variable alien_atom : C -> A -> res (list (elem * val A C)).
Variable a_hash : A -> bool.
Variable ahash : A -> res H.
Variables hnothing hnone : H.
Variable htext : str -> H.
Variable htuple : list H -> H.
Notation hash := (hash W sort_items alien_atom a_hash ahash hnothing hnone htext htuple).
Notation rid := (rid W sort_items alien_atom a_hash ahash hnothing hnone htext htuple).
Notation veq := (veq W aeqb).

(** hash() respects == on the opaque values; iterating over equal opaque values gives
    interchangeable items. *)
Definition hash_respects : Prop := forall a b h h', aeqb a b = true -> ahash a = Ok h -> ahash b = Ok h' -> h = h'.
Definition alien_respects : Prop := forall c a b l m, aeqb a b = true -> alien_atom c a = Ok l -> alien_atom c b = Ok m ->
  Forall2 (fun x y => samep W aeqb (snd x) (snd y)) l m.

(** Two equal values of the disciplined kind (no dicts inside; see [plain] and [disc]) which
    can be hashed have the same hash. *)
Theorem C25_equal_hash ceqb slot_typed item_typed b n m k (x y : val A C) h h' :
  hash_respects -> alien_respects -> identity ceqb ->
  (forall c d, same_item c d = true -> item W c = item W d /\ item_typed c = item_typed d) ->
  coerce_wf W -> wf x -> wf y -> disc slot_typed item_typed b x -> disc slot_typed item_typed b y ->
  plain W x -> plain W y ->
  veq ceqb same_item n x y = Ok true -> hash m x = Ok h -> hash k y = Ok h' -> h = h'.
Proof.
  intros HR AR CI SI CW Wx Wy Dx Dy Px Py E Hx Hy.
  pose proof (proj1 (veq_decides W aeqb ceqb same_item CI CW n x y true Wx Wy E) eq_refl) as S.
  assert (Sp : samep W aeqb x y).
  { eapply same_samep; [| |exact S|exact Dx|exact Dy|exact Px|exact Py]; intros c d I; apply SI in I; tauto. }
  eapply (proj2 (hash_rid W aeqb same_item sort_items alien_atom a_hash ahash hnothing hnone htext htuple HR AR m)); eauto.
Qed.

(** The same for the identities under which a collection diff pairs up its items. *)
Theorem C25_equal_id ceqb slot_typed item_typed b n m k T (x y i j : val A C) :
  hash_respects -> alien_respects -> identity ceqb ->
  (forall c d, same_item c d = true -> item W c = item W d /\ item_typed c = item_typed d) ->
  coerce_wf W -> wf x -> wf y -> disc slot_typed item_typed b x -> disc slot_typed item_typed b y ->
  plain W x -> plain W y ->
  veq ceqb same_item n x y = Ok true -> rid m None T None x = Ok i -> rid k None T None y = Ok j -> samep W aeqb i j.
Proof.
  intros HR AR CI SI CW Wx Wy Dx Dy Px Py E Hx Hy.
  pose proof (proj1 (veq_decides W aeqb ceqb same_item CI CW n x y true Wx Wy E) eq_refl) as S.
  assert (Sp : samep W aeqb x y).
  { eapply same_samep; [| |exact S|exact Dx|exact Dy|exact Px|exact Py]; intros c d I; apply SI in I; tauto. }
  eapply (proj1 (hash_rid W aeqb same_item sort_items alien_atom a_hash ahash hnothing hnone htext htuple HR AR m)); eauto.
Qed.

(** Lists, dicts and collections have no hash; as a value of a type that is no record type
    they have no identity either, and a record without a primary key that holds a list or
    dict in a typed slot has none. *)
Definition container (v : val A C) : Prop :=
  (exists l, v = VSeq false l) \/ (exists l, v = VMap l) \/ (exists c s l, v = VLC c s l) \/ (exists c s l, v = VDC c s l).
Theorem C25_containers n f sel (v : val A C) : container v ->
  hash (S n) v = Err TypeErr /\ rid (S n) f RPlain sel v = Err IdentityCrisis.
Proof. intros [[l ->]|[[l ->]|[(c & s & l & ->)|(c & s & l & ->)]]]; split; reflexivity. Qed.

Theorem C25_record_with_container n c (sl : list (str * val A C)) p v :
  kind W c = KRec -> pkey W c = [] -> props W c = [p] -> p_extraneous p = false -> p_valuetype p = Some [None] ->
  slot (VRec c sl) (p_name p) = Some v -> (exists l, v = VSeq false l) \/ (exists l, v = VMap l) ->
  hash (S (S (S n))) (VRec c sl) = Err KeyHashError.
Proof.
  intros hk hp hs he ht hv hc.
  assert (E : rid (S (S n)) None (RClass c) None (VRec c sl) = Err KeyHashError).
  { cbn [EqModel.rid]. rewrite hk, hp. cbn [sel_true andb]. unfold sorted_properties. rewrite hs. cbn [filter]. rewrite he. cbn.
    cbn in hv. rewrite hv, ht. destruct hc as [[l ->]|[l ->]]; reflexivity. }
  change (hash (S (S (S n))) (VRec c sl)) with (do i <- rid (S (S n)) None (RClass c) None (VRec c sl); hash (S (S n)) i).
  rewrite E. reflexivity.
Qed.
End C25.

(** Hashes for the examples: nested tuples of numbers *)
Inductive hv : Type := HN | H0 | HS (s : str) | HA (n : nat) | HT (l : list hv).
Notation hash1 W := (hash W (fun l => l) (fun _ _ => Err CollCoerceErr) (fun _ => true) (fun a => Ok (HA a)) HN H0 HS HT).

(** Equal records which differ in hash: dict collections filled in different order *)
Theorem C25_dict_order_refuted : exists (W : classes nat nat) (x y : val nat nat) h h',
  forall n, veq W Nat.eqb Nat.eqb Nat.eqb (5 + n) x y = Ok true /\
            hash1 W (5 + n) x = Ok h /\ hash1 W (5 + n) y = Ok h' /\ h <> h'.
Proof.
  exists (W1 []).
  exists (VRec 3 [(kids, VDC 2 [] [(EStr name, VAtom 1); (EStr note, VAtom 2)])]).
  exists (VRec 3 [(kids, VDC 2 [] [(EStr note, VAtom 2); (EStr name, VAtom 1)])]).
  exists (HT [HT [HA 1; HA 2]]), (HT [HT [HA 2; HA 1]]). intros n. repeat split. discriminate.
Qed.

(** ... and a primary key over an extraneous property *)
Theorem C25_extraneous_key_refuted : exists (W : classes nat nat) (x y : val nat nat) h h',
  forall n, veq W Nat.eqb Nat.eqb Nat.eqb (5 + n) x y = Ok true /\
            hash1 W (5 + n) x = Ok h /\ hash1 W (5 + n) y = Ok h' /\ h <> h'.
Proof.
  exists (W1 [P note true None]), (boss 1), (boss 2), (HT [HA 1]), (HT [HA 2]). intros n. repeat split. discriminate.
Qed.

(** Not every record can be hashed: an empty typed collection is no good as a part of a key.
    ([val_pk or val], identity.py:98, falls back to the collection, which has no hash.) *)
Theorem C25_empty_collection_unhashable : exists (W : classes nat nat) (x : val nat nat),
  forall n, hash1 W (5 + n) x = Err KeyHashError /\ exists y h, hash1 W (5 + n) y = Ok h /\
    match x, y with VRec c [(k, VLC d _ [])], VRec c' [(k', VLC d' _ [_])] => c = c' /\ k = k' /\ d = d' | _, _ => False end.
Proof.
  exists (W1 []), (VRec 0 [(kids, VLC 1 [] [])]). intros n. split; [reflexivity|].
  exists (VRec 0 [(kids, VLC 1 [] [VRec 0 [(name, VAtom 1)]])]). eexists. split; [reflexivity|]. auto.
Qed.

(** a record with one slot of type list, holding one *)
Example C25_container_case : exists (W : classes nat nat) (x : val nat nat), kind W 1 = KRec /\ pkey W 1 = [] /\
  hash1 W 3 x = Err KeyHashError.
Proof.
  pose (p := @mkProp nat nat (s2l "tags") false (Some [None]) None).
  exists (mkClasses (fun _ => KRec) (fun _ => [p]) (fun _ => []) (fun _ => IPlain) (fun _ => None) (fun _ v => Ok v)),
    (VRec 1 [(s2l "tags", VSeq false [VNone])]).
  split; [reflexivity|]. split; reflexivity.
Qed.
Example C25_case :
  plain (W1 []) (boss 1) /\ plain (W1 []) (boss 2) /\ boss 1 <> boss 2 /\
  (exists h, hash1 (W1 []) 9 (boss 1) = Ok h /\ hash1 (W1 []) 9 (boss 2) = Ok h) /\
  ~ (hash1 (W1 []) 9 (boss 1) = hash1 (W1 []) 9 (kid "b")).
Proof.
  assert (KN : forall n, key_name (W1 []) n -> n <> note).
  { intros n (T & p & E & [I|(K & I & X)]); subst n.
    - destruct T as [|[|[|[|]]]]; cbn in I; contradiction.
    - destruct T as [|[|[|[|]]]]; cbn in I; try contradiction; repeat destruct I as [<-|I]; try contradiction; try discriminate. }
  assert (Pr : forall sl, Forall (fun kv => plain (W1 []) (snd kv)) sl ->
    (forall n, In n (map fst sl) -> In n [name; note; tags; kids]) -> plain (W1 []) (VRec 0 sl)).
  { intros sl F N. constructor; auto. intros n I K. apply N in I. apply KN in K. cbn [In] in I.
    destruct I as [<-|[<-|[<-|[<-|[]]]]]; try congruence.
    - exists (P name false None); cbn; auto 9.
    - exists (P tags false None); cbn; auto 9.
    - exists (P kids false (Some [Some 1])); cbn; auto 9. }
  assert (K : forall s, plain (W1 []) (kid s)).
  { intros s. apply Pr; [repeat (constructor; cbn [snd])|cbn; tauto]. }
  assert (B : forall x, plain (W1 []) (boss x)).
  { intros x. apply Pr; [|cbn; tauto]. constructor; [constructor|]. constructor; [constructor|].
    constructor; [repeat constructor|]. constructor; [|constructor]. constructor; auto. }
  split; [apply B|]. split; [apply B|]. split; [discriminate|]. split; [eexists; split; reflexivity|]. discriminate.
Qed.

Print Assumptions C24_meaning.
Print Assumptions C24_reflexive.
Print Assumptions C24_symmetric.
Print Assumptions C24_terminates.
Print Assumptions C24_transitive.
Print Assumptions C24_negation.
Print Assumptions C24_false_across_types.
Print Assumptions C24_extraneous_ignored.
Print Assumptions C24_collection_props_ignored.
Print Assumptions C24_transitive_refuted.
Print Assumptions C25_equal_hash.
Print Assumptions C25_equal_id.
Print Assumptions C25_containers.
Print Assumptions C25_record_with_container.
Print Assumptions C25_dict_order_refuted.
Print Assumptions C25_extraneous_key_refuted.
Print Assumptions C25_empty_collection_unhashable.
