(** * C68: an attribute of a record class is the property of that name

    RecordMeta.__new__ (normalize/record/meta.py:27-99) works out [properties] from the bases' and the body, and
    Python looks the attribute up along the method resolution order.  The library uses one for some purposes (JSON,
    comparison, construction) and the other for others (reading, assignment and deletion on instances, selectors). *)
From Coq Require Import String List NArith Bool Arith Lia.
Import ListNotations.
From Verif Require Import Prelude TraitModel MetaModel MetaProofs MetaProps ClassModel ClassSpec ClassProofs.
Local Open Scope list_scope.

Lemma property_once w k n p q : program w -> In k w -> property_of k n p -> property_of k n q -> p = q.
Proof.
  intros hp ik (ps & e & i) (qs & e' & j). rewrite e in e'. injection e' as <-.
  pose proof (s_dict _ (program_sound _ hp) _ _ ik e) as nd.
  apply (in_dget _ _ _ nd) in i. apply (in_dget _ _ _ nd) in j. congruence.
Qed.

(** A property found by attribute lookup is the one in [properties]: whatever the bases and their order. *)
Theorem C68_sound w k n p : program w -> only_in_records w -> In k w ->
  lookup_attr w k n = Some (AProp p) -> property_of k n p.
Proof. intros hp ho ik. apply (s_found _ (program_sound _ hp) ho); auto. Qed.

(** Conversely a name in [properties] is an attribute of the class; and if no class in its resolution order uses
    that name for something else it is that property. *)
Theorem C68_complete w k n p : program w -> In k w -> property_of k n p ->
  lookup_attr w k n <> None /\
  (only_in_records w -> 
   (forall e v, In e w -> In (k_id e) (k_mro k) -> In (n, v) (k_attrs e) -> exists q, v = AProp q) ->
   lookup_attr w k n = Some (AProp p)).
Proof.
  intros hp ik h. pose proof (program_sound _ hp) as s. pose proof (s_held _ s _ _ _ ik h) as hl.
  split; [exact hl|]. intros ho hv. destruct (lookup_attr w k n) as [v|] eqn:e; [|congruence].
  assert (exists q, v = AProp q) as [q ->].
  { unfold lookup_attr in e. apply firstm_some in e as (pre & x & post & em & eo & _). unfold own in eo.
    destruct (class_no w x) as [c|] eqn:ec; [|discriminate]. apply class_no_in in ec as [ic <-].
    apply (hv c v ic); [rewrite em; apply in_or_app; right; simpl; auto|now apply dget_in]. }
  f_equal. f_equal. apply (s_found _ s ho) in e; auto. eapply property_once; eauto.
Qed.

(** All properties of all classes in the resolution order are inherited, under their names. *)
Theorem C68_inherited w k e n p : program w -> In k w -> In e w -> In (k_id e) (k_mro k) -> property_of e n p ->
  exists q, property_of k n q.
Proof. intros hp ik ie j h. eapply (s_down _ (program_sound _ hp) k e); eauto. Qed.

Lemma tidy_inv P w : tidy P w -> program w /\
  (forall k n v, In k w -> In (n, v) (k_attrs k) -> P n <-> exists p, v = AProp p) /\ only_in_records w.
Proof.
  induction 1 as [attrs hd ha|w h bases attrs pk k ht (hp & hu & ho) hb hd hk ha hx hf hne hs|w bases attrs k ht (hp & hu & ho) hb hd hk ha].
  - split; [now constructor|]. split.
    + intros k n v [<-|[]] i. simpl in i. destruct (ha _ _ i) as [h1 h2]. split; [intros y; destruct (h1 y)|]. intros [p e]. destruct (h2 p e).
    + intros k n p [<-|[]] _ i. destruct (ha _ _ i) as [_ h2]. exact (h2 p eq_refl).
  - pose proof (program_sound _ hp) as s.
    assert (hp' : program (k :: w)) by (eapply record_class; eauto). split; [exact hp'|].
    destruct (new_record_struct _ _ _ _ _ _ s hb hd hk) as (ps & c & h' & ep & ed & <- & sn & ei & em & ea).
    assert (fo : fresh_once h attrs).
    { intros n m p i j nb. apply (hf n m p i j). unfold bound in nb. destruct (po_class (h p)); [discriminate|auto]. }
    assert (nn : forall p, ~ In ([], AProp p) attrs) by (intros p i; apply hne, (ha _ _ i); eauto).
    destruct (C34_accessors _ _ _ _ _ _ _ sn fo nn ed) as (ndc & _ & hk2).
    pose proof sn as [han hbs].
    destruct (declare_struct _ _ _ _ _ _ _ hbs han ed) as (_ & _ & _ & _ & _ & _ & _ & _ & eca).
    split.
    + intros e n v [<-|ie] i; [|eapply hu; eauto].
      assert (nd : NoDup (map fst (k_attrs k))) by (rewrite ea; apply dupdate_nodup, ndc).
      apply (in_dget _ _ _ nd) in i. split.
      * intros hpn. rewrite ea in i. rewrite dget_dupdate_other in i.
        2:{ rewrite map_map. intros j. apply in_map_iff in j as (x & ex & j). simpl in ex. subst x. exact (hs n j hpn). }
        apply dget_in in i. apply hk2 in i; [now apply (ha _ _ i)|]. intros m q (j1 & j2 & j3). exact (hx _ _ _ j1 j2 j3 hpn).
      * intros [p ->]. rewrite ea in i. apply dget_dupdate_in in i as [i|i].
        -- rewrite eca in i. apply dget_dupdate_in in i as [i|i].
           ++ apply dget_in in i. apply (ha _ _ i). eauto.
           ++ apply in_map_iff in i as (x & e & _). discriminate.
        -- apply in_map_iff in i as (x & e & _). discriminate.
    + intros e n p [<-|ie] h0; [congruence|]. now apply ho.
  - split; [eapply plain_class; eauto|]. unfold new_plain in hk. destruct (existsb is_record bases); [discriminate|].
    destruct (linearise _ _) as [mro|]; [|discriminate]. injection hk as <-. split.
    + intros e n v [<-|ie] i; [|eapply hu; eauto]. simpl in i. destruct (ha _ _ i) as [h1 h2].
      split; [intros y; destruct (h1 y)|]. intros [p ep]. destruct (h2 p ep).
    + intros e n p [<-|ie] h0 i; [|now apply (ho e n p)]. simpl in i. destruct (ha _ _ i) as [_ h2]. exact (h2 p eq_refl).
Qed.

(** In a program that keeps names of properties apart from other names (accessors' and the library's among them)
    lookup and [properties] agree altogether. *)
Theorem C68_tidy P w k n p : tidy P w -> In k w ->
  lookup_attr w k n = Some (AProp p) <-> property_of k n p.
Proof.
  intros ht ik. destruct (tidy_inv _ _ ht) as (hp & hu & ho). split; [now apply C68_sound|].
  intros h. destruct (C68_complete _ _ _ _ hp ik h) as [hl hc]. apply hc; auto.
  intros e v ie _ i. apply (hu e n v ie i).
  (* some class in the resolution order has it as a property *)
  assert (hw : forall w, tidy P w -> forall k n p, In k w -> property_of k n p -> P n).
  { clear. induction 1 as [attrs hd ha|w h bases attrs pk k ht IH hb hd hk ha hx hf hne hs|w bases attrs k ht IH hb hd hk ha];
      intros c n p ic hpr.
    - destruct ic as [<-|[]]. destruct hpr as (ps & e & _). discriminate.
    - destruct ic as [<-|ic]; [|eapply IH; eauto]. destruct (tidy_inv _ _ ht) as (hp & _).
      destruct (new_record_struct _ _ _ _ _ _ (program_sound _ hp) hb hd hk) as (ps & cl & h' & ep & ed & <- & sn & _).
      destruct (C34_properties _ _ _ _ _ _ _ sn ed) as [_ hh]. destruct hpr as (ps' & e & i). rewrite ep in e. injection e as <-.
      apply hh in i as [i|[_ (qs & i & j)]]; [apply (ha _ _ i); eauto|]. apply in_map_iff in i as (b & eb & i).
      apply (IH b n p (hb _ i)). exists qs. auto.
    - destruct ic as [<-|ic]; [|eapply IH; eauto]. unfold new_plain in hk. destruct (existsb is_record bases); [discriminate|].
      destruct (linearise _ _); [|discriminate]. injection hk as <-. destruct hpr as (ps & e & _). discriminate. }
  exact (hw w ht k n p ik h).
Qed.

(** ** Examples *)
Local Open Scope string_scope.
Local Open Scope list_scope.
Definition free_prop : pobj :=
  {| po_name := None; po_class := None; po_empty := None; po_extraneous := false;
     po_required := false; po_default := false; po_lazy := false |}.
Definition quiet_prop : pobj :=
  {| po_name := None; po_class := None; po_empty := Some None; po_extraneous := false;
     po_required := false; po_default := false; po_lazy := true |}.
Definition free (_ : nat) : pobj := free_prop.

Module Ex.
  (* class object; class Record; class Named(Record): name, tag; class Sized(Record): size; class Loud: def shout;
     class Box(Loud, Sized, Named): tag (again) *)
  Definition object_ : klass := Klass 0 [0] None [(s2l "__init__", AOther)].
  Definition get (o : option klass) : klass := match o with Some k => k | None => object_ end.
  Definition w0 := [object_].
  Definition k1 := get (new_record w0 free [object_] [(s2l "__init__", AOther)] []).
  Definition w1 := k1 :: w0.
  Definition k2 := get (new_record w1 free [k1] [(s2l "name", AProp 0); (s2l "tag", AProp 1)] [PkName (s2l "name")]).
  Definition w2 := k2 :: w1.
  Definition k3 := get (new_record w2 free [k1] [(s2l "size", AProp 2)] []).
  Definition w3 := k3 :: w2.
  Definition k4 := get (new_plain w3 [object_] [(s2l "shout", AOther)]).
  Definition w4 := k4 :: w3.
  Definition k5 := get (new_record w4 free [k4; k3; k2] [(s2l "tag", AProp 3)] []).
  Definition w5 := k5 :: w4.
End Ex.

Definition ex_names (n : str) : Prop := In n (map s2l ["name"; "tag"; "size"]%string).
Ltac names := unfold ex_names; simpl; intuition discriminate.

Lemma ex_incl1 : incl [Ex.object_] Ex.w0. Proof. intros x [<-|[]]; simpl; auto. Qed.
Lemma ex_incl2 : incl [Ex.k1] Ex.w1. Proof. intros x [<-|[]]; simpl; auto. Qed.
Lemma ex_incl3 : incl [Ex.k1] Ex.w2. Proof. intros x [<-|[]]; simpl; auto. Qed.
Lemma ex_incl4 : incl [Ex.object_] Ex.w3. Proof. intros x [<-|[]]; simpl; auto. Qed.
Lemma ex_incl5 : incl [Ex.k4; Ex.k3; Ex.k2] Ex.w4. Proof. intros x [<-|[<-|[<-|[]]]]; simpl; auto. Qed.

Lemma accessor_free p n e : accessor (free p) n e -> e = n ++ s2l "0".
Proof. intros [h _]. exact h. Qed.
Lemma not_accessor n : In n (map s2l ["name"; "tag"; "size"]%string) -> ~ ex_names (n ++ s2l "0").
Proof. intros [<-|[<-|[<-|[]]]]; names. Qed.

Example C68_ex_tidy : tidy ex_names Ex.w5.
Proof.
  assert (sp : forall n, In n specials -> ~ ex_names n) by (intros n [<-|[<-|[<-|[<-|[]]]]]; names).
  assert (none : ~ ex_names []) by names.
  assert (t0 : tidy ex_names Ex.w0).
  { apply tidy_object; [unfold dict; nodup|]. intros n v [E|[]]; injection E as <- <-. split; [names|discriminate]. }
  assert (t1 : tidy ex_names Ex.w1).
  { apply (tidy_record _ _ free [Ex.object_] [(s2l "__init__", AOther)] [] _ t0 ex_incl1); [unfold dict; nodup|reflexivity| | | |exact none|exact sp].
    - intros n v [E|[]]; injection E as <- <-. split; [names|intros [p e]; discriminate].
    - intros n p e [E|[]]; discriminate.
    - intros n m p [E|[]]; discriminate. }
  assert (t2 : tidy ex_names Ex.w2).
  { apply (tidy_record _ _ free [Ex.k1] [(s2l "name", AProp 0); (s2l "tag", AProp 1)] [PkName (s2l "name")] _ t1 ex_incl2);
      [unfold dict; nodup|reflexivity| | | |exact none|exact sp].
    - intros n v [E|[E|[]]]; injection E as <- <-; (split; [eauto|]); intros _; names.
    - intros n p e [E|[E|[]]] _ a; apply accessor_free in a as ->; injection E as <- <-; apply not_accessor; simpl; auto.
    - intros n m p [E|[E|[]]] [F|[F|[]]] _; injection E as <- <-; injection F as <-; try discriminate; reflexivity. }
  assert (t3 : tidy ex_names Ex.w3).
  { apply (tidy_record _ _ free [Ex.k1] [(s2l "size", AProp 2)] [] _ t2 ex_incl3); [unfold dict; nodup|reflexivity| | | |exact none|exact sp].
    - intros n v [E|[]]; injection E as <- <-; (split; [eauto|]); intros _; names.
    - intros n p e [E|[]] _ a; apply accessor_free in a as ->; injection E as <- <-; apply not_accessor; simpl; auto.
    - intros n m p [E|[]] [F|[]] _; injection E as <- <-; injection F as <-; reflexivity. }
  assert (t4 : tidy ex_names Ex.w4).
  { apply (tidy_plain _ _ [Ex.object_] [(s2l "shout", AOther)] _ t3 ex_incl4); [unfold dict; nodup|reflexivity|].
    intros n v [E|[]]; injection E as <- <-. split; [names|discriminate]. }
  apply (tidy_record _ _ free [Ex.k4; Ex.k3; Ex.k2] [(s2l "tag", AProp 3)] [] _ t4 ex_incl5); [unfold dict; nodup|reflexivity| | | |exact none|exact sp].
  - intros n v [E|[]]; injection E as <- <-; (split; [eauto|]); intros _; names.
  - intros n p e [E|[]] _ a; apply accessor_free in a as ->; injection E as <- <-; apply not_accessor; simpl; auto.
  - intros n m p [E|[]] [F|[]] _; injection E as <- <-; injection F as <-; reflexivity.
Qed.

Example C68_ex_program : program Ex.w5 /\ only_in_records Ex.w5.
Proof. destruct (tidy_inv _ _ C68_ex_tidy) as (h1 & _ & h2). auto. Qed.

Example C68_ex_lookup :
  k_mro Ex.k5 = [5; 4; 3; 2; 1; 0] /\
  lookup_attr Ex.w5 Ex.k5 (s2l "tag") = Some (AProp 3) /\ lookup_attr Ex.w5 Ex.k5 (s2l "name") = Some (AProp 0) /\
  lookup_attr Ex.w5 Ex.k5 (s2l "size") = Some (AProp 2) /\ lookup_attr Ex.w5 Ex.k2 (s2l "tag") = Some (AProp 1) /\
  lookup_attr Ex.w5 Ex.k5 (s2l "tag0") = Some (AAux 3) /\ lookup_attr Ex.w5 Ex.k5 (s2l "shout") = Some AOther /\
  property_of Ex.k5 (s2l "name") 0.
Proof. repeat split. exists [(s2l "size", 2); (s2l "name", 0); (s2l "tag", 3)]. split; [reflexivity|simpl; auto]. Qed.

(** ** What does not hold *)

(** A property object in the body of a plain class (a mixin) is an attribute of the record class but none of its
    properties: it has no name either. *)
Theorem C68_mixin_refuted : exists w k n p, program w /\ In k w /\ is_record k = true /\
  lookup_attr w k n = Some (AProp p) /\ forall q, ~ property_of k n q.
Proof.
  set (m := Ex.get (new_plain Ex.w1 [Ex.object_] [(s2l "note", AProp 0)])).
  set (k := Ex.get (new_record (m :: Ex.w1) free [m; Ex.k1] [] [])).
  destruct C68_ex_program as [hp _].
  assert (p1 : program Ex.w1).
  { apply (record_class _ free [Ex.object_] [(s2l "__init__", AOther)] []); [|exact ex_incl1|unfold dict; nodup|reflexivity].
    constructor. unfold dict; nodup. }
  exists (k :: m :: Ex.w1), k, (s2l "note"), 0. split.
  - apply (record_class _ free [m; Ex.k1] [] []); [|intros x [<-|[<-|[]]]; simpl; auto|constructor|reflexivity].
    apply (plain_class _ [Ex.object_] [(s2l "note", AProp 0)]); [exact p1|intros x [<-|[]]; simpl; auto|unfold dict; nodup|reflexivity].
  - split; [simpl; auto|]. split; [reflexivity|]. split; [reflexivity|]. intros q (ps & e & i). vm_compute in e. injection e as <-. destruct i.
Qed.

(** A plain attribute of a mixin that comes before a record class hides its property: it stays in [properties]. *)
Theorem C68_mixin_hides_refuted : exists w k n p, program w /\ only_in_records w /\ In k w /\
  property_of k n p /\ lookup_attr w k n = Some AOther.
Proof.
  set (m := Ex.get (new_plain Ex.w4 [Ex.object_] [(s2l "name", AOther)])).
  set (k := Ex.get (new_record (m :: Ex.w4) free [m; Ex.k2] [] [])).
  destruct C68_ex_program as [hp ho].
  assert (p4 : program Ex.w4 /\ only_in_records Ex.w4).
  { split; [|intros e n p ie; apply (ho e n p); simpl; auto]. inversion hp as [| |]; subst; auto; fail. }
  exists (k :: m :: Ex.w4), k, (s2l "name"), 0. split; [|split; [|split; [simpl; auto|split; [|reflexivity]]]].
  - apply (record_class _ free [m; Ex.k2] [] []); [|intros x [<-|[<-|[]]]; simpl; auto|constructor|reflexivity].
    apply (plain_class _ [Ex.object_] [(s2l "name", AOther)]); [exact (proj1 p4)|intros x [<-|[]]; simpl; auto 9|unfold dict; nodup|reflexivity].
  - intros e n p [<-|[<-|ie]] h; [discriminate| |now apply (proj2 p4)]. intros [E|[]]. discriminate.
  - exists [(s2l "name", 0); (s2l "tag", 1)]. split; [reflexivity|simpl; auto].
Qed.

(** A property called [_sorted_properties] is accepted, unlike [properties] and [eager_properties], and is then
    overwritten by the list of that name: it stays in [properties] but is no attribute. *)
Theorem C68_sorted_name_refuted : exists w k n p, program w /\ only_in_records w /\ In k w /\
  property_of k n p /\ lookup_attr w k n = Some AOther.
Proof.
  set (k := Ex.get (new_record Ex.w0 free [Ex.object_] [(s2l "_sorted_properties", AProp 0)] [])).
  exists (k :: Ex.w0), k, (s2l "_sorted_properties"), 0. split; [|split; [|split; [simpl; auto|split; [|reflexivity]]]].
  - apply (record_class _ free [Ex.object_] [(s2l "_sorted_properties", AProp 0)] []); [|exact ex_incl1|unfold dict; nodup|reflexivity].
    constructor. unfold dict; nodup.
  - intros e n p [<-|[<-|[]]] h; [discriminate|]. intros [E|[]]. discriminate.
  - exists [(s2l "_sorted_properties", 0)]. split; [reflexivity|simpl; auto].
Qed.

(** The accessor of a property that a subclass overrides stays in force when the new property has none, and answers
    for the old one.  So [x0] is of the wrong type, and if the new [x] is lazy does not evaluate it. *)
Theorem C68_accessor_refuted : exists w k n p q, program w /\ only_in_records w /\ In k w /\
  property_of k n p /\ lookup_attr w k n = Some (AProp p) /\
  lookup_attr w k (n ++ s2l "0") = Some (AAux q) /\ forall m, ~ property_of k m q.
Proof.
  set (h := fun p => if Nat.eqb p 9 then quiet_prop else free_prop).
  set (b := Ex.get (new_record Ex.w0 h [Ex.object_] [(s2l "x", AProp 0)] [])).
  set (k := Ex.get (new_record (b :: Ex.w0) h [b] [(s2l "x", AProp 9)] [])).
  exists (k :: b :: Ex.w0), k, (s2l "x"), 9, 0. split; [|split; [|split; [simpl; auto|split; [|split; [reflexivity|split; [reflexivity|]]]]]].
  - apply (record_class _ h [b] [(s2l "x", AProp 9)] []); [|intros x [<-|[]]; simpl; auto|unfold dict; nodup|reflexivity].
    apply (record_class _ h [Ex.object_] [(s2l "x", AProp 0)] []); [|exact ex_incl1|unfold dict; nodup|reflexivity].
    constructor. unfold dict; nodup.
  - intros e n p [<-|[<-|[<-|[]]]] h0; [discriminate|discriminate|]. intros [E|[]]. discriminate.
  - exists [(s2l "x", 9)]. split; [reflexivity|simpl; auto].
  - intros m (ps & e & i). vm_compute in e. injection e as <-. destruct i as [E|[]]. discriminate.
Qed.

Print Assumptions C68_sound.
Print Assumptions C68_complete.
Print Assumptions C68_inherited.
Print Assumptions C68_tidy.
Print Assumptions C68_mixin_refuted.
Print Assumptions C68_mixin_hides_refuted.
Print Assumptions C68_sorted_name_refuted.
Print Assumptions C68_accessor_refuted.
