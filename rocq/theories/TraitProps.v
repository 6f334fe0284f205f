(** C33: composition of property types from traits. *)
From Coq Require Import String List NArith Bool Lia Arith Sorting.Sorted.
Import ListNotations.
From Verif Require Import Prelude TraitModel TraitProofs.

(** ** The registry of the library *)
Lemma stmt_good R d : good R -> fst d <> [] ->
  forallb (fun k => registered R (map s2l k)) (fst d) = true -> good (stmt R d).
Proof.
  intros g ne h. unfold stmt. set (bases := flat_map _ (fst d)).
  assert (nb : bases <> []).
  { destruct (fst d) as [|k ks] eqn:e; [congruence|]. unfold bases. simpl in *.
    apply andb_true_iff in h as [h _]. unfold registered in h. destruct (lookup R (map s2l k)); [|discriminate].
    simpl. discriminate. }
  assert (kb : forall u, In u bases -> known R u).
  { intros u i. unfold bases in i. apply in_flat_map in i as [k [_ i]].
    destruct (lookup R (map s2l k)) eqn:e; [|destruct i]. destruct i as [<-|[]].
    eapply lookup_known; eauto. }
  destruct (new_type R bases (snd d)) as [R' [t|e]] eqn:en; simpl.
  - eapply new_type_ok in en as [g' _]; eauto.
  - apply new_type_err in en as [-> _]. auto.
Qed.

Fixpoint stmts_ok (R : reg) (l : list (list (list string) * body)) : bool :=
  match l with
  | [] => true
  | d :: l => negb (match fst d with [] => true | _ => false end) &&
              forallb (fun k => registered R (map s2l k)) (fst d) && stmts_ok (stmt R d) l
  end.
Lemma stmts_good l : forall R, good R -> stmts_ok R l = true -> good (fold_left stmt l R).
Proof.
  induction l as [|d l IH]; simpl; intros R g h; auto.
  apply andb_true_iff in h as [h h3]. apply andb_true_iff in h as [h1 h2].
  apply IH; auto. apply stmt_good; auto. intros e. rewrite e in h1. discriminate.
Qed.

(** The registry with the class Property only. *)
Definition root_reg : reg := stmt {| r_types := []; r_ducks := [] |} (hd ([], empty_body) statements).
Lemma root_good : good root_reg.
Proof.
  assert (E : exists t, r_types root_reg = [([], t)] /\ p_traits t = [] /\ p_id t = 0 /\ p_mro t = [0] /\ p_own t = None
                        /\ r_ducks root_reg = []).
  { vm_compute. eexists; repeat split; reflexivity. }
  destruct E as (t & e & e1 & e2 & e3 & e4 & e5).
  assert (k1 : forall u, known root_reg u -> u = t).
  { unfold known. rewrite e. intros u [E|[]]. congruence. }
  assert (k2 : known root_reg t) by (unfold known; rewrite e, e1; simpl; auto).
  constructor.
  - unfold keys. rewrite e. simpl. constructor; [intros []|constructor].
  - rewrite e. intros k u [E|[]]. injection E as <- <-. split; auto. constructor.
  - rewrite e. simpl. now rewrite e2.
  - intros u hu. rewrite (k1 u hu), e2, e3. split; [eauto|]. split; [simpl; auto|].
    intros i [<-|[]]. exists t. auto.
  - exists t. split; [|auto]. unfold lookup. rewrite e. reflexivity.
  - intros u s hu. rewrite (k1 u hu), e1, e3. split; [intros []|].
    intros [i [_ [c [hc [_ ho]]]]]. rewrite (k1 c hc) in ho. congruence.
  - rewrite e5. intros a k u [].
Qed.
Lemma stock_good : good stock.
Proof.
  assert (e : stock = fold_left stmt (tl statements) root_reg) by (vm_compute; reflexivity).
  rewrite e. apply stmts_good; [apply root_good|]. vm_compute. reflexivity.
Qed.

Local Opaque stock.

(** ** Composition *)

(** [s] is the [__trait__] of one of the ancestors of [t] (itself included). *)
Definition inherits (R : reg) (t : ptype) (s : str) : Prop :=
  exists c, known R c /\ In (p_id c) (p_mro t) /\ p_own c = Some s.

(** If the composition succeeds, there is a type registered under exactly the wanted
    traits, and these are exactly the traits its ancestors declare. *)
Theorem C33_composed R wanted R' : good R -> canonical wanted -> create R wanted = (R', TOk tt) ->
  exists t, lookup R' wanted = Some t /\ p_traits t = wanted /\
            forall s, In s wanted <-> inherits R' t s.
Proof.
  intros g cw h. destruct (create_spec _ _ _ _ g cw h) as (g' & _ & _ & _ & hr).
  unfold registered in hr. destruct (lookup R' wanted) as [t|] eqn:e; [|discriminate].
  exists t. destruct (lookup_known _ _ _ g' e) as [kt et]. split; auto. split; auto.
  intros s. rewrite <- et at 1. rewrite (g_own _ g' _ _ kt). unfold inherits, own_of. split.
  - intros [i [hi [c [hc [<- ho]]]]]. eauto.
  - intros [c [hc [hi ho]]]. exists (p_id c). eauto.
Qed.

(** Whether or not it succeeds, every type registered before stays as it was, and every
    new type has no trait beyond the wanted ones and declares none of its own. *)
Theorem C33_untouched R wanted : good R -> canonical wanted ->
  let R' := fst (create R wanted) in
  good R' /\ r_ducks R' = r_ducks R /\
  (forall k t, lookup R k = Some t -> lookup R' k = Some t) /\
  (forall k t, lookup R' k = Some t -> lookup R k = Some t \/ (p_own t = None /\ incl (p_traits t) wanted)).
Proof.
  intros g cw R'. destruct (create R wanted) as [R1 r] eqn:h.
  destruct (create_spec _ _ _ _ g cw h) as (g' & [ex _] & wi & hd & _). subst R'. simpl.
  split; auto. split; auto. split; auto. intros k t e. destruct (lookup_known _ _ _ g' e) as [kt et].
  destruct (wi _ kt) as [h'|h']; auto. left. rewrite <- et. now apply known_lookup.
Qed.

(** The loop always ends, after at most [2 ^ n] rounds for [n] traits, and never asks for
    the maximum of an empty set. *)
Theorem C33_terminates R wanted : good R -> canonical wanted ->
  snd (create R wanted) <> TErr TDiverges /\ snd (create R wanted) <> TErr TValueErr.
Proof.
  intros g cw. destruct (create R wanted) as [R1 r] eqn:h.
  destruct (create_spec _ _ _ _ g cw h) as (_ & _ & _ & _ & hr). simpl.
  destruct r as [|e]; [split; discriminate|].
  destruct hr as [->|[->|[->|[->|[-> _]]]]]; split; discriminate.
Qed.

(** If there is exactly one longest type among those within the wanted traits which have
    the first of them, and some type supplies all it lacks, then the composition
    succeeds, unless Python finds no method resolution order. *)
Theorem C33_completes R wanted b o : good R -> canonical wanted ->
  registered R b = true -> registered R o = true -> incl b wanted -> incl o wanted ->
  (forall s, In s wanted -> In s b \/ In s o) ->
  hd_error b = hd_error wanted -> wanted <> [] ->
  (forall k, registered R k = true -> incl k wanted -> hd_error k = hd_error wanted ->
     k <> b -> length k < length b) ->
  snd (create R wanted) = TOk tt \/ snd (create R wanted) = TErr TTypeErr.
Proof.
  intros g cw rb ro ib io hc hd0 nw hl. unfold create, create_with.
  set (st := filter (fun k => subset k wanted) (keys R)).
  assert (hst : forall k, In k st <-> registered R k = true /\ incl k wanted).
  { intros k. unfold st. rewrite filter_In, subset_incl, <- registered_keys. reflexivity. }
  assert (forallb (fun s => existsb (smem s) st) wanted = true) as ->.
  { apply forallb_forall. intros s i. apply existsb_exists. destruct (hc s i) as [j|j].
    - exists b. split; [apply hst; auto|now apply smem_in].
    - exists o. split; [apply hst; auto|now apply smem_in]. }
  cbn [mix_loop]. destruct (registered R wanted) eqn:er; [simpl; auto|].
  assert (hs : forall k, In k (filter (starts wanted) st) <-> In k st /\ hd_error k = hd_error wanted).
  { intros k. rewrite filter_In. unfold starts. destruct k as [|x k], wanted as [|y w]; try congruence; simpl.
    - intuition; try discriminate.
    - rewrite str_eqb_eq. split; intros [a e]; split; congruence. }
  assert (ibs : In b (filter (starts wanted) st)) by (apply hs; split; [apply hst|]; auto).
  destruct (filter (starts wanted) st) as [|k0 ks] eqn:ef; [destruct ibs|]. rewrite <- ef in *. clear ef.
  set (sw := filter (starts wanted) st) in *.
  assert (em : list_max (map (@length str) sw) = length b).
  { apply Nat.le_antisymm.
    - apply list_max_le. apply Forall_forall. intros n i. apply in_map_iff in i as [k [<- i]].
      apply hs in i as [i e]. apply hst in i as [rk ik].
      destruct (key_eq_dec k b) as [->|ne]; auto. specialize (hl k rk ik e ne). lia.
    - apply list_max_ge. now apply in_map. }
  rewrite em.
  destruct (mix_bases_one wanted b (ksort sw) R st o) as [(R' & st' & E & hr)|E]; auto.
  - now apply ksort_in.
  - apply ksort_nodup. apply NoDup_filter, NoDup_filter. apply (g_keys _ g).
  - intros k i ne. rewrite ksort_in in i. apply hs in i as [i e]. apply hst in i as [rk ik].
    specialize (hl k rk ik e ne). lia.
  - intros k i. apply hst in i. tauto.
  - apply hst; auto.
  - apply hst; auto.
  - intros s i. apply in_or_app. auto.
  - rewrite E. left. assert (e : exists n, 2 ^ length wanted = S n).
    { exists (pred (2 ^ length wanted)). pose proof (Nat.pow_nonzero 2 (length wanted)). lia. }
    destruct e as [n ->]. cbn [mix_loop]. rewrite hr. reflexivity.
  - rewrite E. right. reflexivity.
Qed.

(** ** Declarations *)

(** What [has] selects is a registered type whose traits are exactly those of the type
    called, those listed, and those implied by arguments it does not know, changed by
    the rules about [unsafe], [safe] and [v1].  Nothing registered is changed. *)
Theorem C33_has R self positional k R' t : good R -> has R self positional k = (R', TOk t) ->
  positional = false /\ lookup R' (p_traits t) = Some t /\
  (forall s, In s (p_traits t) <-> trait_rule (asked R self k) (asked_safe R self k) (asked_v1 k) s) /\
  (forall k u, lookup R k = Some u -> lookup R' k = Some u).
Proof.
  intros g h. destruct (has_spec _ _ _ _ _ _ g h) as (hp & g' & [ex _] & _ & kt & hs & _ & _).
  split; auto. split; auto. now apply known_lookup.
Qed.

Lemma duck_traits_ext R R' ks : r_ducks R = r_ducks R' -> forall args ex sf,
  duck_traits R ks args ex sf = duck_traits R' ks args ex sf.
Proof.
  intros e. induction args as [|[a v] args IH]; cbn [duck_traits]; intros ex sf; auto.
  unfold implied, ducks_of. rewrite <- e. destruct (smem a ks); auto.
  destruct (nodup _ _) as [|? [|? ?]]; auto.
Qed.

(** Asking again gives the same type and creates nothing, whatever was declared in
    between: it is enough that the registry has only grown by types. *)
Theorem C33_again R self positional k R' t R'' : good R -> has R self positional k = (R', TOk t) ->
  (forall k u, lookup R' k = Some u -> lookup R'' k = Some u) -> r_ducks R'' = r_ducks R' ->
  has R'' self positional k = (R'', TOk t).
Proof.
  intros g h hx hdk. destruct (has_spec _ _ _ _ _ _ g h) as (_ & g' & _ & hd & kt & _ & _ & _).
  revert h. unfold has. destruct positional; [discriminate|].
  rewrite (duck_traits_ext R'' R) by congruence.
  match goal with |- context[duck_traits R ?a ?b ?c ?d] => destruct (duck_traits R a b c d) as [[extra safe]|] end; [|discriminate].
  set (wanted := key_of _). intros h.
  assert (e : lookup R' wanted = Some t).
  { destruct (registered R wanted).
    - destruct (lookup R wanted) eqn:el; [|discriminate]. injection h as <- <-. auto.
    - destruct (create R wanted) as [R1 [?|?]]; [|discriminate].
      destruct (lookup R1 wanted) eqn:el; [|discriminate]. injection h as <- <-. auto. }
  apply hx in e. unfold registered. rewrite e. cbv iota beta. rewrite e. reflexivity.
Qed.

(** Calling [Property] itself: the object is initialised and its type has exactly the
    traits asked for. *)
Theorem C33_property_call R root k R' t b : good R -> lookup R [] = Some root ->
  p_defaults root = no_kwargs -> declare R root k = (R', TOk (t, b)) ->
  b = true /\ lookup R' (p_traits t) = Some t /\
  forall s, In s (p_traits t) <->
    trait_rule (asked R root k) (asked_safe R root k) (asked_v1 k) s.
Proof.
  intros g hroot hdef. unfold declare. cbn [new_chain]. rewrite hdef.
  destruct (g_root _ g) as [u [h1 [h2 h3]]]. rewrite hroot in h1. injection h1 as <-.
  assert (ek : mix_kwargs no_kwargs k = k).
  { destruct k as [[l|] args]; unfold mix_kwargs, no_kwargs; simpl; f_equal;
    induction args as [|a args IH]; simpl; congruence. }
  rewrite ek. destruct (has R root false k) as [R1 [u|e]] eqn:eh; [|discriminate].
  rewrite h2, h3. simpl after. cbv iota. intros E. injection E as <- <- <-.
  destruct (has_spec _ _ _ _ _ _ g eh) as (_ & g' & _ & _ & kt & hs & _ & _).
  split; [|split; auto].
  - unfold subclass. apply nmem_in. rewrite h2. apply (g_mro _ g' _ kt).
  - now apply known_lookup.
Qed.

(** Calling any other type: the registry only grows, the object has all traits of the
    type called, and if the type called declares a trait which no other type declares,
    the object is an instance of it and hence initialised. *)
Theorem C33_call R self k R' t b : good R -> known R self -> declare R self k = (R', TOk (t, b)) ->
  good R' /\ (forall k u, lookup R k = Some u -> lookup R' k = Some u) /\
  lookup R' (p_traits t) = Some t /\
  (forall s, In s (p_traits self) -> s <> s2l "unsafe" -> In s (p_traits t)) /\
  (forall s, p_own self = Some s -> s <> s2l "unsafe" ->
     (forall c, known R c -> p_own c = Some s -> c = self) -> b = true).
Proof.
  intros g ks. unfold declare. destruct (new_chain 100 R self self false k) as [R1 [u|e]] eqn:en; [|discriminate].
  intros E; injection E as <- <- <-.
  destruct (new_chain_spec _ _ _ _ _ _ _ _ g en) as (g' & [ex ex2] & _ & kt & hn & hs).
  split; auto. split; auto. split; [now apply known_lookup|]. split; auto.
  intros s ho ne hu. apply nmem_in.
  assert (i : In s (p_traits u)).
  { apply hs; auto. apply (g_own _ g _ _ ks). exists (p_id self). split.
    - destruct (g_mro _ g _ ks) as [[l ->] _]. simpl; auto.
    - exists self. auto. }
  apply (g_own _ g' _ _ kt) in i as [i [hi [c [hc [<- hoc]]]]].
  destruct (hn _ hc) as [h|h]; [|congruence]. rewrite <- (hu c h hoc). auto.
Qed.

(** ** Concrete cases *)
Definition K (l : list string) : list str := map s2l l.
Definition call (R : reg) (t : list string) (k : kwargs) : reg * tres (list str * bool) :=
  match lookup R (K t) with
  | None => (R, TErr TKeyErr)
  | Some t => match declare R t k with
              | (R, TOk (u, b)) => (R, TOk (p_traits u, b))
              | (R, TErr e) => (R, TErr e)
              end
  end.
Local Open Scope string_scope.
Local Open Scope list_scope.

(** DateProperty() needs date, json and safe: there is no such type at first. *)
Example C33_case : canonical (K ["date"; "json"; "safe"]) /\ lookup stock (K ["date"; "json"; "safe"]) = None /\
  snd (create stock (K ["date"; "json"; "safe"])) = TOk tt /\
  snd (call stock ["date"] (kw [])) = TOk (K ["date"; "json"; "safe"], true).
Proof.
  split; [|split; [|split]]; try (vm_compute; reflexivity).
  unfold canonical. repeat constructor; vm_compute; reflexivity.
Qed.
Example C33_completes_case :
  let w := K ["date"; "json"; "safe"] in let b := K ["date"] in let o := K ["json"; "safe"] in
  registered stock b = true /\ registered stock o = true /\ incl b w /\ incl o w /\
  (forall s, In s w -> In s b \/ In s o) /\ hd_error b = hd_error w /\ w <> [] /\
  forall k, registered stock k = true -> incl k w -> hd_error k = hd_error w -> k <> b -> length k < length b.
Proof.
  cbv zeta. split; [vm_compute; reflexivity|]. split; [vm_compute; reflexivity|].
  split; [intros s [<-|[]]; simpl; auto|]. split; [intros s [<-|[<-|[]]]; simpl; auto|].
  split; [intros s [<-|[<-|[<-|[]]]]; simpl; auto|]. split; [reflexivity|]. split; [discriminate|].
  intros k hr hi hd ne. exfalso. apply registered_keys in hr.
  assert (h : forallb (fun k => negb (subset k (K ["date"; "json"; "safe"])) || negb (starts (K ["date"; "json"; "safe"]) k)
                                || key_eqb k (K ["date"])) (keys stock) = true) by (vm_compute; reflexivity).
  rewrite forallb_forall in h. specialize (h k hr).
  apply subset_incl in hi. rewrite hi in h.
  assert (hs : starts (K ["date"; "json"; "safe"]) k = true).
  { destruct k as [|x k]; [discriminate|]. injection hd as ->. apply str_eqb_refl. }
  rewrite hs in h. simpl in h. apply key_eqb_eq in h. exact (ne h).
Qed.
Example C33_call_case : exists t, lookup stock (K ["str"]) = Some t /\ known stock t /\ p_own t = Some (s2l "str") /\
  (forall c, known stock c -> p_own c = Some (s2l "str") -> c = t) /\
  snd (call stock ["str"] (kw ["json_name"; "required"])) = TOk (K ["json"; "safe"; "str"], true).
Proof.
  destruct (lookup stock (K ["str"])) as [t|] eqn:e; [|exfalso; revert e; vm_compute; discriminate].
  exists t. destruct (lookup_known _ _ _ stock_good e) as [kt et]. split; auto. split; auto.
  assert (ho : option_map p_own (lookup stock (K ["str"])) = Some (Some (s2l "str"))) by (vm_compute; reflexivity).
  rewrite e in ho. injection ho as ho. split; auto. split; [|vm_compute; reflexivity].
  intros c hc hco.
  assert (h : forallb (fun kt => negb (match p_own (snd kt) with Some s => str_eqb s (s2l "str") | None => false end)
                                 || key_eqb (fst kt) (K ["str"])) (r_types stock) = true) by (vm_compute; reflexivity).
  rewrite forallb_forall in h. specialize (h (p_traits c, c) hc). cbn [fst snd] in h.
  rewrite hco, str_eqb_refl in h. cbn [negb orb] in h.
  apply key_eqb_eq in h. pose proof (known_lookup _ _ stock_good hc) as el. rewrite h, e in el. now injection el as ->.
Qed.
Example C33_property_case : exists root, lookup stock [] = Some root /\ p_defaults root = no_kwargs /\
  snd (call stock [] (kw ["isa"; "json_name"; "list_of"])) = TOk (K ["coll"; "json"; "list"; "safe"], true).
Proof.
  destruct (lookup stock []) as [t|] eqn:e; [|exfalso; revert e; vm_compute; discriminate].
  exists t. split; auto. split; [|vm_compute; reflexivity].
  assert (ho : option_map p_defaults (lookup stock []) = Some no_kwargs) by (vm_compute; reflexivity).
  rewrite e in ho. injection ho as ho. auto.
Qed.

(** ** Findings *)

(** The composition looks up the loop variable, not the type it picked (meta.py:200), so
    it depends on what was declared before.  StringProperty(compare_as=f) as the first
    string property of a program is a KeyError; after a plain StringProperty() the very
    same declaration works.  The same goes for DateProperty(lazy=True) and DateProperty(). *)
Theorem C33_history_refuted :
  exists R1 R2, good R1 /\ good R2 /\
    snd (call R1 ["str"] (kw ["compare_as"])) = TErr TKeyErr /\
    snd (call R2 ["str"] (kw ["compare_as"])) = TOk (K ["diffas"; "safe"; "str"], true) /\
    R1 = stock /\ R2 = fst (call stock ["str"] (kw [])) /\
    snd (call stock ["date"] (kw ["lazy"])) = TErr TKeyErr /\
    snd (call (fst (call stock ["date"] (kw []))) ["date"] (kw ["lazy"])) = TOk (K ["date"; "json"; "lazy"; "safe"], true).
Proof.
  exists stock, (fst (call stock ["str"] (kw []))). split; [apply stock_good|]. split.
  - unfold call. destruct (lookup stock (K ["str"])) as [t|] eqn:e; [|apply stock_good].
    destruct (declare stock t (kw [])) as [R r] eqn:ed.
    assert (good R).
    { unfold declare in ed. destruct (new_chain 100 stock t t false (kw [])) as [R1 [u|x]] eqn:en;
      destruct (new_chain_state _ _ _ _ _ _ _ _ stock_good en); injection ed as <- <-; auto. }
    destruct r as [[u b]|]; auto.
  - split; [vm_compute; reflexivity|]. split; [vm_compute; reflexivity|]. split; [reflexivity|].
    split; [reflexivity|]. split; vm_compute; reflexivity.
Qed.

(** A type can be composed and the declaration still fail: the first ListProperty(lazy=True)
    of a program is a PropertyTypeClash, raised after the wanted type has been
    registered; the second one works. *)
Theorem C33_clash_refuted : let first := call stock ["coll"; "list"] (kw ["list_of"; "lazy"]) in
  snd first = TErr TClash /\
  registered (fst first) (K ["coll"; "lazy"; "list"; "safe"]) = true /\
  snd (call (fst first) ["coll"; "list"] (kw ["list_of"; "lazy"])) = TOk (K ["coll"; "lazy"; "list"; "safe"], true).
Proof. cbv zeta. split; [|split]; vm_compute; reflexivity. Qed.

(** Calling a composed type need not give an instance of it: LazySafeProperty(json_name=...)
    is composed from SafeJsonProperty and LazyProperty, so Python does not run __init__. *)
Theorem C33_uninitialised_refuted :
  snd (call stock ["lazy"; "safe"] (kw ["json_name"; "default"])) = TOk (K ["json"; "lazy"; "safe"], false).
Proof. vm_compute. reflexivity. Qed.

(** traits=['unsafe'] is ignored by ListProperty, DictProperty and UnicodeProperty, as the
    [__new__] of their base class adds the trait [safe] again; Property(list_of=...) honours
    it. *)
Theorem C33_unsafe_refuted :
  let u l := {| kw_traits := Some (K ["unsafe"]); kw_args := map (fun s => (s2l s, false)) l |} in
  snd (call stock ["coll"; "list"] (u ["list_of"])) = TOk (K ["coll"; "list"; "safe"], true) /\
  snd (call stock ["coll"; "dict"] (u ["dict_of"])) = TOk (K ["coll"; "dict"; "safe"], true) /\
  snd (call stock ["str"; "unicode"] (u [])) = TOk (K ["safe"; "str"; "unicode"], true) /\
  snd (call stock [] (u ["list_of"])) = TOk (K ["coll"; "list"], true).
Proof. cbv zeta. repeat split; vm_compute; reflexivity. Qed.

(** Two user traits declaring the same argument: using it is an AttributeError from
    building the error message, not the intended AmbiguousPropertyTraitArg. *)
Theorem C33_ambiguous_refuted :
  let user t := ([[]], bd (T t) None ["self"; "colour"] no_kwargs) in
  let R := fold_left stmt [user "red"; user "blue"] stock in
  good R /\ snd (call R [] (kw ["colour"])) = TErr TAttrErr.
Proof.
  cbv zeta. split; [|vm_compute; reflexivity].
  apply stmts_good; [apply stock_good|]. vm_compute. reflexivity.
Qed.

Print Assumptions C33_composed.
Print Assumptions C33_untouched.
Print Assumptions C33_terminates.
Print Assumptions C33_completes.
Print Assumptions C33_has.
Print Assumptions C33_again.
Print Assumptions C33_property_call.
Print Assumptions C33_call.
Print Assumptions C33_history_refuted.
Print Assumptions C33_clash_refuted.
Print Assumptions C33_uninitialised_refuted.
Print Assumptions C33_unsafe_refuted.
Print Assumptions C33_ambiguous_refuted.
