(** C66: a property type supplies its defaults as if they were written in the declaration. *)
From Coq Require Import String List NArith Bool Lia Arith Sorting.Sorted.
Import ListNotations.
From Verif Require Import Prelude TraitModel TraitProofs TraitProps InitModel InitSpec InitProofs.
Local Open Scope list_scope.

(** ** The arguments of a declaration *)

(** Of the arguments that are written, none is lost, and none is replaced by a default of a type.  (A
    [default] which looks like a "none" may be taken for [v1_none].)  Whatever the classes in the method
    resolution order are, as long as no two take arguments of the same name. *)
Theorem C66_given : forall V (looks : V -> bool) l kw args, proper l -> NoDup (names kw) ->
  run looks l kw = Some args ->
  (forall n v, In (n, v) kw -> In (n, v) args \/ (n = s2l "default" /\ looks v = true /\ In (s2l "v1_none", v) args)) /\
  (NoDup (flat_map params l) -> forall n v w, In (n, v) kw -> In (n, w) args ->
     w = v \/ (n = s2l "default" /\ looks v = true /\ In (s2l "v1_none", v) args)).
Proof.
  intros V looks l kw args hp nd h. split; [exact (run_kept looks l kw args hp nd h)|].
  intros ht n v w i j. destruct (run_kept looks l kw args hp nd h n v i) as [k|k]; auto. left.
  destruct (run_names looks l kw args h hp nd ht) as [na _].
  apply (find_arg_iff args n v na) in k. apply (find_arg_iff args n w na) in j. congruence.
Qed.

(** Nothing is made up: what a property gets was written or is a default of one of the classes. *)
Theorem C66_nothing_else : forall V (looks : V -> bool) l kw args, run looks l kw = Some args ->
  forall n v, In (n, v) args ->
    let came m := In (m, v) kw \/ exists d, In (Supplies d) l /\ In (m, v) d in
    came n \/ (n = s2l "v1_none" /\ looks v = true /\ came (s2l "default")).
Proof. intros V looks l kw args h n v i. exact (run_source looks l kw args h n v i). Qed.

(** ** The defaults of a property type *)

(** Declarations made in the meantime, of any types; each may compose and register types, and may fail. *)
Inductive later : reg -> reg -> Prop :=
| now_ R : later R R
| then_ R R1 R2 t k r : later R R1 -> declare R1 t k = (R2, r) -> later R R2.

(** The same type is chosen (or the same exception raised). *)
Theorem C66_same_type : forall V (looks : V -> bool) R bases s dt d R1 S R2 kt kw,
  make_type looks R bases s dt d = (R1, TOk S) -> NoDup (names d) ->
  exists full, written_out d kw full /\
    declare R2 S (shape looks kt full) = declare R2 S (shape looks kt kw).
Proof.
  intros V looks R bases s dt d R1 S R2 kt kw hm nd. exists (fill d kw). split; [apply fill_written|].
  destruct (new_type_mro _ _ _ _ _ hm) as (_ & _ & _ & _ & _ & _ & ed). cbn [b_defaults] in ed.
  unfold declare. cbn [new_chain]. rewrite ed, mix_fill; auto.
Qed.

(** A type made from Property with a new trait name, any time later, called with any arguments: if the
    trait's name sorts first among those of the type that is chosen, then the outcome is as if the
    defaults had been written in the call.  ([inits]: the [__init__] methods; classes which only join others
    have none.) *)
Theorem C66_as_written : forall V (looks : V -> bool) inits R root s dt d R1 S R2 kt kw R3 u b,
  good R -> lineal R -> lookup R [] = Some root -> s <> [] -> (forall c, known R c -> ~ In s (p_traits c)) ->
  make_type looks R [root] s dt d = (R1, TOk S) -> NoDup (names d) -> later R1 R2 ->
  inits (p_id S) = Supplies d ->
  (forall c, known R3 c -> p_own c = None -> p_traits c <> [] -> inits (p_id c) = NoInit) ->
  declare R2 S (shape looks kt kw) = (R3, TOk (u, b)) -> hd_error (p_traits u) = Some s ->
  b = true /\
  exists full, written_out d kw full /\
    construct looks inits R2 S kt kw = construct looks inits R2 S kt full.
Proof.
  intros V looks inits R root s dt d R1 S R2 kt kw R3 u b g ln hroot ne fresh hm nd hl hS hj hd hh.
  destruct (make_placed R root {| b_trait := Some s; b_safe := None; b_init := [s2l "self"]; b_defaults := shape looks dt d |} R1 S s g ln hroot eq_refl ne fresh hm) as [g1 p1].
  assert (gp : good R2 /\ placed S s R2).
  { clear - hl g1 p1. induction hl as [|R R1 R2 t k r hl IH h]; auto. destruct (IH g1 p1) as [g2 p2].
    exact (declare_P (placed S s) (placed_step S s) _ _ _ _ _ g2 p2 h). }
  destruct gp as [g2 p2].
  destruct (declare_P (placed S s) (placed_step S s) _ _ _ _ _ g2 p2 hd) as [g3 p3].
  assert (ku : known R3 u).
  { pose proof hd as hd'. unfold declare in hd'. destruct (new_chain 100 R2 S S false _) as [R' [u'|]] eqn:en; [|discriminate].
    injection hd' as -> -> _. now destruct (new_chain_spec _ _ _ _ _ _ _ _ g2 en) as (_ & _ & _ & k & _). }
  destruct (pl_led _ _ _ p3 u ku hh) as (pre & rest & em & h1 & h2).
  assert (eb : b = true).
  { pose proof hd as hd'. unfold declare in hd'. destruct (new_chain 100 R2 S S false _) as [R' [u'|]] eqn:en; [|discriminate].
    injection hd' as -> -> <-. apply nmem_in. rewrite em. apply in_or_app. simpl; auto. }
  split; auto. exists (fill d kw). split; [apply fill_written|].
  destruct (new_type_mro _ _ _ _ _ hm) as (_ & _ & _ & _ & _ & _ & ed). cbn [b_defaults] in ed.
  assert (hd2 : declare R2 S (shape looks kt (fill d kw)) = (R3, TOk (u, b))).
  { rewrite <- hd. unfold declare. cbn [new_chain]. rewrite ed, mix_fill; auto. }
  unfold construct. rewrite hd, hd2, eb, em, map_app. cbn [map]. rewrite hS.
  rewrite run_front; auto.
  intros x i. apply in_map_iff in i as [i0 [<- i]]. destruct (h2 _ i) as (c & kc & <- & oc & sc).
  apply hj; auto. intros e. rewrite e in sc. destruct sc.
Qed.

(** But a default nobody takes behind the type is an error in every call, whatever is written: *)
Theorem C66_late : forall V (looks : V -> bool) before d behind n kw,
  In n (names d) -> ~ In n (flat_map params behind) -> n <> s2l "default" -> (forall ns, ~ In (Last ns) before) ->
  run looks (before ++ Supplies d :: behind) kw = None.
Proof. intros V looks before d behind n kw h1 h2 h3 h4. exact (run_late looks d behind n h1 h2 h3 before kw h4). Qed.

(** ** Examples *)
Lemma stmt_lineal R d : good R -> lineal R -> fst d <> [] -> lineal (stmt R d).
Proof.
  intros g ln ne. unfold stmt. set (bases := flat_map _ (fst d)).
  assert (kb : forall u, In u bases -> known R u).
  { intros u i. unfold bases in i. apply in_flat_map in i as [k [_ i]].
    destruct (lookup R (map s2l k)) eqn:e; [|destruct i]. destruct i as [<-|[]]. eapply lookup_known; eauto. }
  destruct (new_type R bases (snd d)) as [R' [t|e]] eqn:en; simpl.
  - eapply new_type_lineal; eauto.
  - apply new_type_err in en as [-> _]. auto.
Qed.
Lemma stmts_lineal l : forall R, good R -> lineal R -> stmts_ok R l = true -> lineal (fold_left stmt l R).
Proof.
  induction l as [|d l IH]; simpl; intros R g ln h; auto.
  apply andb_true_iff in h as [h h3]. apply andb_true_iff in h as [h1 h2].
  assert (ne : fst d <> []) by (intros e; rewrite e in h1; discriminate).
  apply IH; auto; [now apply stmt_good|now apply stmt_lineal].
Qed.
Lemma root_lineal : lineal root_reg.
Proof.
  assert (E : exists t, r_types root_reg = [([], t)] /\ p_mro t = [0]).
  { vm_compute. eexists; repeat split; reflexivity. }
  destruct E as (t & e & e3).
  assert (k1 : forall u, known root_reg u -> u = t).
  { unfold known. rewrite e. intros u [E|[]]. congruence. }
  constructor.
  - intros u c hu hc _. rewrite (k1 u hu), (k1 c hc). intros x; auto.
  - intros u hu. rewrite (k1 u hu), e3. constructor; [intros []|constructor].
Qed.
(** The classes of the library meet the hypotheses. *)
Lemma stock_lineal : lineal stock.
Proof.
  assert (e : stock = fold_left stmt (tl statements) root_reg) by (vm_compute; reflexivity).
  rewrite e. apply stmts_lineal; [apply root_good|apply root_lineal|]. vm_compute. reflexivity.
Qed.

Module Ex.
Local Open Scope string_scope.
Local Open Scope list_scope.
(** Values: [v1_none]-like ones are those below 10. *)
Definition looks (v : nat) : bool := Nat.ltb v 10.
Definition A (s : string) (v : nat) : str * nat := (s2l s, v).

(** The [__init__] methods of the library, in the order of [TraitModel.statements], and that of a type made
    after all of them, number 25.  (Those for collections are not modelled.) *)
Definition library (d : list (str * nat)) (i : nat) : init_body nat :=
  match i with
  | 0 => Last (map s2l ["isa"; "coerce"; "check"; "required"; "default"; "traits"; "extraneous"; "empty_attr"; "doc"])
  | 1 => Takes [s2l "lazy"]
  | 6 => TakesV1
  | 7 => Takes [s2l "compare_as"]
  | 12 => Takes (map s2l ["json_name"; "json_in"; "json_out"])
  | 16 | 17 | 20 | 21 => Supplies [A "isa" 16]
  | 18 | 19 | 22 => Supplies [A "isa" 18; A "coerce" 19]
  | 23 | 24 => Supplies [A "isa" 23; A "coerce" 24; A "json_out" 25]
  | 25 => Supplies d
  | _ => NoInit
  end.

Definition root : ptype :=
  match lookup stock [] with
  | Some t => t
  | None => {| p_id := 0; p_own := None; p_traits := []; p_all_duck := []; p_defaults := no_kwargs; p_safe := false; p_mro := [0] |}
  end.
(** [make_property_type("X", trait_name=trait, **d)], then [X( **kw)] *)
Definition made (trait : string) (d kw : list (str * nat)) : option (outcome nat) :=
  match make_type looks stock [root] (s2l trait) None d with
  | (R, TOk t) => Some (snd (construct looks (library d) R t None kw))
  | _ => None
  end.

Definition joiners_idle (R : reg) (inits : nat -> init_body nat) : bool :=
  forallb (fun kt => match p_own (snd kt), p_traits (snd kt) with
                     | None, _ :: _ => match inits (p_id (snd kt)) with NoInit => true | _ => false end
                     | _, _ => true
                     end) (r_types R).
Lemma joiners_idle_ok R inits : joiners_idle R inits = true ->
  forall c, known R c -> p_own c = None -> p_traits c <> [] -> inits (p_id c) = NoInit.
Proof.
  unfold joiners_idle. rewrite forallb_forall. intros h c k o t. specialize (h _ k). cbn [snd] in h.
  rewrite o in h. destruct (p_traits c); [congruence|]. destruct (inits (p_id c)); congruence.
Qed.
Lemma fresh_ok s R : forallb (fun kt => negb (smem s (p_traits (snd kt)))) (r_types R) = true ->
  forall c, known R c -> ~ In s (p_traits c).
Proof.
  rewrite forallb_forall. intros h c k i. specialize (h _ k). cbn [snd] in h. apply smem_in in i.
  rewrite i in h. discriminate.
Qed.
End Ex.
Import Ex.
Local Open Scope string_scope.
Local Open Scope list_scope.

(** A type with the defaults json_out and isa and a trait name that sorts early; after it was made, a
    StringProperty(json_name=...) is declared, which composes and registers another type; then the type is called
    with a check and with another isa. *)
Definition defaults66 := [A "json_out" 50; A "isa" 51].
Definition written66 := [A "check" 60; A "isa" 61].
Definition or_root {A} (r : tres ptype) (f : ptype -> A) : A := match r with TOk t => f t | TErr _ => f root end.
Definition R1_66 : reg := Eval vm_compute in fst (make_type looks stock [root] (s2l "amount") None defaults66).
Definition t66 : ptype := Eval vm_compute in
  match snd (make_type looks stock [root] (s2l "amount") None defaults66) with TOk t => t | TErr _ => root end.
Definition str66 : ptype := Eval vm_compute in match lookup R1_66 [s2l "str"] with Some c => c | None => root end.
Definition R2_66 : reg := Eval vm_compute in fst (declare R1_66 str66 (kw ["json_name"])).
Definition R3_66 : reg := Eval vm_compute in fst (declare R2_66 t66 (shape looks None written66)).
Definition u66 : ptype := Eval vm_compute in
  match snd (declare R2_66 t66 (shape looks None written66)) with TOk u => fst u | TErr _ => root end.
Example C66_case :
  make_type looks stock [root] (s2l "amount") None defaults66 = (R1_66, TOk t66) /\
  later R1_66 R2_66 /\ length (r_types R1_66) < length (r_types R2_66) < length (r_types R3_66) /\
  good stock /\ lineal stock /\ lookup stock [] = Some root /\
  (forall c, known stock c -> ~ In (s2l "amount") (p_traits c)) /\ NoDup (names defaults66) /\
  library defaults66 (p_id t66) = Supplies defaults66 /\
  declare R2_66 t66 (shape looks None written66) = (R3_66, TOk (u66, true)) /\
  (forall c, known R3_66 c -> p_own c = None -> p_traits c <> [] -> library defaults66 (p_id c) = NoInit) /\
  hd_error (p_traits u66) = Some (s2l "amount") /\
  construct looks (library defaults66) R2_66 t66 None written66 =
    (R3_66, Made u66 [A "json_out" 50; A "check" 60; A "isa" 61]).
Proof.
  split; [vm_compute; reflexivity|].
  split; [apply then_ with (R1 := R1_66) (t := str66) (k := kw ["json_name"])
            (r := snd (declare R1_66 str66 (kw ["json_name"]))); [apply now_|vm_compute; reflexivity]|].
  split; [vm_compute; lia|].
  split; [apply stock_good|]. split; [apply stock_lineal|]. split; [vm_compute; reflexivity|].
  split; [apply fresh_ok; vm_compute; reflexivity|].
  split; [vm_compute; constructor; [intros [?|[]]; discriminate|constructor; [intros []|constructor]]|].
  split; [vm_compute; reflexivity|]. split; [vm_compute; reflexivity|].
  split; [apply joiners_idle_ok; vm_compute; reflexivity|].
  split; vm_compute; reflexivity.
Qed.

(** The order of the method resolution matters, and with it the trait's name: with the name which
    make_property_type gives the first anonymous type, "trait1", JsonProperty comes first in the composed type, and
    what the type supplies afterwards is refused by Property.  So the type can not be used, even if the argument is
    written; the very same arguments written for Property, or for the type under another name, are fine. *)
Definition args_of (o : option (outcome nat)) : option (list (str * nat)) :=
  match o with Some (Made _ a) => Some a | Some (Raw _) | Some (Failed _) | None => None end.
Theorem C66_trait_name_refuted : exists d, written_out d [] d /\
  made "trait1" d [] = Some (Failed TTypeErr) /\ made "trait1" d d = Some (Failed TTypeErr) /\
  args_of (made "amount" d []) = Some d /\
  args_of (Some (snd (construct looks (library []) stock root None d))) = Some d.
Proof.
  exists [A "json_out" 50]. split; [intros n v; simpl; tauto|]. repeat split; vm_compute; reflexivity.
Qed.
(** The same for a lazy default and for compare_as. *)
Example C66_trait_name_case : 
  made "trait1" [A "lazy" 50; A "default" 51] [] = Some (Failed TTypeErr) /\
  made "trait1" [A "compare_as" 50] [] = Some (Failed TTypeErr) /\
  args_of (made "amount" [A "lazy" 50; A "default" 51] []) = Some [A "lazy" 50; A "default" 51] /\
  args_of (made "amount" [A "compare_as" 50] []) = Some [A "compare_as" 50].
Proof. repeat split; vm_compute; reflexivity. Qed.

(** And a [default] which is written is not preferred to the type's, if it looks like a "none" and
    V1Property comes before the type in the order: it is kept as v1_none, but the default value is the type's. *)
Theorem C66_default_refuted : exists d given, In (A "default" 5) given /\
  args_of (made "trait1" d given) = Some [A "v1_none" 5; A "isa" 60; A "default" 50] /\
  args_of (made "amount" d given) = Some [A "v1_none" 5; A "isa" 60] /\
  args_of (Some (snd (construct looks (library []) stock root None given))) = Some [A "v1_none" 5; A "isa" 60].
Proof.
  exists [A "default" 50], [A "default" 5; A "isa" 60]. split; [left; reflexivity|].
  repeat split; vm_compute; reflexivity.
Qed.

(** The chain of that type, for the theorems about [run]: its classes take arguments of different names. *)
Definition chain66 := map (library defaults66) (p_mro u66).
Example C66_run_case : proper chain66 /\ NoDup (flat_map params chain66) /\ NoDup (names written66) /\
  run looks chain66 written66 = Some [A "json_out" 50; A "check" 60; A "isa" 61].
Proof.
  split; [|split; [|split]].
  - intros d h. vm_compute in h. repeat (destruct h as [h|h]; [try discriminate h; injection h as <-|]); try contradiction.
    vm_compute. constructor; [intros [?|[]]; discriminate|constructor; [intros []|constructor]].
  - vm_compute. repeat (constructor; [intros h; repeat (destruct h as [h|h]; [discriminate|]); exact h|]). constructor.
  - vm_compute. constructor; [intros [?|[]]; discriminate|constructor; [intros []|constructor]].
  - vm_compute. reflexivity.
Qed.
Example C66_late_case : 
  run looks [Takes [s2l "json_out"]; Supplies [A "json_out" 50]; library [] 0] [A "json_out" 51] = None /\
  ~ In (s2l "json_out") (flat_map params [library [] 0]).
Proof.
  split; [reflexivity|]. vm_compute. intros h. repeat (destruct h as [h|h]; [discriminate|]). exact h.
Qed.

Print Assumptions C66_given.
Print Assumptions C66_nothing_else.
Print Assumptions C66_same_type.
Print Assumptions C66_as_written.
Print Assumptions C66_late.
Print Assumptions C66_trait_name_refuted.
Print Assumptions C66_default_refuted.
