(** C67: functions in declarations are called with arguments which they take. *)
From Coq Require Import String List NArith Bool Arith Lia.
Import ListNotations.
From Verif Require Import Prelude SigModel SigSpec SigProofs.
Local Open Scope list_scope.

(** The model of Python's calls agrees with the reading of signatures in [SigSpec]. *)
Theorem C67_call : forall V s (args : list V), wf_sig s ->
  (accepts s (length args) <-> exists b, bind_args s args [] = Some b) /\
  (forall b, bind_args s args [] = Some b ->
     b_got b = combine (s_posonly s ++ s_args s) args /\ b_surplus b = skipn (length (s_posonly s ++ s_args s)) args /\
     b_extra b = []).
Proof.
  intros V s args wf. destruct (bind_pos s args wf) as [h1 h2].
  assert (h : accepts s (length args) <-> exists b, bind_args s args [] = Some b).
  { split; [intros a; rewrite (h1 a); eauto|]. intros [b e]. apply h2. congruence. }
  split; auto. intros b e. rewrite (h1 (proj2 h (ex_intro _ b e))) in e. injection e as <-. auto.
Qed.

(** ** default= *)

(** A default is accepted iff it can be called without arguments or with one, and then each use of it is a call
    which it accepts, with the object if one argument must be given and without any if not. *)
Theorem C67_default : forall V s, wf_sig s -> no_keyword_needed s -> forall l, must s l ->
  (forall obj : V, 
    (exists got, default_gets obj l got) \/ declare_default (Plain s : callable V) = Refused) /\
  (forall (obj : V) got, default_gets obj l got -> exists m,
    declare_default (Plain s : callable V) = Accepted m /\ call_default (Plain s) m obj = Some (Binding got [] [])) /\
  (declare_default (Plain s : callable V) = Refused <-> ~ accepts s 0 /\ ~ accepts s 1).
Proof.
  intros V s wf hk l hm. pose proof hm as hm'. apply must_required in hm'; auto.
  pose proof (required_length s) as hl. rewrite <- hm' in hl.
  assert (hlp : length l <= length (positional s)) by lia.
  unfold declare_default. cbn [getfullargspec].
  destruct (func_info_spec s wf) as [(a & r & ep & hn & -> & ->)|[hc ->]]; rewrite <- hl in *.
  - assert (hd : hd_error l = Some self_s).
    { rewrite hm'. unfold required. rewrite <- required_length, <- hm', ep. destruct l; [simpl in *; lia|reflexivity]. }
    destruct l as [|p [|q l]]; [simpl in hn; lia| |].
    + simpl in hd. injection hd as ->. simpl. split; [|split].
      * intros obj. left. eexists. constructor.
      * intros obj got g. inversion g; subst. exists true. split; auto. unfold call_default. cbn [call].
        destruct (bind_pos s [obj] wf) as [h _]. rewrite h.
        -- unfold binding_of. rewrite ep. simpl. destruct r; reflexivity.
        -- apply accepts_iff; auto. simpl in *. repeat split; auto; try lia. left. rewrite <- app_length. fold (positional s). lia.
      * split; [discriminate|]. intros [_ h]. exfalso. apply h, accepts_iff; auto. simpl in *. repeat split; auto; try lia.
        left. rewrite <- app_length. fold (positional s). lia.
    + cbn [length Nat.sub]. 
      assert (na : ~ accepts s 0 /\ ~ accepts s 1).
      { split; intros h; apply accepts_iff in h as [h _]; auto; simpl in *; lia. }
      split; [|split].
      * intros obj. right. destruct l; reflexivity.
      * intros obj got g. inversion g.
      * destruct l; tauto.
  - destruct l as [|p [|q l]]; cbn [length].
    + split; [|split].
      * intros obj. left. eexists. constructor.
      * intros obj got g. inversion g; subst. exists false. split; auto. unfold call_default. cbn [call].
        destruct (bind_pos s (@nil V) wf) as [h _]. rewrite h.
        -- unfold binding_of. destruct (positional s); reflexivity.
        -- apply accepts_iff; auto. simpl in *. repeat split; auto; try lia. left. lia.
      * split; [discriminate|]. intros [h _]. exfalso. apply h, accepts_iff; auto. simpl in *. repeat split; auto; try lia. left. lia.
    + split; [|split].
      * intros obj. left. eexists. constructor.
      * intros obj got g. inversion g; subst. exists true. split; auto. unfold call_default. cbn [call].
        destruct (bind_pos s [obj] wf) as [h _]. rewrite h.
        -- unfold binding_of. destruct hm as (o & e & _). fold (positional s) in e. rewrite e. simpl. destruct o; reflexivity.
        -- apply accepts_iff; auto. simpl in *. repeat split; auto; try lia. left. rewrite <- app_length. fold (positional s). lia.
      * split; [discriminate|]. intros [_ h]. exfalso. apply h, accepts_iff; auto. simpl in *. repeat split; auto; try lia.
        left. rewrite <- app_length. fold (positional s). lia.
    + assert (na : ~ accepts s 0 /\ ~ accepts s 1).
      { split; intros h; apply accepts_iff in h as [h _]; auto; simpl in *; lia. }
      split; [|split].
      * intros obj. right. reflexivity.
      * intros obj got g. inversion g.
      * tauto.
Qed.

(** ** compare_as= *)

(** Likewise for compare_as: accepted iff what must be given is at most self and one more parameter; and then each
    comparison calls it with just these. *)
Theorem C67_compare : forall V s, wf_sig s -> no_keyword_needed s -> forall l, must s l ->
  (forall obj value : V, (exists got, compare_gets obj value l got) \/ declare_compare (Plain s : callable V) = Refused) /\
  (forall (obj value : V) got, compare_gets obj value l got -> exists info,
    declare_compare (Plain s : callable V) = Accepted info /\
    call_compare (Plain s) info obj value = Some (Binding got [] [])).
Proof.
  intros V s wf hk l hm. pose proof hm as hm'. apply must_required in hm'; auto.
  pose proof (required_length s) as hl. rewrite <- hm' in hl.
  pose proof hm as (o & eo & _). fold (positional s) in eo.
  assert (fit : forall args : list V, length args = length l ->
            bind_args s args [] = Some (Binding (combine l args) [] [])).
  { intros args ea. destruct (bind_pos s args wf) as [h _]. rewrite h.
    - unfold binding_of. rewrite eo. f_equal. f_equal.
      + clear - ea. revert args ea. induction l as [|x l IH]; intros [|v args] ea; simpl in *; try discriminate.
        * destruct o; reflexivity.
        * f_equal. apply IH. lia.
      + apply skipn_all2. rewrite app_length. lia.
    - apply accepts_iff; auto. repeat split; auto; [lia|]. left. rewrite <- app_length. fold (positional s). lia. }
  unfold declare_compare. cbn [getfullargspec].
  destruct (func_info_spec s wf) as [(a & r & ep & hn & -> & ->)|[hc ->]]; rewrite <- hl in *; cbn [snd].
  - assert (hd : hd_error l = Some (s2l "self")).
    { rewrite hm'. unfold required. rewrite <- required_length, <- hm', ep. destruct l; [simpl in *; lia|reflexivity]. }
    destruct l as [|p [|q [|q' l]]]; [simpl in hn; lia| | |]; simpl in hd; injection hd as ->.
    + split; [intros obj value; left; eexists; constructor|].
      intros obj value got g. inversion g as [|eg|p ne eg|]; subst; [|contradiction]. eexists. split; [reflexivity|].
      unfold call_compare. cbn [call fst snd app length Nat.sub]. now rewrite fit.
    + split; [intros obj value; left; eexists; constructor|].
      intros obj value got g. inversion g; subst. eexists. split; [reflexivity|].
      unfold call_compare. cbn [call fst snd app length Nat.sub]. now rewrite fit.
    + split; [intros obj value; right; reflexivity|]. intros obj value got g. inversion g.
  - destruct l as [|p [|q l]]; cbn [length].
    + split; [intros obj value; left; eexists; constructor|].
      intros obj value got g. inversion g; subst. eexists. split; [reflexivity|].
      unfold call_compare. cbn [call fst snd app]. now rewrite fit.
    + assert (np : p <> s2l "self").
      { destruct hc as [hc|(a & r & e & ne)]; [simpl in hc; lia|]. rewrite eo in e. simpl in e. injection e as -> _. auto. }
      split; [intros obj value; left; eexists; apply gets_value; auto|].
      intros obj value got g. inversion g as [|eg|p' ne eg|]; subst; [contradiction|]. eexists. split; [reflexivity|].
      unfold call_compare. cbn [call fst snd app]. now rewrite fit.
    + split; [intros obj value; right; reflexivity|]. intros obj value got g. inversion g as [| | |q' eg]; subst.
      destruct hc as [hc|(a & r & e & ne)]; [simpl in hc; lia|]. rewrite eo in e. simpl in e. injection e as <- _. contradiction.
Qed.

(** ** What is not a plain function *)

(** A method of some object, a class, an object with [__call__], of which nothing needs to be given: it is
    accepted; but it will be called with the record as an argument.  That is a TypeError unless there is room for it. *)
Theorem C67_bound : forall V s (self : V) p, wf_sig s -> no_keyword_needed s -> must s [p] ->
  (exists b, call (Bound s self) [] [] = Some b) /\
  declare_default (Bound s self) = Accepted true /\
  (forall obj, (exists b, call_default (Bound s self) true obj = Some b) <-> room s 2).
Proof.
  intros V s self p wf hk hm. pose proof hm as hm'. apply must_required in hm'; auto.
  pose proof (required_length s) as hl. rewrite <- hm' in hl. simpl in hl.
  assert (a1 : accepts s 1).
  { apply accepts_iff; auto. repeat split; auto; [lia|]. left. rewrite <- app_length. fold (positional s). lia. }
  split; [|split].
  - destruct (bind_pos s [self] wf) as [h _]. cbn [call]. rewrite h; eauto.
  - unfold declare_default. cbn [getfullargspec].
    destruct (func_info_spec s wf) as [(a & r & ep & hn & -> & ->)|[hc ->]]; rewrite <- hl; reflexivity.
  - intros obj. unfold call_default. cbn [call]. destruct (bind_pos s [self; obj] wf) as [h1 h2]. split.
    + intros [b e]. destruct h2 as (_ & h & _); [congruence|auto].
    + intros hr. rewrite h1; eauto. apply accepts_iff; auto. simpl. repeat split; auto; lia.
Qed.

Section Ex.
Local Open Scope string_scope.
Local Open Scope list_scope.
Definition fn (args : list string) (d : nat) : sig := Sig [] (map s2l args) d false [] false.

(** So a bound method without arguments, which could be called as it is, is called wrongly every time. *)
Theorem C67_bound_refuted : exists s, 
  (exists b, call (Bound s 0) [] [] = Some b) /\ declare_default (Bound s 0) = Accepted true /\
  forall obj, call_default (Bound s 0) true obj = None.
Proof.
  exists (fn ["self"] 0). split; [eexists; reflexivity|]. split; [reflexivity|]. intros obj. reflexivity.
Qed.

(** A record class as a default is given the record which has the property as its [init_dict]. *)
Example C67_record_class_case :
  let s := Sig [] (map s2l ["self"; "init_dict"]) 1 false [] true in
  declare_default (Bound s 0) = Accepted true /\
  call_default (Bound s 0) true 7 = Some (Binding [(s2l "self", 0); (s2l "init_dict", 7)] [] []).
Proof. split; reflexivity. Qed.

(** Keyword-only parameters are not looked at: a function that can not be called without them is accepted. *)
Theorem C67_keyword_only_refuted : exists s : sig, wf_sig s /\ ~ no_keyword_needed s /\
  declare_default (Plain s : callable nat) = Accepted false /\ (forall obj : nat, call_default (Plain s) false obj = None) /\
  declare_compare (Plain s : callable nat) = Accepted (false, 0) /\
  (forall obj value : nat, call_compare (Plain s) (false, 0) obj value = None).
Proof.
  exists (Sig [] [] 0 false [(s2l "k", false)] false).
  split; [split; [constructor; [intros []|constructor]|simpl; lia]|].
  split; [intros h; discriminate (h (s2l "k") false (or_introl eq_refl))|]. repeat split.
Qed.

(** For compare_as the value is not passed if it need not be: and [str.lower], whose parameter is called self,
    is given the record. *)
Theorem C67_compare_value_refuted :
  (exists s, wf_sig s /\ accepts s 1 /\ forall obj value : nat, call_compare (Plain s) (false, 0) obj value = Some (Binding [] [] []) /\
     declare_compare (Plain s : callable nat) = Accepted (false, 0)) /\
  (let lower := Sig [s2l "self"] [] 0 false [] false in
   declare_compare (Plain lower : callable nat) = Accepted (true, 0) /\
   forall obj value : nat, call_compare (Plain lower) (true, 0) obj value = Some (Binding [(s2l "self", obj)] [] [])).
Proof.
  split.
  - exists (fn ["v"] 1). assert (wf : wf_sig (fn ["v"] 1)) by (split; [constructor; [intros []|constructor]|simpl; lia]).
    split; [auto|]. split; [|intros; split; reflexivity]. apply accepts_iff; auto. split; [simpl; lia|].
    split; [left; simpl; lia|intros n d []].
  - split; reflexivity.
Qed.
End Ex.

(** ** json_data() *)

(** Methods json_data for which the library is made: besides its first parameter (the object) nothing must be given but
    [extraneous], which can be given by keyword; if there are keyword-only parameters, [extraneous] is a parameter. *)
Definition json_method (s : sig) : Prop :=
  exists p more, s_posonly s ++ s_args s = p :: more /\ p <> s2l "extraneous" /\ ~ In (s2l "extraneous") (s_posonly s) /\
    (forall l, must s l -> incl l [p; s2l "extraneous"]) /\
    (forall n, In (n, false) (s_kwonly s) -> n = s2l "extraneous") /\
    (s_kwonly s <> [] -> In (s2l "extraneous") (s_args s ++ map fst (s_kwonly s))).
Theorem C67_json_data : forall V s (x e : V), wf_sig s -> json_method s -> exists got,
  call_json (Bound s x) (SigModel.takes s) e = Called (Binding got [] []) /\ json_gets x e s got.
Proof.
  intros V s x e wf (p & more & ep & np & npo & hr & hk & hne).
  assert (hreq : incl (required s) [p; extraneous_s]) by (apply hr; apply must_required; auto).
  fold (positional s) in ep. fold extraneous_s in np, npo, hk, hne.
  unfold call_json, call, bind_args. rewrite ep. cbn [take_pos].
  replace (take_pos more []) with (@nil (str * V), @nil V) by (destruct more; reflexivity).
  destruct (known extraneous_s (s_args s ++ map fst (s_kwonly s))) eqn:ek.
  - assert (et : SigModel.takes s = true).
    { apply known_in in ek. unfold SigModel.takes. apply in_app_or in ek as [i|i].
      - replace (known extraneous_s (positional s)) with true; auto. symmetry. apply known_in, in_or_app. auto.
      - destruct (s_kwonly s); [destruct i|]. apply orb_true_r. }
    rewrite et. cbn [take_kw]. rewrite ek.
    assert (eb : bound_to extraneous_s [(p, x)] = false).
    { simpl. rewrite orb_false_r. now apply str_eqb_neq. }
    rewrite eb. cbn [take_kw app].
    set (g := [(p, x); (extraneous_s, e)]).
    assert (h1 : forallb (fun q => bound_to q g) (required s) = true).
    { apply required_bound. intros q i. apply hreq in i. exact i. }
    assert (h2 : forallb (fun q => snd q || bound_to (fst q) g) (s_kwonly s) = true).
    { apply forallb_forall. intros [n [|]] i; simpl; auto. apply hk in i as ->. rewrite str_eqb_refl. now rewrite orb_true_r. }
    rewrite h1, h2. exists g. split; [reflexivity|]. exists p, more. split; [exact ep|].
    apply known_in in ek. intros n v. unfold g. simpl. split.
    + intros [i|[i|[]]]; [left; auto|]. injection i as <- <-. right. auto.
    + intros [i|(_ & -> & ->)]; auto.
  - assert (nk : ~ In extraneous_s (s_args s ++ map fst (s_kwonly s))) by (rewrite <- known_in; congruence).
    assert (kn : s_kwonly s = []).
    { destruct (s_kwonly s) as [|k l]; auto. exfalso. apply nk. apply hne. discriminate. }
    assert (npos : ~ In extraneous_s (positional s)).
    { intros i. apply in_app_or in i as [i|i]; auto. apply nk, in_or_app. auto. }
    assert (et : SigModel.takes s = false).
    { unfold SigModel.takes. rewrite kn, orb_false_r. destruct (known extraneous_s (positional s)) eqn:e1; auto.
      apply known_in in e1. contradiction. }
    rewrite et. cbn [take_kw]. rewrite kn. cbn [forallb].
    assert (h1 : forallb (fun q => bound_to q [(p, x)]) (required s) = true).
    { apply required_bound. intros q i. pose proof (hreq _ i) as [->|[<-|[]]]; [left; auto|]. exfalso. apply npos.
      unfold required in i. rewrite <- (firstn_skipn (length (positional s) - s_defaults s) (positional s)). apply in_or_app. auto. }
    rewrite h1. exists [(p, x)]. split; [reflexivity|]. exists p, more. split; [exact ep|].
    intros n v. split; [intros [i|[]]; left; auto|]. intros [i|(i & -> & _)]; [left; auto|contradiction].
Qed.

(** The caches change nothing, as long as json_data is a method of the class: the same signature for all objects
    of a type, which inspect can tell. *)
Definition by_class {V} (method : nat -> option sig) (x : object V) : Prop :=
  match o_json_data x with
  | None => method (o_type x) = None
  | Some c => exists s, getfullargspec c = Some s /\ method (o_type x) = Some s
  end.
Theorem C67_json_caches : forall V method (l : list (object V * V)),
  (forall x e, In (x, e) l -> by_class method x) ->
  json_datas (Caches [] []) l =
  map (fun xe => match o_json_data (fst xe), method (o_type (fst xe)) with
                 | Some c, Some s => call_json c (SigModel.takes s) (snd xe)
                 | _, _ => Default
                 end) l.
Proof.
  intros V method l hl.
  assert (G : forall m : caches,
    (forall t, find_type t (has m) = Some true -> exists s, method t = Some s /\ find_type t (takes_extraneous m) = Some (SigModel.takes s)) ->
    json_datas m l = map (fun xe => match o_json_data (fst xe), method (o_type (fst xe)) with
                 | Some c, Some s => call_json c (SigModel.takes s) (snd xe)
                 | _, _ => Default
                 end) l).
  { induction l as [|[x e] l IH]; intros m hm; [reflexivity|].
    assert (bx : by_class method x) by (apply (hl x e); simpl; auto).
    assert (hl' : forall y f, In (y, f) l -> by_class method y) by (intros; eapply hl; simpl; eauto).
    specialize (IH hl'). cbn [json_datas map fst snd]. unfold by_class in bx. unfold json_data.
    destruct (find_type (o_type x) (has m)) as [[|]|] eqn:ef.
    - destruct (hm _ ef) as (s & e1 & e2). rewrite e2, e1. destruct (o_json_data x) as [c|]; [|congruence].
      rewrite (IH m hm). reflexivity.
    - destruct (o_json_data x) as [c|].
      + destruct bx as (s & e1 & e2). rewrite e1, e2. cbn [has takes_extraneous]. f_equal. apply IH.
        intros t. cbn [has takes_extraneous]. unfold find_type. cbn [find fst]. destruct (Nat.eqb (o_type x) t) eqn:et.
        * intros _. apply Nat.eqb_eq in et. subst t. exists s. auto.
        * apply hm.
      + f_equal. apply IH. intros t. cbn [has takes_extraneous]. unfold find_type at 1. cbn [find fst].
        destruct (Nat.eqb (o_type x) t) eqn:et; [discriminate|apply hm].
    - destruct (o_json_data x) as [c|].
      + destruct bx as (s & e1 & e2). rewrite e1, e2. cbn [has takes_extraneous]. f_equal. apply IH.
        intros t. cbn [has takes_extraneous]. unfold find_type. cbn [find fst]. destruct (Nat.eqb (o_type x) t) eqn:et.
        * intros _. apply Nat.eqb_eq in et. subst t. exists s. auto.
        * apply hm.
      + f_equal. apply IH. intros t. cbn [has takes_extraneous]. unfold find_type at 1. cbn [find fst].
        destruct (Nat.eqb (o_type x) t) eqn:et; [discriminate|apply hm]. }
  apply G. intros t h. discriminate h.
Qed.

Section Ex2.
Local Open Scope string_scope.
Local Open Scope list_scope.

(** Any keyword-only parameter makes the library pass [extraneous=]. *)
Theorem C67_json_refuted : exists s, wf_sig s /\ no_keyword_needed s /\
  (forall x : nat, exists b, call (Bound s x) [] [] = Some b) /\
  forall x e : nat, call_json (Bound s x) (SigModel.takes s) e = BadCall.
Proof.
  exists (Sig [] [s2l "self"] 0 false [(s2l "indent", true)] false).
  split; [split; [|simpl; lia]|].
  { simpl. constructor; [intros [?|[]]; discriminate|constructor; [intros []|constructor]]. }
  split; [intros n d [i|[]]; congruence|]. split; [intros x; eexists; reflexivity|]. intros; reflexivity.
Qed.

(** The caches know types only: an attribute json_data of one object spoils the type for others; and after
    a json_data which inspect can not tell, the next error is a KeyError. *)
Theorem C67_json_caches_refuted :
  (exists x y : object nat, o_type x = o_type y /\ json_datas (Caches [] []) [(y, 5)] = [Default] /\
     json_datas (Caches [] []) [(x, 5); (y, 5)] = [Called (Binding [] [] []); NoAttribute]) /\
  (exists x : object nat, json_datas (Caches [] []) [(x, 5); (x, 5)] = [NoSpec; NoEntry]).
Proof.
  split; [exists (Obj 1 (Some (Plain (fn [] 0)))), (Obj 1 None)|exists (Obj 1 (Some NoSig))]; repeat split.
Qed.

(** *** Cases *)
Lemma fn_wf args d : NoDup (map s2l args) -> d <= length args -> wf_sig (fn args d).
Proof. intros nd l. split; simpl; unfold positional; simpl; [rewrite app_nil_r; auto|rewrite map_length; auto]. Qed.
Ltac nodup := simpl; repeat (constructor; [intros h; repeat (destruct h as [h|h]; [discriminate|]); exact h|]); constructor.
(** [def f(self, other=None)], [def f(rec)], [def f()], [def f(self, v)] *)
Example C67_default_case :
  (wf_sig (fn ["self"; "other"] 1) /\ no_keyword_needed (fn ["self"; "other"] 1) /\ must (fn ["self"; "other"] 1) [s2l "self"] /\
   declare_default (Plain (fn ["self"; "other"] 1) : callable nat) = Accepted true /\
   call_default (Plain (fn ["self"; "other"] 1)) true 7 = Some (Binding [(s2l "self", 7)] [] [])) /\
  declare_default (Plain (fn ["rec"] 0) : callable nat) = Accepted true /\
  declare_default (Plain (fn [] 0) : callable nat) = Accepted false /\
  declare_default (Plain (fn ["self"; "v"] 0) : callable nat) = Refused.
Proof.
  split; [|repeat split]. split; [apply fn_wf; [nodup|simpl; lia]|]. split; [intros n d []|].
  split; [exists [s2l "other"]; split; reflexivity|]. split; reflexivity.
Qed.
Example C67_compare_case :
  must (fn ["self"; "v"; "w"] 1) [s2l "self"; s2l "v"] /\
  declare_compare (Plain (fn ["self"; "v"; "w"] 1) : callable nat) = Accepted (true, 1) /\
  call_compare (Plain (fn ["self"; "v"; "w"] 1)) (true, 1) 7 8 = Some (Binding [(s2l "self", 7); (s2l "v", 8)] [] []) /\
  declare_compare (Plain (fn ["a"; "b"] 0) : callable nat) = Refused.
Proof. split; [exists [s2l "w"]; split; reflexivity|]. repeat split. Qed.
(** [def json_data(self, extraneous=False)] of JsonRecord; [def json_data(self)] *)
Example C67_json_case : json_method (fn ["self"; "extraneous"] 1) /\ json_method (fn ["self"] 0) /\
  call_json (Bound (fn ["self"; "extraneous"] 1) 7) (SigModel.takes (fn ["self"; "extraneous"] 1)) 1 =
    Called (Binding [(s2l "self", 7); (s2l "extraneous", 1)] [] []) /\
  call_json (Bound (fn ["self"] 0) 7) (SigModel.takes (fn ["self"] 0)) 1 = Called (Binding [(s2l "self", 7)] [] []).
Proof.
  assert (wf2 : wf_sig (fn ["self"; "extraneous"] 1)) by (apply fn_wf; [nodup|simpl; lia]).
  assert (wf1 : wf_sig (fn ["self"] 0)) by (apply fn_wf; [nodup|simpl; lia]).
  split; [|split; [|split; reflexivity]].
  - exists (s2l "self"), [s2l "extraneous"]. split; [reflexivity|]. split; [discriminate|]. split; [intros []|].
    split; [|split; [intros n []|intros ne; exfalso; apply ne; reflexivity]].
    intros l m. apply must_required in m; auto. subst l. intros q [<-|[]]. left; auto.
  - exists (s2l "self"), []. split; [reflexivity|]. split; [discriminate|]. split; [intros []|].
    split; [|split; [intros n []|intros ne; exfalso; apply ne; reflexivity]].
    intros l m. apply must_required in m; auto. subst l. intros q [<-|[]]. left; auto.
Qed.
Example C67_caches_case : 
  let method := fun t => match t with 1 => Some (fn ["self"] 0) | _ => None end in
  let x := Obj 1 (Some (Bound (fn ["self"] 0) 7)) in let y := Obj 2 None in
  (forall z e, In (z, e) [(x, 5); (y, 5); (x, 5)] -> by_class method z) /\
  json_datas (Caches [] []) [(x, 5); (y, 5); (x, 5)] =
    [Called (Binding [(s2l "self", 7)] [] []); Default; Called (Binding [(s2l "self", 7)] [] [])].
Proof.
  split; [|reflexivity]. intros z e [i|[i|[i|[]]]]; injection i as <- <-; unfold by_class; simpl; eauto.
Qed.
Example C67_bound_case : must (fn ["self"] 0) [s2l "self"] /\ ~ room (fn ["self"] 0) 2 /\ room (fn ["self"; "x"] 1) 2.
Proof. split; [exists []; split; reflexivity|]. split; [intros [h|h]; simpl in h; [lia|discriminate]|left; simpl; lia]. Qed.
End Ex2.

Print Assumptions C67_call.
Print Assumptions C67_default.
Print Assumptions C67_compare.
Print Assumptions C67_bound.
Print Assumptions C67_bound_refuted.
Print Assumptions C67_keyword_only_refuted.
Print Assumptions C67_compare_value_refuted.
Print Assumptions C67_json_data.
Print Assumptions C67_json_caches.
Print Assumptions C67_json_refuted.
Print Assumptions C67_json_caches_refuted.
