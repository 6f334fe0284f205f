(** Proofs about marshalling: the round trip (C37). *)
From Coq Require Import String List NArith ZArith Arith Bool Lia.
From Verif Require Import Prelude GenModel PickleModel AutoModel JsonModel JsonSpec.
Import ListNotations.
Local Open Scope string_scope.
Local Open Scope list_scope.

Lemma find_name_in {A} n (l : list (str * A)) x : find_name n l = Some x -> In (n, x) l.
Proof.
  induction l as [|[k y] t IH]; simpl; [discriminate|].
  destruct (str_eqb n k) eqn:E; auto. apply str_eqb_eq in E. subst. intros H; injection H as ->; auto.
Qed.
Lemma find_name_none {A} n (l : list (str * A)) : find_name n l = None <-> ~ In n (map fst l).
Proof.
  induction l as [|[k y] t IH]; simpl; [tauto|].
  destruct (str_eqb n k) eqn:E.
  - apply str_eqb_eq in E. subst. split; [discriminate|tauto].
  - apply str_eqb_neq in E. rewrite IH. intuition congruence.
Qed.
Lemma in_find_name {A} n (l : list (str * A)) x :
  NoDup (map fst l) -> In (n, x) l -> find_name n l = Some x.
Proof.
  induction l as [|[k y] t IH]; simpl; [tauto|]. intros N [E|H].
  - injection E as -> ->. now rewrite str_eqb_refl.
  - inversion N; subst. destruct (str_eqb n k) eqn:E; auto.
    apply str_eqb_eq in E. subst. exfalso. apply H2. change k with (fst (k, x)). now apply in_map.
Qed.
Lemma find_name_app {A} n (l l' : list (str * A)) :
  find_name n (l ++ l') = match find_name n l with Some x => Some x | None => find_name n l' end.
Proof. induction l as [|[k y] t IH]; simpl; auto. destruct (str_eqb n k); auto. Qed.

Lemma uniform {A} (Q : A -> nat -> Prop) l :
  (forall x, In x l -> exists N, forall n, N <= n -> Q x n) ->
  exists N, forall x n, In x l -> N <= n -> Q x n.
Proof.
  induction l as [|x t IH]; intros H.
  - exists 0. intros x n [].
  - destruct (H x (or_introl eq_refl)) as [N1 H1].
    destruct IH as [N2 H2]; [intros; apply H; simpl; auto|].
    exists (max N1 N2). intros y n [<-|I] L; [apply H1|apply H2]; auto; lia.
Qed.

Lemma dset_fresh {A} k (a : A) l : ~ In k (map fst l) -> dset k a l = l ++ [(k, a)].
Proof.
  induction l as [|[k' a'] t IH]; simpl; auto. intros H.
  destruct (str_eqb k k') eqn:E; [apply str_eqb_eq in E; subst; tauto|].
  rewrite IH; auto.
Qed.

Lemma omap_ok {A B} (f : A -> out B) (g : A -> B) l :
  (forall x, In x l -> f x = Val (g x)) -> omap f l = Val (map g l).
Proof.
  induction l as [|x t IH]; simpl; intros H; auto.
  rewrite (H x (or_introl eq_refl)), IH; auto.
Qed.

Lemma has_name_in {A} n (l : list (str * A)) : has_name n l = true <-> In n (map fst l).
Proof.
  unfold has_name. destruct (find_name n l) eqn:E.
  - split; auto. intros _. apply find_name_in in E. change n with (fst (n, a)). now apply in_map.
  - apply find_name_none in E. split; [discriminate|tauto].
Qed.

Lemma drop_key_head k l : drop_key k (k :: l) = Some l.
Proof. simpl. now rewrite str_eqb_refl. Qed.

Lemma flat_map_in {A B} (f g : A -> list B) l :
  (forall x, In x l -> f x = g x) -> flat_map f l = flat_map g l.
Proof.
  induction l as [|x t IH]; simpl; intros H; auto.
  rewrite (H x (or_introl eq_refl)), IH; auto.
Qed.

Lemma NoDup_app_intro {A} (l l' : list A) :
  NoDup l -> NoDup l' -> (forall x, In x l -> In x l' -> False) -> NoDup (l ++ l').
Proof.
  induction l as [|x t IH]; simpl; intros N N' D; auto.
  inversion N; subst. constructor.
  - rewrite in_app_iff. intros [I|I]; [auto|]. eapply D; eauto.
  - apply IH; auto. intros y I I'. eapply D; eauto.
Qed.

Section Proofs.
Variable W : world.
Variable parse : str -> res pyv.
Variable show : Z -> str.
Variable by_key : list (str * pyv) -> list (str * pyv).
Let call := call W parse by_key.
Let marshal := marshal W show.

(** ** Plain data *)

Lemma mapm_ok {A B} (f : A -> res B) (g : A -> B) l :
  (forall x, In x l -> f x = Ok (g x)) -> mapm f l = Ok (map g l).
Proof.
  induction l as [|x t IH]; simpl; intros H; auto.
  rewrite (H x (or_introl eq_refl)), IH; auto.
Qed.

Lemma marshal_data j : jdata j -> forall full x, marshal full x j = Ok j.
Proof.
  unfold marshal.
  induction 1 as [|b|z H|n|s|l H IH|l H IH]; intros full x; cbn [JsonModel.marshal]; auto.
  - destruct (Z.ltb_spec (2 ^ 50) (Z.abs z)); auto. lia.
  - rewrite (mapm_ok _ (fun y => y)), map_id; auto.
  - rewrite (mapm_ok _ (fun y => y)), map_id; auto.
    intros [k y] I. cbn [fst snd]. rewrite (IH k y I). reflexivity.
Qed.

Lemma marshal_form v j : form show v j -> forall full x, marshal full x v = Ok j.
Proof.
  intros [w H|l H|z H] full x; [now apply marshal_data| |].
  2:{ unfold marshal. cbn [JsonModel.marshal]. destruct (Z.ltb_spec (2 ^ 50) (Z.abs z)); auto. lia. }
  unfold marshal. cbn [JsonModel.marshal].
  rewrite (mapm_ok _ (fun y => y)), map_id; auto.
  intros y I. now apply marshal_data, H.
Qed.

Lemma form_not_obj x j : form show x j -> forall c sl, x <> PObj c sl.
Proof. intros [y H|l H|z H] c sl; [destruct H; discriminate|discriminate|discriminate]. Qed.

(** ** A record: marshalling out *)

Definition slots_of (sl : list (str * pyv)) (x : bool) : list (str * (pyv * res pyv)) :=
  map (fun kv => (fst kv, (snd kv, marshal true x (snd kv)))) sl.

Lemma slots_of_find sl x n :
  find_name n (slots_of sl x) = option_map (fun v => (v, marshal true x v)) (find_name n sl).
Proof.
  unfold slots_of. induction sl as [|[k y] t IH]; simpl; auto. destruct (str_eqb n k); auto.
Qed.

(** what a property emits for its value *)
Definition prop_out (x : bool) (p : prop) (v : pyv) : res pyv :=
  match conv_out p with Some f => f v | None => marshal true x v end.

(** [emitted ps sl l]: the properties [ps] of a record with entries [sl] give the entries [l]. *)
Inductive emitted (sl : list (str * pyv)) : list prop -> list (str * pyv) -> Prop :=
| em_nil : emitted sl [] []
| em_skip p ps l : find_name (q_name p) sl = None \/ json_key p = None ->
    emitted sl ps l -> emitted sl (p :: ps) l
| em_put p ps l x k j : find_name (q_name p) sl = Some x -> json_key p = Some k ->
    prop_out true p x = Ok j -> emitted sl ps l -> emitted sl (p :: ps) ((k, j) :: l).

Lemma key_same p : key_in_doc p = json_key p.
Proof. reflexivity. Qed.

Lemma emitted_keys sl ps l k : emitted sl ps l -> In k (map fst l) ->
  exists p, In p ps /\ json_key p = Some k.
Proof.
  induction 1 as [|p ps l H E IH|p ps l x k' j F K O E IH]; simpl; [tauto| |].
  - intros I. destruct (IH I) as (q & Q & R). eauto.
  - intros [<-|I]; [eauto|]. destruct (IH I) as (q & Q & R). eauto.
Qed.

Lemma emit_emitted sl ps l : emitted sl ps l -> forall acc,
  NoDup (map fst acc ++ map fst l) ->
  emit true ps (slots_of sl true) acc = Ok (acc ++ l).
Proof.
  induction 1 as [|p ps l H E IH|p ps l x k j F K O E IH]; intros acc N.
  - simpl. now rewrite app_nil_r.
  - cbn [emit negb andb]. rewrite slots_of_find, key_same.
    destruct H as [-> | ->]; cbn [option_map]; [auto|].
    destruct (option_map _ _) as [[? ?]|]; auto.
  - cbn [emit negb andb]. rewrite slots_of_find, key_same, F, K. cbn [option_map].
    assert (Q : (if q_json p then match q_out p with Some f => f x | None => marshal true true x end
                 else marshal true true x) = prop_out true p x).
    { unfold prop_out, conv_out. destruct (q_json p); auto. }
    fold marshal. rewrite Q, O. rewrite dset_fresh.
    + rewrite IH; rewrite <- ?app_assoc; auto. rewrite map_app, <- app_assoc. exact N.
    + simpl in N. apply NoDup_remove_2 in N. intros I. apply N. rewrite in_app_iff; auto.
Qed.

(** ** A record: reading back *)

(** what a property reads from its JSON form *)
Definition prop_read (rec : nat -> pyv -> out pyv) (p : prop) (j : pyv) : out pyv :=
  let* y := match conv_in p with Some f => f j | None => Val j end in
  value_init W rec (q_type p) y.

(** the properties [ps] emit [l] and reading it gives the arguments [ys], which settle *)
Inductive conv (n : nat) (sl : list (str * pyv)) :
  list prop -> list (str * pyv) -> list (str * pyv) -> Prop :=
| cv_nil : conv n sl [] [] []
| cv_skip p ps l ys : find_name (q_name p) sl = None \/ json_key p = None ->
    conv n sl ps l ys -> conv n sl (p :: ps) l ys
| cv_put p ps l ys x k j y : find_name (q_name p) sl = Some x -> json_key p = Some k ->
    prop_out true p x = Ok j ->
    prop_read (call n) p j = Val y -> init_prop W (call n) p (Some y) = Val (Some x) ->
    conv n sl ps l ys -> conv n sl (p :: ps) ((k, j) :: l) ((q_name p, y) :: ys).

Lemma conv_emitted n sl ps l ys : conv n sl ps l ys -> emitted sl ps l.
Proof. induction 1; [apply em_nil|apply em_skip; auto|eapply em_put; eauto]. Qed.

Lemma conv_names n sl ps l ys : conv n sl ps l ys ->
  forall p, In p ps -> find_name (q_name p) sl <> None -> json_key p <> None ->
  In (q_name p) (map fst ys).
Proof.
  induction 1 as [|p ps l ys H C IH|p ps l ys x k j y F K O R I C IH]; simpl; [tauto| |].
  - intros q [<-|Q] S J; [tauto|auto].
  - intros q [<-|Q] S J; auto.
Qed.

Lemma conv_ys n sl ps l ys : conv n sl ps l ys ->
  forall m y, In (m, y) ys -> exists p x, In p ps /\ q_name p = m /\ json_key p <> None /\
    find_name m sl = Some x /\ init_prop W (call n) p (Some y) = Val (Some x).
Proof.
  induction 1 as [|p ps l ys H C IH|p ps l ys x k j y F K O R I C IH]; simpl; [tauto| |].
  - intros m y I. destruct (IH m y I) as (q & x & A1 & A2 & A3 & A4 & A5). exists q, x. auto 6.
  - intros m z [E|Z].
    + injection E as <- <-. exists p, x. repeat split; auto. congruence.
    + destruct (IH m z Z) as (q & w & A1 & A2 & A3 & A4 & A5). exists q, w. auto 6.
Qed.

Lemma read_conv n sl ps l ys : conv n sl ps l ys -> forall doc kw rest,
  (forall k j, In (k, j) l -> find_name k doc = Some j) ->
  (forall p k, In p ps -> json_key p = Some k -> find_name (q_name p) sl = None ->
     find_name k doc = None) ->
  NoDup (map q_name ps) -> (forall p, In p ps -> has_name (q_name p) kw = false) ->
  read_props W (call n) doc ps (kw, map fst l ++ rest) = Val (kw ++ ys, rest).
Proof.
  induction 1 as [|p ps l ys H C IH|p ps l ys x k j y F K O R I C IH];
    intros doc kw rest Hl Hn N Hk.
  - simpl. now rewrite app_nil_r.
  - cbn [read_props]. unfold read_prop. rewrite key_same.
    inversion N; subst.
    assert (E : match json_key p with
                | None => Val (kw, map fst l ++ rest)
                | Some k => match find_name k doc with
                            | None => Val (kw, map fst l ++ rest)
                            | Some x => Exc [] KeyErr
                            end
                end = Val (kw, map fst l ++ rest)).
    { destruct (json_key p) as [k|] eqn:K; auto. destruct H as [H|H]; [|discriminate].
      rewrite (Hn p k); simpl; auto. }
    destruct (json_key p) as [k|] eqn:K.
    + destruct (find_name k doc); [discriminate|]. cbn [obind].
      apply IH; auto; intros; eauto using in_cons.
    + cbn [obind]. apply IH; auto; intros; eauto using in_cons.
  - cbn [read_props]. unfold read_prop. rewrite key_same, K.
    rewrite (Hl k j) by (simpl; auto).
    pose proof (Hk p (or_introl eq_refl)) as HN. rewrite HN.
    cbn [map fst app]. rewrite drop_key_head.
    inversion N as [|? ? N1 N2]; subst.
    assert (IH' : read_props W (call n) doc ps (kw ++ [(q_name p, y)], map fst l ++ rest)
                  = Val (kw ++ (q_name p, y) :: ys, rest)).
    { rewrite IH; auto.
      - rewrite <- app_assoc. reflexivity.
      - intros; apply Hl; simpl; auto.
      - intros; eapply Hn; eauto using in_cons.
      - intros q Q. destruct (has_name (q_name q) (kw ++ [(q_name p, y)])) eqn:E; auto.
        apply has_name_in in E. rewrite map_app, in_app_iff in E. simpl in E.
        destruct E as [E|[E|[]]].
        + apply has_name_in in E. rewrite (Hk q) in E by (simpl; auto). discriminate.
        + exfalso. apply N1. rewrite E. now apply in_map. }
    unfold prop_read, conv_in in R. destruct (q_json p); cbn [obind] in R.
    + rewrite R. cbn [box obind]. exact IH'.
    + rewrite R. cbn [box obind]. exact IH'.
Qed.

Lemma emitted_nodup sl ps l : emitted sl ps l -> NoDup (map q_name ps) ->
  (forall p p' k, In p ps -> In p' ps -> json_key p = Some k -> json_key p' = Some k -> p = p') ->
  NoDup (map fst l).
Proof.
  induction 1 as [|p ps l H E IH|p ps l x k j F K O E IH]; intros N U; simpl.
  - constructor.
  - inversion N; subst. apply IH; auto. intros; eapply U; eauto using in_cons.
  - inversion N; subst. constructor.
    + intros I. destruct (emitted_keys _ _ _ _ E I) as (q & Q & Kq).
      assert (p = q) by (eapply U; eauto using in_cons, in_eq). subst q.
      apply H1. now apply in_map.
    + apply IH; auto. intros; eapply U; eauto using in_cons.
Qed.

Lemma filter_rest (l u : list (str * pyv)) :
  NoDup (map fst (l ++ u)) ->
  filter (fun kv => existsb (str_eqb (fst kv)) (map fst u)) (l ++ u) = u.
Proof.
  intros N. rewrite filter_app.
  assert (A : filter (fun kv => existsb (str_eqb (fst kv)) (map fst u)) l = []).
  { rewrite map_app in N. clear - N. induction l as [|[k y] t IH]; auto. simpl in *.
    inversion N; subst. destruct (existsb (str_eqb k) (map fst u)) eqn:E; auto.
    apply existsb_exists in E as (k' & I & E). apply str_eqb_eq in E. subst k'.
    exfalso. apply H1. rewrite in_app_iff; auto. }
  rewrite A. simpl.
  assert (B : forall v w : list (str * pyv), incl (map fst v) (map fst w) ->
     filter (fun kv => existsb (str_eqb (fst kv)) (map fst w)) v = v).
  { clear. intros v w. induction v as [|[k y] t IH]; simpl; intros H; auto.
    assert (E : existsb (str_eqb k) (map fst w) = true).
    { apply existsb_exists. exists k. split; [apply H; simpl; auto|apply str_eqb_refl]. }
    rewrite E, IH; auto. intros a I. apply H. simpl; auto. }
  apply B. apply incl_refl.
Qed.

Lemma add_unknown_fresh (u jd : list (str * pyv)) :
  NoDup (map fst (jd ++ u)) ->
  add_unknown (map (fun e => (fst e, Ok (snd e))) u) jd = Ok (jd ++ u).
Proof.
  revert jd; induction u as [|[k y] t IH]; intros jd N; simpl; [now rewrite app_nil_r|].
  assert (H : has_name k jd = false).
  { destruct (has_name k jd) eqn:E; auto. apply has_name_in in E.
    rewrite map_app in N. simpl in N. apply NoDup_remove_2 in N.
    exfalso. apply N. rewrite in_app_iff; auto. }
  rewrite H. rewrite IH; rewrite <- app_assoc; auto.
Qed.

Lemma find_prop_in ps p : NoDup (map q_name ps) -> In p ps -> find_prop (q_name p) ps = Some p.
Proof.
  intros N I. unfold find_prop. apply in_find_name.
  - rewrite map_map. simpl. exact N.
  - apply in_map_iff. exists p; auto.
Qed.

Lemma find_name_mapped {A B} (f : str -> A -> B) n (l : list (str * A)) :
  find_name n (map (fun kv => (fst kv, f (fst kv) (snd kv))) l) = option_map (f n) (find_name n l).
Proof.
  induction l as [|[k x] t IH]; simpl; auto. destruct (str_eqb n k) eqn:E; auto.
  apply str_eqb_eq in E. now subst.
Qed.

(** The constructor, given arguments that settle to the entries [sl]. *)
Lemma record_back rec c sl kw :
  NoDup (map q_name (w_props W c)) -> listed (w_props W c) sl ->
  (forall m y, In (m, y) kw -> exists p x, In p (w_props W c) /\ q_name p = m /\
     find_name m sl = Some x /\ init_prop W rec p (Some y) = Val (Some x)) ->
  (forall p, In p (w_props W c) -> find_name (q_name p) sl <> None -> In (q_name p) (map fst kw)) ->
  (forall p, In p (w_props W c) -> has_init p -> find_name (q_name p) sl <> None) ->
  record_init W rec c [] kw = Val (PObj c sl).
Proof.
  intros N L K S E. unfold record_init.
  rewrite (omap_ok _ (fun kv => (fst kv, find_name (fst kv) sl))).
  2:{ intros [m y] I. destruct (K m y I) as (p & x & Ip & <- & F & Q). cbn [fst snd].
      rewrite (find_prop_in _ p N Ip), Q. cbn [obind]. now rewrite F. }
  cbn [obind].
  assert (FE : filter (fun p => eager p && negb (has_name (q_name p) kw)) (w_props W c) = []).
  { assert (G : forall q, In q (filter (fun p => eager p && negb (has_name (q_name p) kw)) (w_props W c)) -> False).
    { intros q I. apply filter_In in I as [I C]. apply andb_true_iff in C as [C1 C2].
      assert (HI : has_init q).
      { unfold eager in C1. apply orb_true_iff in C1 as [C1|C1]; [left; auto|].
        right. destruct (q_default q); congruence. }
      pose proof (S q I (E q I HI)) as J. apply has_name_in in J. rewrite J in C2. discriminate. }
    destruct (filter _ _) as [|q r]; auto. exfalso. apply (G q). simpl; auto. }
  rewrite FE. cbn [omap obind app]. do 2 f_equal. rewrite app_nil_r. unfold in_order.
  etransitivity; [|symmetry; exact L]. unfold slot. apply flat_map_in. intros p I.
  rewrite (find_name_mapped (fun m _ => find_name m sl)).
  destruct (find_name (q_name p) sl) as [x|] eqn:F.
  - pose proof (S p I ltac:(congruence)) as J. apply has_name_in in J. unfold has_name in J.
    destruct (find_name (q_name p) kw); [reflexivity|discriminate].
  - destruct (find_name (q_name p) kw); reflexivity.
Qed.

(** ** The round trip *)

Definition is_doc (j : pyv) : Prop := (exists l, j = PDict l) \/ (exists l, j = PList l).

(** loading [j] as class [c] gives [v] *)
Definition back_class (c : nat) (v : pyv) : Prop :=
  (exists sl, v = PObj c sl) /\ json_class W c /\
  exists j N, marshal true true v = Ok j /\ is_doc j /\ forall n, N <= n -> call n c j = Val v.
Definition back_prop (p : prop) (x : pyv) : Prop :=
  exists k j y N, json_key p = Some k /\ prop_out true p x = Ok j /\
    forall n, N <= n -> prop_read (call n) p j = Val y /\
      init_prop W (call n) p (Some y) = Val (Some x).
Definition back_item (t : vtype) (x : pyv) : Prop :=
  exists j y N, marshal true true x = Ok j /\
    forall n, N <= n ->
      (forall i, item_in W parse by_key (call n) t i j = Val y) /\
      (if isinstance W y t then Val y
       else match run_coerce (call n) t y with
            | Val x => Val x
            | Exc _ _ => Exc [] CollItemCoerceErr
            end) = Val x.

Lemma is_json_class c : json_class W c -> is_json W c = true.
Proof. unfold json_class, is_json, is_json_kind. destruct (w_kind W c); tauto. Qed.

Lemma conv_exists sl ps :
  (forall p x, In p ps -> find_name (q_name p) sl = Some x ->
     back_prop p x \/ json_key p = None) ->
  exists l ys N, forall n, N <= n -> conv n sl ps l ys.
Proof.
  induction ps as [|p ps IH]; intros H.
  - exists [], [], 0. intros; apply cv_nil.
  - destruct IH as (l & ys & N & C); [intros; eapply H; eauto using in_cons|].
    destruct (find_name (q_name p) sl) as [x|] eqn:F.
    + destruct (H p x (or_introl eq_refl) F) as [(k & j & y & M & K & O & R)|K].
      * exists ((k, j) :: l), ((q_name p, y) :: ys), (max M N). intros n L.
        destruct (R n ltac:(lia)) as [R1 R2]. eapply cv_put; eauto. apply C; lia.
      * exists l, ys, N. intros n L. apply cv_skip; auto.
    + exists l, ys, N. intros n L. apply cv_skip; auto.
Qed.

Lemma unknown_slot sl x :
  find_name unknown_name
    (map (fun kv => (fst kv,
       match snd kv with
       | PDict l => Some (map (fun e => (fst e, marshal false x (snd e))) l)
       | _ => None
       end)) sl)
  = option_map (fun v => match v with
                         | PDict l => Some (map (fun e => (fst e, marshal false x (snd e))) l)
                         | _ => None
                         end) (find_name unknown_name sl).
Proof.
  apply (find_name_mapped (fun _ v => match v with
                         | PDict l => Some (map (fun e => (fst e, marshal false x (snd e))) l)
                         | _ => None
                         end)).
Qed.

Lemma back_record c sl :
  tidy_class W c -> listed (w_props W c) sl ->
  (forall p x, In p (w_props W c) -> q_name p <> unknown_name ->
     find_name (q_name p) sl = Some x -> back_prop p x) ->
  (forall p, In p (w_props W c) -> has_init p -> find_name (q_name p) sl <> None) ->
  (forall x, find_name unknown_name sl = Some x ->
     exists u, x = PDict u /\ u <> [] /\ NoDup (map fst u) /\
       forall k y, In (k, y) u -> jdata y /\
         forall p, In p (w_props W c) -> json_key p <> Some k) ->
  back_class c (PObj c sl).
Proof.
  intros T L HP HI HU. destruct T as [TK TN TKeys (pu & Pu1 & Pu2 & Pu3 & Pu4 & Pu5 & Pu6)].
  assert (Uniq : forall p, In p (w_props W c) -> q_name p = unknown_name -> p = pu).
  { intros p I E. pose proof (find_prop_in _ p TN I) as F1.
    pose proof (find_prop_in _ pu TN Pu1) as F2. change (s2l "unknown_json_keys") with unknown_name in Pu2.
    rewrite E in F1. rewrite Pu2 in F2. congruence. }
  split; [eauto|]. split; [unfold json_class; rewrite TK; exact I|].
  destruct (conv_exists sl (w_props W c)) as (l & ys & N & C).
  { intros p x I F. destruct (str_eq_dec (q_name p) unknown_name) as [E|E]; [|left; eauto].
    right. now rewrite (Uniq p I E). }
  assert (u' : { u | (find_name unknown_name sl = None /\ u = []) \/
                     (find_name unknown_name sl = Some (PDict u) /\ u <> []) }).
  { destruct (find_name unknown_name sl) as [x|] eqn:F.
    - destruct x; try (exfalso; destruct (HU _ eq_refl) as (u & E & _); discriminate).
      exists l0. right. split; auto. destruct (HU _ eq_refl) as (u & E & H & _).
      injection E as ->. exact H.
    - exists []. left; auto. }
  destruct u' as [u U].
  assert (UK : NoDup (map fst u) /\ forall k y, In (k, y) u -> jdata y /\
                 forall p, In p (w_props W c) -> json_key p <> Some k).
  { destruct U as [[_ ->]|[F _]].
    - split; [constructor|]. intros k y [].
    - destruct (HU _ F) as (u2 & E & _ & H1 & H2). injection E as <-. auto. }
  destruct UK as [UN UK].
  pose proof (conv_emitted _ _ _ _ _ (C N (le_n N))) as EM.
  assert (LN : NoDup (map fst l)) by (eapply emitted_nodup; eauto).
  assert (DN : NoDup (map fst (l ++ u))).
  { rewrite map_app. apply NoDup_app_intro; auto.
    intros k I1 I2. destruct (emitted_keys _ _ _ _ EM I1) as (p & Ip & Kp).
    apply in_map_iff in I2 as ([k' y] & E & I2). simpl in E. subst k'.
    destruct (UK k y I2) as [_ H]. exact (H p Ip Kp). }
  exists (PDict (l ++ u)), (S N). split; [|split; [left; eauto|]].
  - unfold marshal. cbn [JsonModel.marshal]. rewrite TK. fold marshal.
    change (map (fun kv => (fst kv, (snd kv, marshal true true (snd kv)))) sl) with (slots_of sl true).
    rewrite (emit_emitted sl _ l EM []) by exact LN. cbn [bind app].
    rewrite unknown_slot. destruct U as [[F ->]|[F NE]]; rewrite F; cbn [option_map orb].
    + now rewrite app_nil_r.
    + rewrite (map_ext_in _ (fun e => (fst e, Ok (snd e)))).
      * rewrite add_unknown_fresh by exact DN. reflexivity.
      * intros [k y] I. cbn [fst snd]. f_equal. apply marshal_data. apply (UK k y I).
  - intros n Ln. destruct n as [|n]; [lia|]. specialize (C n ltac:(lia)).
    unfold call. cbn [JsonModel.call]. fold call. unfold call_class. rewrite TK. cbn [decode obind].
    unfold initkwargs. rewrite map_app.
    rewrite (read_conv n sl _ l ys C (l ++ u) [] (map fst u)); auto.
    2:{ intros k j I. apply in_find_name; auto. rewrite in_app_iff; auto. }
    2:{ intros p k Ip Kp F. apply find_name_none. rewrite map_app, in_app_iff. intros [I|I].
        - (* an emitted key belongs to a property whose slot is set *)
          clear - EM I Ip Kp F TKeys.
          assert (G : exists q x, In q (w_props W c) /\ json_key q = Some k /\ find_name (q_name q) sl = Some x).
          { clear - EM I. induction EM as [|q qs m H E IH|q qs m x k' j Fq Kq O E IH]; simpl in I; [tauto| |].
            - destruct (IH I) as (a & b & A1 & A2 & A3). exists a, b. simpl; auto.
            - destruct I as [<-|I]; [exists q, x; simpl; auto|].
              destruct (IH I) as (a & b & A1 & A2 & A3). exists a, b. simpl; auto. }
          destruct G as (q & x & Iq & Kq & Fq).
          rewrite (TKeys p q k Ip Iq Kp Kq) in F. congruence.
        - apply in_map_iff in I as ([k' y] & E & I). simpl in E. subst k'.
          destruct (UK k y I) as [_ H]. exact (H p Ip Kp). }
    cbn [obind app].
    set (kw := match u with [] => ys | _ :: _ => ys ++ [(unknown_name, PDict u)] end).
    assert (KW : match map fst u with
                 | [] => Val ys
                 | _ :: _ => Val (dset unknown_name
                    (PDict (filter (fun kv => existsb (str_eqb (fst kv)) (map fst u)) (l ++ u))) ys)
                 end = Val kw).
    { unfold kw. rewrite filter_rest by exact DN.
      destruct u as [|e u]; [reflexivity|]. cbn [map]. rewrite dset_fresh; auto.
      intros I. apply in_map_iff in I as ([m y] & E & I). simpl in E. subst m.
      destruct (conv_ys _ _ _ _ _ C _ _ I) as (p & x & Ip & Np & Kp & _).
      rewrite (Uniq p Ip Np) in Kp. congruence. }
    cbn [map] in KW. rewrite KW. cbn [obind].
    apply record_back; auto.
    + intros m y I.
      assert (CY : In (m, y) ys -> exists p x, In p (w_props W c) /\ q_name p = m /\
         find_name m sl = Some x /\ init_prop W (call n) p (Some y) = Val (Some x)).
      { intros J. destruct (conv_ys _ _ _ _ _ C _ _ J) as (p & x & A1 & A2 & A3 & A4 & A5).
        exists p, x. auto. }
      unfold kw in I. destruct U as [[F ->]|[F NE]]; auto.
      destruct u as [|e u]; [congruence|].
      rewrite in_app_iff in I. destruct I as [I|[I|[]]]; auto.
      injection I as <- <-. exists pu, (PDict (e :: u)). split; auto. split; auto. split; auto.
      unfold init_prop, type_safe. rewrite Pu4, Pu5. cbn [isinstance obind]. reflexivity.
    + intros p Ip Fp. unfold kw.
      destruct (str_eq_dec (q_name p) unknown_name) as [E|E].
      * rewrite E in Fp |- *. destruct U as [[F _]|[F NE]]; [congruence|].
        destruct u; [congruence|]. rewrite map_app, in_app_iff. simpl; auto.
      * assert (K : json_key p <> None).
        { destruct (find_name (q_name p) sl) as [x|] eqn:F; [|congruence].
          destruct (HP p x Ip E F) as (k & j & y & M & K & _). congruence. }
        pose proof (conv_names _ _ _ _ _ C p Ip Fp K) as J.
        destruct u; auto. rewrite map_app, in_app_iff; auto.
Qed.


Lemma back_prop_data p x j y :
  json_key p <> None -> q_check p x = true ->
  ~ (q_required p = true /\ q_type p = TAny /\ y = PNone) ->
  match conv_out p with Some f => f x = Ok j | None => form show x j end ->
  match conv_in p with Some f => f j = Val y | None => y = j end ->
  settles (q_type p) y x ->
  back_prop p x.
Proof.
  intros K CH RQ CO CI S. destruct (json_key p) as [k|] eqn:KE; [|congruence].
  exists k, j, y, 0. split; auto. split.
  { unfold prop_out. destruct (conv_out p); auto. now apply marshal_form. }
  intros n _. split.
  - unfold prop_read.
    assert (E : match conv_in p with Some f => f j | None => Val j end = Val y).
    { destruct (conv_in p); [auto|now subst]. }
    rewrite E. cbn [obind]. unfold value_init. destruct (q_type p); auto. destruct S.
  - assert (TS : type_safe W (call n) p y = Val (Some x)).
    { unfold type_safe. unfold settles in S. destruct (q_type p) as [|isa co|c co] eqn:T; [| |destruct S].
      - subst y. cbn [isinstance].
        destruct x; try (rewrite CH; reflexivity).
        destruct (q_required p) eqn:R; [exfalso; apply RQ; auto|rewrite CH; reflexivity].
      - cbn [isinstance run_coerce].
        destruct S as [[S ->]|(S1 & S2 & S3)].
        + rewrite S. destruct x, (q_required p); rewrite CH; reflexivity.
        + rewrite S1, S2, S3, CH. destruct y, (q_required p); reflexivity. }
    unfold init_prop. rewrite TS. reflexivity.
Qed.

Lemma back_prop_class p c co x :
  json_key p <> None -> q_check p x = true ->
  conv_out p = None -> conv_in p = None ->
  q_type p = TCls c co -> w_sub W c c = true -> back_class c x ->
  back_prop p x.
Proof.
  intros K CH CO CI T S ((sl & ->) & JC & j & N & M & D & B).
  destruct (json_key p) as [k|] eqn:KE; [|congruence].
  exists k, j, (PObj c sl), N. split; auto. split.
  { unfold prop_out. now rewrite CO. }
  intros n L. split.
  - unfold prop_read. rewrite CI, T. cbn [obind value_init]. rewrite (is_json_class c JC). auto.
  - unfold init_prop, type_safe. rewrite T. cbn [isinstance]. rewrite S, CH. reflexivity.
Qed.

Lemma back_item_data t x j : form show x j -> settles t j x -> back_item t x.
Proof.
  intros F S. exists j, j, 0. split; [now apply marshal_form|]. intros n _.
  unfold settles in S. destruct t as [|isa co|c co]; [| |destruct S].
  - split; [reflexivity|]. cbn [isinstance]. now subst.
  - split; [reflexivity|]. cbn [isinstance run_coerce].
    destruct S as [[S ->]|(S1 & S2 & S3)]; [rewrite S; auto|]. now rewrite S1, S2.
Qed.

Lemma back_item_class c co x : w_sub W c c = true -> back_class c x -> back_item (TCls c co) x.
Proof.
  intros S ((sl & ->) & JC & j & N & M & D & B).
  exists j, (PObj c sl), N. split; auto. intros n L. split.
  - intros i. cbn [item_in].
    assert (E : isinstance W j (TCls c co) = false) by (destruct D as [[l ->]|[l ->]]; reflexivity).
    rewrite E, (is_json_class c JC), (B n L). reflexivity.
  - cbn [isinstance]. now rewrite S.
Qed.

(** One choice of JSON forms and arguments for all items. *)
Inductive items_conv (t : vtype) (n : nat) : list pyv -> list pyv -> list pyv -> Prop :=
| ic_nil : items_conv t n [] [] []
| ic_cons x j y xs js ys :
    (forall i, item_in W parse by_key (call n) t i j = Val y) ->
    (if isinstance W y t then Val y
     else match run_coerce (call n) t y with
          | Val x => Val x
          | Exc _ _ => Exc [] CollItemCoerceErr
          end) = Val x ->
    items_conv t n xs js ys -> items_conv t n (x :: xs) (j :: js) (y :: ys).

Lemma items_exist t xs : (forall x, In x xs -> back_item t x) ->
  exists js ys N, mapm (marshal true true) xs = Ok js /\ forall n, N <= n -> items_conv t n xs js ys.
Proof.
  induction xs as [|x xs IH]; intros H.
  - exists [], [], 0. split; auto. intros; apply ic_nil.
  - destruct IH as (js & ys & N & M & C); [intros; apply H; simpl; auto|].
    destruct (H x (or_introl eq_refl)) as (j & y & N' & M' & C').
    exists (j :: js), (y :: ys), (max N N'). split.
    + simpl. rewrite M', M. reflexivity.
    + intros n L. destruct (C' n ltac:(lia)) as [C1 C2]. apply ic_cons; auto. apply C; lia.
Qed.

Lemma items_in t n xs js ys : items_conv t n xs js ys -> forall i,
  omap (fun ix => item_in W parse by_key (call n) t (fst ix) (snd ix)) (number i js) = Val ys.
Proof.
  induction 1 as [|x j y xs js ys H1 H2 C IH]; intros i; simpl; auto.
  rewrite (H1 (SIdx i)). cbn [obind]. rewrite IH. reflexivity.
Qed.

Lemma items_coerced c n xs js ys : items_conv (w_item W c) n xs js ys ->
  omap (coerce_item W (call n) c) ys = Val xs.
Proof.
  induction 1 as [|x j y xs js ys H1 H2 C IH]; simpl; auto.
  unfold coerce_item at 1. rewrite H2. cbn [obind]. rewrite IH. reflexivity.
Qed.

Lemma no_args rec c pre : (forall p, In p (w_props W c) -> ~ has_init p) ->
  record_init W rec c pre [] = Val (PObj c pre).
Proof.
  intros H. unfold record_init. cbn [omap obind].
  assert (FE : filter (fun p => eager p && negb (has_name (q_name p) (@nil (str * pyv)))) (w_props W c) = []).
  { assert (G : forall q, In q (filter (fun p => eager p && negb (has_name (q_name p) (@nil (str * pyv)))) (w_props W c)) -> False).
    { intros q I. apply filter_In in I as [I C]. apply andb_true_iff in C as [C1 _].
      apply (H q I). unfold eager in C1. apply orb_true_iff in C1 as [C1|C1]; [left; auto|].
      right. destruct (q_default q); congruence. }
    destruct (filter _ _) as [|q r]; auto. exfalso. apply (G q). simpl; auto. }
  rewrite FE. cbn [omap obind app].
  assert (E : in_order (w_props W c) [] = []).
  { unfold in_order. induction (w_props W c); simpl; auto. apply IHl.
    - intros p I. apply H. simpl; auto.
    - simpl in FE. destruct (eager a && _); [discriminate|auto]. }
  rewrite E, app_nil_r. reflexivity.
Qed.

Lemma back_list c l :
  w_kind W c = KJsonList -> (forall p, In p (w_props W c) -> ~ has_init p) ->
  (forall x, In x l -> back_item (w_item W c) x) ->
  back_class c (PObj c [(s2l "_values", PList l)]).
Proof.
  intros K H I. split; [eauto|]. split; [unfold json_class; rewrite K; exact Logic.I|].
  destruct (items_exist (w_item W c) l I) as (js & ys & N & M & C).
  exists (PList js), (S N). split; [|split; [right; eauto|]].
  - unfold marshal. cbn [JsonModel.marshal]. rewrite K. fold marshal.
    cbn [map fst snd find_name]. rewrite str_eqb_refl, M. reflexivity.
  - intros n L. destruct n as [|n]; [lia|]. specialize (C n ltac:(lia)).
    unfold call. cbn [JsonModel.call]. fold call. unfold call_class. rewrite K. cbn [decode obind].
    unfold list_values. rewrite (items_in _ _ _ _ _ C). cbn [obind].
    unfold coll_init. rewrite K. cbn [is_list_kind list_items obind].
    rewrite (items_coerced _ _ _ _ _ C). cbn [obind]. now apply no_args.
Qed.

Lemma back_dict c l :
  w_kind W c = KJsonDict -> (forall p, In p (w_props W c) -> ~ has_init p) ->
  (forall k x, In (k, x) l -> back_item (w_item W c) x) ->
  back_class c (PObj c [(s2l "_values", PDict l)]).
Proof.
  intros K H I. split; [eauto|]. split; [unfold json_class; rewrite K; exact Logic.I|].
  assert (G : exists js ys N,
    mapm (fun e => do x <- marshal true true (snd e); Ok (fst e, x)) l = Ok js /\
    forall n, N <= n ->
      omap (fun kv => let* x := item_in W parse by_key (call n) (w_item W c) (SKey (fst kv)) (snd kv) in
                      Val (fst kv, x)) js = Val ys /\
      omap (fun kv => let* x := coerce_item W (call n) c (snd kv) in Val (fst kv, x)) ys = Val l).
  { clear K H. induction l as [|[k x] t IH].
    - exists [], [], 0. split; auto.
    - destruct IH as (js & ys & N & M & C); [intros; eapply I; simpl; eauto|].
      destruct (I k x (or_introl eq_refl)) as (j & y & N' & M' & C').
      exists ((k, j) :: js), ((k, y) :: ys), (max N N'). split.
      + cbn [mapm fst snd]. rewrite M'. cbn [bind]. rewrite M. reflexivity.
      + intros n L. destruct (C' n ltac:(lia)) as [C1 C2]. destruct (C n ltac:(lia)) as [C3 C4].
        split.
        * cbn [omap fst snd]. rewrite (C1 (SKey k)). cbn [obind]. rewrite C3. reflexivity.
        * cbn [omap fst snd]. unfold coerce_item at 1. rewrite C2. cbn [obind]. rewrite C4. reflexivity. }
  destruct G as (js & ys & N & M & C).
  exists (PDict js), (S N). split; [|split; [left; eauto|]].
  - unfold marshal. cbn [JsonModel.marshal]. rewrite K. fold marshal.
    cbn [map fst snd find_name]. rewrite str_eqb_refl, M. reflexivity.
  - intros n L. destruct n as [|n]; [lia|]. destruct (C n ltac:(lia)) as [C1 C2].
    unfold call. cbn [JsonModel.call]. fold call. unfold call_class. rewrite K. cbn [decode obind].
    unfold dict_values. rewrite C1. cbn [obind].
    unfold coll_init. rewrite K. cbn [is_list_kind dict_items obind].
    rewrite C2. cbn [obind]. now apply no_args.
Qed.

Lemma round_trip c v : fits W show c v -> back_class c v.
Proof.
  revert c v. apply (fits_mind W show back_class back_prop back_item).
  - intros c sl T L _ HP HI HU. apply back_record; auto.
  - intros c l K H _ HB. now apply back_list.
  - intros c l K H _ HB. now apply back_dict.
  - intros p x j y. apply back_prop_data.
  - intros p c co x K CH CO CI T S _ B. eapply back_prop_class; eauto.
  - intros t x j. apply back_item_data.
  - intros c co x S _ B. now apply back_item_class.
Qed.
End Proofs.
