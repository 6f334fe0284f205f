(** C50: the text of a value is read back as the value. *)
From Coq Require Import String List NArith ZArith Arith Bool Lia Permutation.
From Verif Require Import Prelude SelPathModel GenModel PickleModel AutoModel JsonModel JsonSpec JsonProofs
  ReprModel ReprSpec ReprText ReprParse.
Import ListNotations.
Local Open Scope list_scope.

(** *** Small facts *)
Lemma sort_perm l : Permutation (sort_names l) l.
Proof.
  induction l as [|n l IH]; [constructor|]. cbn [sort_names fold_right]. fold (sort_names l).
  assert (H : forall m, Permutation (insert_name n m) (n :: m)).
  { induction m as [|x m IHm]; [apply Permutation_refl|]. cbn. destruct (str_le n x); [apply Permutation_refl|].
    eapply Permutation_trans; [apply perm_skip, IHm|]. apply perm_swap. }
  eapply Permutation_trans; [apply H|]. apply perm_skip, IH.
Qed.

Lemma replace1_at c t u r : ~ In c u -> replace1 c t (u ++ c :: r) = u ++ t ++ r.
Proof.
  induction u as [|x u IH]; intros H; cbn [app replace1].
  - rewrite N.eqb_refl. reflexivity.
  - assert (E : N.eqb x c = false) by (apply N.eqb_neq; intros ->; apply H; left; auto).
    rewrite E, IH; [reflexivity|]. intros I. apply H. right. auto.
Qed.

Definition last_ok (t : str) : Prop := forall t', t <> t' ++ [40%N].

Lemma last_ok_snoc t c : c <> 40%N -> last_ok (t ++ [c]).
Proof. intros H t' E. apply app_inj_tail in E as [_ E]. auto. Qed.
Lemma last_ok_app a t : t <> [] -> last_ok t -> last_ok (a ++ t).
Proof.
  intros Hn H t' E. destruct (exists_last Hn) as (u & c & ->). rewrite app_assoc in E.
  apply app_inj_tail in E as [_ ->]. apply (H u). reflexivity.
Qed.
Lemma app_ne {A} (a b : list A) : b <> [] -> a ++ b <> [].
Proof. destruct a; auto. discriminate. Qed.

Lemma join_last ts : ts <> [] -> Forall (fun t => t <> [] /\ last_ok t) ts -> join ts <> [] /\ last_ok (join ts).
Proof.
  intros Hn H. induction H as [|t ts [Ht Hl] H IH]; [congruence|].
  destruct ts as [|t2 ts]; [auto|]. rewrite join_cons2. destruct IH as [A B]; [discriminate|].
  change (44%N :: 32%N :: join (t2 :: ts)) with ([44%N; 32%N] ++ join (t2 :: ts)). split.
  - apply app_ne. discriminate.
  - apply last_ok_app; [discriminate|]. apply last_ok_app; auto.
Qed.

Lemma ends_empty_true s : ends_empty (s ++ [40%N; 41%N]) = true.
Proof.
  induction s as [|x s IH]; [reflexivity|]. cbn [app ends_empty].
  destruct s as [|y [|z s]]; auto.
Qed.
Lemma ends_empty_inv s : ends_empty s = true -> exists t, s = t ++ [40%N; 41%N].
Proof.
  induction s as [|x s IH]; [discriminate|]. cbn [ends_empty].
  destruct s as [|y [|z s]]; [intros H; destruct (IH H) as [t E]; destruct t as [|? [|? ?]]; discriminate| |].
  - intros H. apply andb_true_iff in H as [H1 H2]. apply N.eqb_eq in H1, H2. subst. exists []. reflexivity.
  - intros H. destruct (IH H) as [t E]. exists (x :: t). cbn. rewrite E. reflexivity.
Qed.
Lemma ends_empty_call f J : ends_empty (f ++ 40%N :: J ++ [41%N]) = true -> J <> [] -> ~ last_ok J.
Proof.
  intros H Hn HJ. apply ends_empty_inv in H as [t E].
  change (f ++ 40%N :: J ++ [41%N]) with (f ++ (40%N :: J) ++ [41%N]) in E.
  rewrite app_assoc in E. change (t ++ [40%N; 41%N]) with (t ++ [40%N] ++ [41%N]) in E. rewrite app_assoc in E.
  apply app_inj_tail in E as [E _].
  revert E. change (f ++ 40%N :: J) with (f ++ [40%N] ++ J). rewrite app_assoc.
  apply (last_ok_app (f ++ [40%N]) J Hn HJ).
Qed.

Lemma letter_char c : letter c -> c <> 40%N /\ c <> 91%N.
Proof. unfold letter. lia. Qed.
Lemma identifier_chars n : identifier n -> ~ In 40%N n /\ ~ In 91%N n.
Proof.
  destruct n as [|c r]; [intros []|]. intros [Hc Hr]. rewrite Forall_forall in Hr.
  split; intros [->|H].
  1, 3: destruct (letter_char _ Hc); congruence.
  - destruct (Hr _ H) as [L|L]; [destruct (letter_char _ L); congruence|lia].
  - destruct (Hr _ H) as [L|L]; [destruct (letter_char _ L); congruence|lia].
Qed.

Lemma omap_map {A B C} (f : B -> out C) (h : A -> B) l : omap f (map h l) = omap (fun x => f (h x)) l.
Proof. induction l as [|x l IH]; cbn; [reflexivity|]. destruct (f (h x)); cbn; [rewrite IH|]; reflexivity. Qed.
Lemma omap_id {A} (f : A -> out A) l : (forall x, In x l -> f x = Val x) -> omap f l = Val l.
Proof. intros H. rewrite (omap_ok f (fun x => x)) by auto. now rewrite map_id. Qed.

Lemma dict_of_nodup {A} (l : list (str * A)) : NoDup (map fst l) -> dict_of_pairs l = l.
Proof.
  unfold dict_of_pairs.
  assert (G : forall l acc, NoDup (map fst (acc ++ l)) ->
     fold_left (fun d (kv : str * A) => dset (fst kv) (snd kv) d) l acc = acc ++ l).
  { clear l. induction l as [|[k a] l IH]; intros acc H; cbn [fold_left]; [now rewrite app_nil_r|].
    cbn [fst snd]. rewrite dset_fresh.
    - rewrite IH; [now rewrite <- app_assoc|]. now rewrite <- app_assoc.
    - rewrite map_app in H. cbn [map fst] in H. apply NoDup_remove_2 in H.
      intros I. apply H. apply in_or_app. auto. }
  intros H. apply (G l []). exact H.
Qed.

Lemma filter_one (n : str) l : NoDup l -> In n l -> filter (str_eqb n) l = [n].
Proof.
  induction 1 as [|x l Hx H IH]; [intros []|]. intros [->|I]; cbn [filter].
  - rewrite str_eqb_refl. f_equal. clear IH. induction l as [|y l IH]; auto. cbn.
    destruct (str_eqb n y) eqn:E.
    + apply str_eqb_eq in E. subst. exfalso. apply Hx. left. auto.
    + apply IH; [intros J; apply Hx; right; auto|]. inversion H; auto.
  - destruct (str_eqb n x) eqn:E; auto. apply str_eqb_eq in E. subst. contradiction.
Qed.
Lemma no_repeats l : NoDup l ->
  existsb (fun n => negb (Nat.eqb (List.length (filter (str_eqb n) l)) 1)) l = false.
Proof.
  intros H. destruct (existsb _ l) eqn:E; auto. apply existsb_exists in E as (n & I & E).
  rewrite (filter_one n l H I) in E. discriminate.
Qed.

(** The entries of an object by name. *)
Definition pick {A} (sl : list (str * A)) (names : list str) : list (str * A) :=
  flat_map (fun n => match find_name n sl with Some x => [(n, x)] | None => [] end) names.
Lemma pick_map {A B} (f : A -> B) sl names :
  pick (map (fun kv => (fst kv, f (snd kv))) sl) names
  = map (fun kv => (fst kv, f (snd kv))) (pick sl names).
Proof.
  induction names as [|n t IH]; [reflexivity|]. unfold pick in *. cbn [flat_map]. rewrite map_app, IH. f_equal.
  pose proof (find_name_mapped (fun _ => f) n sl) as E. cbv beta in E. rewrite E.
  destruct (find_name n sl); reflexivity.
Qed.
Lemma pick_in {A} (sl : list (str * A)) names n x :
  In (n, x) (pick sl names) <-> In n names /\ find_name n sl = Some x.
Proof.
  unfold pick. rewrite in_flat_map. split.
  - intros (m & I & H). destruct (find_name m sl) eqn:E; [|destruct H]. destruct H as [H|[]].
    injection H as -> ->. auto.
  - intros [I E]. exists n. rewrite E. split; auto. left. auto.
Qed.
Lemma pick_fst_sub {A} (sl : list (str * A)) names n : In n (map fst (pick sl names)) -> In n names.
Proof. intros H. apply in_map_iff in H as ((m & x) & <- & I). apply pick_in in I. tauto. Qed.
Lemma pick_nodup {A} (sl : list (str * A)) names : NoDup names -> NoDup (map fst (pick sl names)).
Proof.
  induction 1 as [|n t Hn H IH]; [constructor|]. unfold pick. cbn [flat_map].
  fold (pick sl t). destruct (find_name n sl); auto. cbn. constructor; auto.
  intros I. apply Hn. eapply pick_fst_sub; eauto.
Qed.
Lemma pick_skip {A} m (v : A) sl names : ~ In m names -> pick ((m, v) :: sl) names = pick sl names.
Proof.
  intros H. unfold pick. apply flat_map_in. intros n I. cbn [find_name].
  assert (E : str_eqb n m = false) by (apply str_eqb_neq; intros ->; auto). rewrite E. reflexivity.
Qed.

Section Main.
Variable W : world.
Variable printable : N -> bool.
Variable cname : nat -> str.
Variable num_text opaque_text : nat -> str.
Variable num_value : str -> option nat.
Variable parse : str -> res pyv.
Variable by_key : list (str * pyv) -> list (str * pyv).
Variable fuel : nat.
Variable scope : str -> option nat.
Variable finite : nat -> Prop.
Hypothesis floats : forall n, finite n -> num_value (num_text n) = Some n /\ float_text (num_text n).

Notation repr := (repr W printable cname num_text opaque_text).
Notation reads := (reads num_value).
Notation eval := (eval W parse by_key fuel scope).
Notation rebuildable := (rebuildable W cname scope finite).
Notation settled := (settled W).
Notation usable := (usable W cname scope).

Definition names (c : nat) : list str := sort_names (map q_name (w_props W c)).

(** What is read. *)
Fixpoint ast_of (v : pyv) : ast :=
  match v with
  | PNone => ANone
  | PBool b => ABool b
  | PInt z => AInt z
  | PNum n => ANum n
  | PStr s => AStr s
  | PList l => AList (map ast_of l)
  | PTuple l => ATuple (map ast_of l)
  | PDict l => ADict (map (fun kv => (fst kv, ast_of (snd kv))) l)
  | POpaque _ => ANone
  | PObj c sl =>
      let parts := map (fun kv => (fst kv, ast_of (snd kv))) sl in
      let kw := pick parts (names c) in
      match w_kind W c with
      | KList | KDict => ACall (cname c) (map snd (pick parts [s2l "_values"])) kw
      | KJsonList => ACall (cname c) []
                       (map (fun kv => (s2l "values", snd kv)) (pick parts [s2l "_values"]) ++ kw)
      | _ => ACall (cname c) [] kw
      end
  end.

Definition txt (v : pyv) : str := match repr v with Ok s => s | Err _ => [] end.
Definition good (v : pyv) : Prop :=
  repr v = Ok (txt v) /\ reads (txt v) (ast_of v) /\ starts (txt v) /\ last_ok (txt v)
  /\ eval (ast_of v) = Val v.

Lemma good_intro v s : repr v = Ok s -> reads s (ast_of v) -> starts s -> last_ok s ->
  eval (ast_of v) = Val v -> good v.
Proof. intros E. unfold good, txt. rewrite E. auto. Qed.

Lemma starts_ne t : starts t -> t <> [].
Proof. destruct t; [intros []|discriminate]. Qed.

Lemma good_lists l : (forall x, In x l -> good x) ->
  mapm repr l = Ok (map txt l) /\ Forall2 reads (map txt l) (map ast_of l) /\ Forall starts (map txt l)
  /\ omap eval (map ast_of l) = Val l.
Proof.
  intros H. repeat split.
  - apply mapm_ok. intros x I. apply H. auto.
  - induction l as [|x l IH]; cbn; constructor; [apply H; left; auto|]. apply IH. intros y I. apply H. right; auto.
  - apply Forall_forall. intros t I. apply in_map_iff in I as (x & <- & I). apply H. auto.
  - rewrite omap_map. apply omap_id. intros x I. apply H. auto.
Qed.

Definition tx (kv : str * pyv) : str * str := (fst kv, txt (snd kv)).
Definition ax (kv : str * pyv) : str * ast := (fst kv, ast_of (snd kv)).
Lemma good_pairs (l : list (str * pyv)) : (forall k x, In (k, x) l -> good x) ->
  Forall2 (fun kt ke => fst kt = fst ke /\ reads (snd kt) (snd ke)) (map tx l) (map ax l)
  /\ omap (fun kv => let* x := eval (snd kv) in Val (fst kv, x)) (map ax l) = Val l.
Proof.
  intros H. split.
  - induction l as [|[k x] l IH]; cbn; constructor.
    + split; auto. apply (H k x). left; auto.
    + apply IH. intros k' y I. apply (H k' y). right; auto.
  - rewrite omap_map. apply omap_id. intros [k x] I. cbn.
    destruct (H k x I) as (_ & _ & _ & _ & ->). reflexivity.
Qed.

(** *** Text of objects *)
Lemma record_text c sl : (forall n x, In (n, x) sl -> good x) ->
  record_repr W cname c (map (fun kv => (fst kv, repr (snd kv))) sl)
  = Ok (cname c ++ 40%N :: join (map kw_text (map tx (pick sl (names c)))) ++ [41%N]).
Proof.
  intros H. unfold record_repr. fold (names c).
  rewrite (mapm_ok _ (fun n => match find_name n sl with
                               | Some x => [n ++ s2l "=" ++ txt x] | None => [] end)).
  - cbn [bind]. f_equal. change (s2l "(") with [40%N]. cbn [app]. do 2 f_equal. f_equal.
    f_equal. unfold pick. induction (names c) as [|n t IH]; [reflexivity|].
    cbn [map flat_map concat]. rewrite !map_app. rewrite <- IH.
    destruct (find_name n sl); reflexivity.
  - intros n I. pose proof (find_name_mapped (fun _ => repr) n sl) as E. cbv beta in E. rewrite E.
    destruct (find_name n sl) as [x|] eqn:F; [|reflexivity]. cbn [option_map].
    apply find_name_in in F. destruct (H _ _ F) as [-> _]. reflexivity.
Qed.

Lemma coll_text c vs sl : identifier (cname c) -> ~ In (s2l "_values") (names c) ->
  (forall n x, In (n, x) sl -> good x) -> good vs ->
  coll_repr W cname c (map (fun kv => (fst kv, repr (snd kv))) ((s2l "_values", vs) :: sl))
  = Ok (cname c ++ 40%N :: join (txt vs :: map kw_text (map tx (pick sl (names c)))) ++ [41%N]).
Proof.
  intros Hi Hv H Hvs. unfold coll_repr. rewrite record_text.
  2:{ intros n x [E|I]; [injection E as _ <-; auto|eauto]. }
  cbn [bind]. cbn [map fst snd find_name]. rewrite str_eqb_refl.
  destruct Hvs as [-> Hvs]. cbn [bind]. rewrite pick_skip by auto.
  remember (pick sl (names c)) as es. f_equal.
  rewrite replace1_at by (apply identifier_chars; auto). f_equal.
  change (s2l "(") with [40%N]. cbn [app]. f_equal.
  destruct es as [|e es].
  - cbn [map join app]. change (cname c ++ [40%N; 41%N]) with (cname c ++ [40%N; 41%N]).
    rewrite ends_empty_true, app_nil_r. reflexivity.
  - destruct (ends_empty (cname c ++ 40%N :: join (map kw_text (map tx (e :: es))) ++ [41%N])) eqn:E.
    + exfalso.
      assert (G : Forall (fun t => t <> [] /\ last_ok t) (map kw_text (map tx (e :: es)))).
      { apply Forall_forall. intros t I. apply in_map_iff in I as (kt & <- & I).
        apply in_map_iff in I as ([n x] & <- & I). unfold kw_text, tx. cbn [fst snd].
        rewrite Heqes in I. apply pick_in in I as [_ F]. apply find_name_in in F.
        destruct (H _ _ F) as (_ & _ & S & L & _). apply starts_ne in S.
        split; [apply app_ne, app_ne; auto|]. apply last_ok_app; [apply app_ne; auto|].
        apply last_ok_app; auto. }
      apply join_last in G as [A B]; [|discriminate].
      apply (ends_empty_call _ _ E A B).
    + cbn [map]. change (kw_text (tx e) :: map kw_text (map tx es)) with (map kw_text (map tx (e :: es))).
      destruct (map kw_text (map tx (e :: es))) eqn:M; [discriminate|]. rewrite join_cons2.
      unfold comma_sep. change (s2l ", ") with [44%N; 32%N]. rewrite <- !app_assoc. reflexivity.
Qed.

(** *** Calls *)
Lemma names_nodup c : usable c -> NoDup (names c).
Proof. intros U. eapply Permutation_NoDup; [apply Permutation_sym, sort_perm|]. apply (us_props _ _ _ _ U). Qed.
Lemma names_in c n : In n (names c) <-> exists p, In p (w_props W c) /\ q_name p = n.
Proof.
  unfold names. split.
  - intros H. apply (Permutation_in _ (sort_perm _)) in H. apply in_map_iff in H as (p & E & I). eauto.
  - intros (p & I & <-). apply (Permutation_in _ (Permutation_sym (sort_perm _))). apply in_map. auto.
Qed.
Lemma names_ident c n : usable c -> In n (names c) -> identifier n.
Proof. intros U H. apply names_in in H as (p & I & <-). apply (us_ident _ _ _ _ U); auto. Qed.
Lemma names_free c n : usable c -> In n (taken (w_kind W c)) -> ~ In n (names c).
Proof. intros U T H. apply names_in in H as (p & I & <-). apply (us_free _ _ _ _ U p I T). Qed.

Lemma isinstance_of x t : of_type W t x -> isinstance W x t = true.
Proof. destruct t; cbn; auto. intros (c' & sl & -> & H). auto. Qed.
Lemma accepted_init rec p x : accepted W p x -> init_prop W rec p (Some x) = Val (Some x).
Proof.
  intros (T & C & R). apply isinstance_of in T. unfold init_prop, type_safe.
  rewrite T, C. destruct x; try reflexivity. destruct (q_required p) eqn:Q; try reflexivity.
  destruct (q_type p) eqn:E; try reflexivity. exfalso. auto.
Qed.

Lemma settled_init rec c pre sl : usable c -> settled c sl ->
  record_init W rec c pre (pick sl (names c)) = Val (PObj c (pre ++ sl)).
Proof.
  intros U (L & A & D).
  assert (E : record_init W rec c [] (pick sl (names c)) = Val (PObj c sl)).
  { apply record_back; auto.
    - apply (us_props _ _ _ _ U).
    - intros m y I. apply pick_in in I as [I F]. apply names_in in I as (p & I & <-).
      exists p, y. repeat split; auto. apply accepted_init. apply A; auto.
    - intros p I N. destruct (find_name (q_name p) sl) as [x|] eqn:F; [|congruence].
      apply in_map_iff. exists (q_name p, x). split; auto. apply pick_in. split; auto.
      apply names_in. eauto. }
  unfold record_init in *. destruct (omap _ (pick sl (names c))); [|discriminate].
  cbn [obind] in *. destruct (omap _ _); [|discriminate]. cbn [obind] in *. cbn [app] in E.
  injection E as E. rewrite E. reflexivity.
Qed.

Lemma free_name {A} c n (sl : list (str * A)) : usable c -> In n (taken (w_kind W c)) ->
  has_name n (pick sl (names c)) = false /\ find_name n (pick sl (names c)) = None
  /\ remove_name n (pick sl (names c)) = pick sl (names c).
Proof.
  intros U T. assert (N : ~ In n (map fst (pick sl (names c)))).
  { intros I. apply pick_fst_sub in I. revert I. apply names_free; auto. }
  assert (F : find_name n (pick sl (names c)) = None) by (apply find_name_none; auto).
  split; [|split; auto].
  - unfold has_name. rewrite F. reflexivity.
  - unfold remove_name. clear F. induction (pick sl (names c)) as [|[m x] l IH]; auto. cbn in *.
    assert (E : str_eqb n m = false) by (apply str_eqb_neq; intros ->; tauto). rewrite E. cbn.
    rewrite IH; tauto.
Qed.

Lemma items_kept rec c l : (forall x, In x l -> of_type W (w_item W c) x) ->
  omap (coerce_item W rec c) l = Val l.
Proof.
  intros H. apply omap_id. intros x I. unfold coerce_item. rewrite isinstance_of by auto. reflexivity.
Qed.

Lemma pairs_kept rec c (l : list (str * pyv)) : (forall k x, In (k, x) l -> of_type W (w_item W c) x) ->
  omap (fun kv => let* x := coerce_item W rec c (snd kv) in Val (fst kv, x)) l = Val l.
Proof.
  intros H. apply omap_id. intros [k x] I. cbn [fst snd]. unfold coerce_item.
  rewrite isinstance_of by eauto. reflexivity.
Qed.

(** *** The theorem *)
Lemma const_good w e v : repr v = Ok w -> word w = Some e -> identifier w -> last_ok w ->
  ast_of v = e -> eval e = Val v -> good v.
Proof.
  intros H1 H2 H3 H4 H5 H6. apply (good_intro v w); auto.
  - rewrite H5. apply word_reads; auto.
  - destruct (identifier_head w H3) as (c & t & -> & L). apply letter_starts; auto.
  - rewrite H5. auto.
Qed.

Lemma kw_ok c sl : usable c -> (forall n x, In (n, x) sl -> good x) ->
  Forall (fun kt => identifier (fst kt) /\ starts (snd kt)) (map tx (pick sl (names c)))
  /\ (forall n x, In (n, x) (pick sl (names c)) -> good x).
Proof.
  intros U H. assert (G : forall n x, In (n, x) (pick sl (names c)) -> good x).
  { intros n x I. apply pick_in in I as [_ F]. apply find_name_in in F. eauto. }
  split; auto. apply Forall_forall. intros kt I. apply in_map_iff in I as ([n x] & <- & I). cbn [tx fst snd].
  split; [|apply (G n x I)]. apply pick_in in I as [I _]. apply (names_ident c); auto.
Qed.

Lemma call_shape f J e : identifier f -> reads (f ++ 40%N :: J ++ [41%N]) e ->
  reads (f ++ 40%N :: J ++ [41%N]) e /\ starts (f ++ 40%N :: J ++ [41%N]) /\ last_ok (f ++ 40%N :: J ++ [41%N]).
Proof.
  intros Hf R. split; [auto|]. split.
  - destruct (identifier_head f Hf) as (c & t & -> & L). apply (letter_starts c _ L).
  - change (f ++ 40%N :: J ++ [41%N]) with (f ++ (40%N :: J) ++ [41%N]). rewrite app_assoc.
    apply last_ok_snoc. discriminate.
Qed.

Lemma list_good l : (forall x, In x l -> good x) -> good (PList l).
Proof.
  intros H. destruct (good_lists l H) as (M & F & S & E).
  apply (good_intro _ (91%N :: join (map txt l) ++ [93%N])).
  - cbn [ReprModel.repr]. rewrite M. reflexivity.
  - cbn [ast_of]. apply list_reads; auto.
  - cbn. intuition discriminate.
  - apply (last_ok_snoc (91%N :: join (map txt l))). discriminate.
  - cbn [ast_of ReprModel.eval]. rewrite E. reflexivity.
Qed.
Lemma dict_good l : NoDup (map fst l) -> (forall k x, In (k, x) l -> unicode k) ->
  (forall k x, In (k, x) l -> good x) -> good (PDict l).
Proof.
  intros N U H. destruct (good_pairs l H) as [F E].
  apply (good_intro _ (123%N :: join (map (pair_text printable) (map tx l)) ++ [125%N])).
  - cbn [ReprModel.repr].
    rewrite (mapm_ok _ (fun kv => pair_text printable (tx kv))).
    + rewrite map_map. reflexivity.
    + intros [k x] I. cbn [fst snd]. destruct (H k x I) as [-> _]. reflexivity.
  - cbn [ast_of]. apply dict_reads; auto. apply Forall_forall. intros kt I.
    apply in_map_iff in I as ([k x] & <- & I). cbn [tx fst snd]. split; [eapply U; eauto|apply (H k x I)].
  - cbn. intuition discriminate.
  - apply (last_ok_snoc (123%N :: join (map (pair_text printable) (map tx l)))). discriminate.
  - cbn [ast_of ReprModel.eval]. change (map (fun kv => (fst kv, ast_of (snd kv))) l) with (map ax l).
    rewrite E. cbn [obind]. rewrite dict_of_nodup by auto. reflexivity.
Qed.

Theorem rebuildable_good v : rebuildable v -> good v.
Proof.
  induction 1 as [|b|z|n Hn|s Hs|l H IH|l H IH|l N U H IH|c sl K U S H IH
                 |c l sl K U S H IH T Hl IHl|c l sl K U S H IH T N Hu Hl IHl].
  - apply (const_good (s2l "None") ANone); auto; try reflexivity.
    + cbn. unfold letter. repeat constructor; lia.
    + apply (last_ok_snoc (s2l "Non")). discriminate.
  - destruct b.
    + apply (const_good (s2l "True") (ABool true)); auto; try reflexivity.
      * cbn. unfold letter. repeat constructor; lia.
      * apply (last_ok_snoc (s2l "Tru")). discriminate.
    + apply (const_good (s2l "False") (ABool false)); auto; try reflexivity.
      * cbn. unfold letter. repeat constructor; lia.
      * apply (last_ok_snoc (s2l "Fals")). discriminate.
  - destruct (fmt_int_shape z) as (ds & D & Dn & Hz).
    assert (Sh : (exists c t', fmt_int z = c :: t' /\ (is_dig c = true \/ c = 45%N))
                 /\ forallb is_numch (fmt_int z) = true /\ last_ok (fmt_int z)).
    { assert (L : last_ok ds).
      { destruct (exists_last Dn) as (u & c & ->). apply last_ok_snoc.
        rewrite forallb_app in D. apply andb_true_iff in D as [_ D]. cbn in D.
        rewrite andb_true_r in D. apply dig_cases in D. lia. }
      pose proof (forallb_impl is_dig is_numch ds dig_num D) as Q.
      destruct Hz as [[-> _]|[-> _]].
      - repeat split; auto. destruct ds as [|c t]; [congruence|]. cbn in D.
        apply andb_true_iff in D as [D _]. eauto.
      - repeat split; auto; [eauto|]. apply (last_ok_app [45%N]); auto. }
    destruct Sh as (S1 & S2 & S3).
    apply (good_intro _ (fmt_int z)); auto; try reflexivity.
    + intros n r Hn Hr. apply numeral_read; auto; [lia|]. apply fmt_int_numeral.
    + destruct S1 as (c & t & -> & [Hc| ->]); cbn; [|intuition discriminate].
      apply dig_cases in Hc. intros [E|[E|[E|[E|[]]]]]; lia.
  - destruct (floats n Hn) as [V (F1 & F2 & F3)].
    assert (Q : forallb is_numch (num_text n) = true).
    { apply forallb_forall. intros c I. rewrite Forall_forall in F2. unfold is_numch.
      destruct (F2 c I) as [D|D].
      - assert (E : is_dig c = true) by (unfold is_dig; apply andb_true_iff; split; apply N.leb_le; lia).
        rewrite E. reflexivity.
      - destruct D as [<-|[<-|[<-|[<-|[]]]]]; reflexivity. }
    destruct (num_text n) as [|c t] eqn:Et; [destruct F1|].
    assert (Hc : is_dig c = true \/ c = 45%N).
    { destruct F1 as [D| ->]; auto. left. unfold is_dig. apply andb_true_iff; split; apply N.leb_le; lia. }
    assert (NE : numeral num_value (c :: t) = Some (ANum n)).
    { unfold numeral. destruct (N.eqb c 45) eqn:E45.
      - apply N.eqb_eq in E45. subst c.
        destruct t as [|d t]; [destruct F3 as [[E|[]]|[E|[]]]; discriminate|].
        destruct (forallb is_dig (d :: t)) eqn:FD.
        + exfalso. rewrite forallb_forall in FD. destruct F3 as [F3|F3]; destruct F3 as [F3|F3]; try discriminate;
            apply FD in F3; discriminate.
        + rewrite V. reflexivity.
      - destruct (forallb is_dig (c :: t)) eqn:FD.
        + exfalso. rewrite forallb_forall in FD. destruct F3 as [F3|F3]; apply FD in F3; discriminate.
        + rewrite V. reflexivity. }
    apply (good_intro _ (c :: t)); auto; try reflexivity.
    + cbn [ReprModel.repr]. rewrite Et. reflexivity.
    + intros k r Hk Hr. apply numeral_read; auto; [lia|]. eauto.
    + cbn. destruct Hc as [Hc| ->]; [|intuition discriminate].
      apply dig_cases in Hc. intros [E|[E|[E|[E|[]]]]]; lia.
    + intros t' E. assert (I : In 40%N (c :: t)) by (rewrite E; apply in_or_app; right; left; auto).
      rewrite forallb_forall in Q. apply Q in I. discriminate.
  - apply (good_intro _ (str_repr printable s)); auto; try reflexivity.
    + intros n r Hn Hr. apply str_read; auto. lia.
    + destruct (str_repr_head printable s) as (c & t & -> & [-> | ->]); cbn; intuition discriminate.
    + unfold str_repr. apply (last_ok_snoc (_ :: _)). destruct (quote_cases s) as [-> | ->]; discriminate.
  - apply list_good; auto.
  - destruct (good_lists l IH) as (M & F & S & E).
    apply (good_intro _ (tuple_text (map txt l))).
    + cbn [ReprModel.repr]. rewrite M. reflexivity.
    + cbn [ast_of]. apply tuple_reads; auto.
    + unfold tuple_text. destruct (map txt l) as [|? [|? ?]]; cbn; intuition discriminate.
    + unfold tuple_text. destruct (map txt l) as [|t [|t2 ts]].
      * apply (last_ok_snoc [40%N]). discriminate.
      * change (s2l "(" ++ t ++ s2l ",)") with (s2l "(" ++ t ++ [44%N] ++ [41%N]).
        rewrite (app_assoc t), app_assoc. apply last_ok_snoc. discriminate.
      * rewrite app_assoc. apply last_ok_snoc. discriminate.
    + cbn [ast_of ReprModel.eval]. rewrite E. reflexivity.
  - apply dict_good; auto.
  - (* a record *)
    pose proof (record_text c sl IH) as RT. destruct (kw_ok c sl U IH) as [KO KG].
    destruct (good_pairs _ KG) as [F E].
    assert (A : ast_of (PObj c sl) = ACall (cname c) [] (map ax (pick sl (names c)))).
    { cbn [ast_of]. rewrite pick_map. destruct K as [-> | ->]; reflexivity. }
    assert (RD : reads (cname c ++ 40%N :: join (map kw_text (map tx (pick sl (names c)))) ++ [41%N])
                       (ast_of (PObj c sl))).
    { rewrite A. apply call_reads; [apply (us_name _ _ _ _ U)|]. intros n r Hn.
      pose proof (kwargs_read num_value _ _ F KO [] n r) as Q. cbn [app length] in Q. apply Q; [left; auto|lia]. }
    destruct (call_shape _ _ _ (us_name _ _ _ _ U) RD) as (_ & S1 & S2).
    eapply good_intro; [cbn [ReprModel.repr]; destruct K as [-> | ->]; exact RT|auto|auto|auto|].
    rewrite A. cbn [ReprModel.eval]. rewrite (us_scope _ _ _ _ U). cbn [omap obind].
    rewrite E. cbn [obind].
    assert (MF : map fst (map ax (pick sl (names c))) = map fst (pick sl (names c))).
    { rewrite map_map. apply map_ext. reflexivity. }
    rewrite MF, no_repeats by (apply pick_nodup, names_nodup; auto).
    unfold call_py. destruct (free_name c (s2l "self") sl U) as (H1 & _ & _).
    { destruct K as [-> | ->]; cbn; auto. }
    rewrite H1.
    destruct (free_name c (first_param (w_kind W c)) sl U) as (_ & H2 & H3).
    { destruct K as [-> | ->]; cbn; auto. }
    rewrite H2. cbn [obind]. rewrite H3.
    destruct (free_name c (s2l "init_dict") sl U) as (H4 & _ & _).
    { destruct K as [-> | ->]; cbn; auto. }
    rewrite H4. pose proof (settled_init (call W parse by_key fuel) c [] sl U S) as SI.
    cbn [app] in SI. destruct K as [-> | ->]; cbn; exact SI.
  - (* a list collection *)
    pose proof (list_good l IHl) as GL.
    assert (NV : ~ In (s2l "_values") (names c)).
    { apply names_free; auto. destruct K as [-> | ->]; cbn; auto 10. }
    pose proof (coll_text c (PList l) sl (us_name _ _ _ _ U) NV IH GL) as CT.
    destruct (kw_ok c sl U IH) as [KO KG]. destruct (good_pairs _ KG) as [F E].
    assert (P : pick (map (fun kv => (fst kv, ast_of (snd kv))) ((s2l "_values", PList l) :: sl)) (names c)
                = map ax (pick sl (names c))).
    { rewrite pick_map. rewrite pick_skip by auto. reflexivity. }
    assert (P1 : pick (map (fun kv => (fst kv, ast_of (snd kv))) ((s2l "_values", PList l) :: sl)) [s2l "_values"]
                 = [(s2l "_values", ast_of (PList l))]) by reflexivity.
    assert (MF : map fst (map ax (pick sl (names c))) = map fst (pick sl (names c))).
    { rewrite map_map. apply map_ext. reflexivity. }
    destruct GL as (GL1 & GL2 & GL3 & GL4 & GL5).
    assert (TL : txt (PList l) = 91%N :: join (map txt l) ++ [93%N]).
    { unfold txt at 1. cbn [ReprModel.repr]. destruct (good_lists l IHl) as [-> _]. reflexivity. }
    destruct K as [K|K].
    + assert (A : ast_of (PObj c ((s2l "_values", PList l) :: sl))
                  = ACall (cname c) [ast_of (PList l)] (map ax (pick sl (names c)))).
      { cbn [ast_of]. rewrite K. cbn [ast_of] in P, P1. rewrite P, P1. reflexivity. }
      assert (RD : reads (cname c ++ 40%N :: join (txt (PList l) :: map kw_text (map tx (pick sl (names c)))) ++ [41%N])
                         (ast_of (PObj c ((s2l "_values", PList l) :: sl)))).
      { rewrite A. apply call_reads; [apply (us_name _ _ _ _ U)|]. intros n r Hn.
        apply posargs_read; auto. rewrite TL. eauto. }
      destruct (call_shape _ _ _ (us_name _ _ _ _ U) RD) as (_ & S1 & S2).
      eapply good_intro; [cbn [ReprModel.repr]; rewrite K; exact CT|auto|auto|auto|].
      rewrite A. cbn [ReprModel.eval]. rewrite (us_scope _ _ _ _ U). cbn [omap]. rewrite GL5. cbn [obind].
      rewrite E. cbn [obind]. rewrite MF, no_repeats by (apply pick_nodup, names_nodup; auto).
      unfold call_py. rewrite K. cbn [first_param].
      destruct (free_name c (s2l "self") sl U) as (H1 & _ & _); [rewrite K; cbn; auto|]. rewrite H1.
      destruct (free_name c (s2l "values") sl U) as (_ & H2 & H3); [rewrite K; cbn; auto|].
      rewrite H2. cbn [obind]. rewrite H3.
      destruct (free_name c (s2l "init_dict") sl U) as (H4 & _ & _); [rewrite K; cbn; auto|]. rewrite H4.
      unfold coll_init. rewrite K. cbn [is_list_kind list_items obind].
      rewrite items_kept by auto. cbn [obind]. apply (settled_init _ c [(s2l "_values", PList l)] sl U S).
    + set (kts := map tx ((s2l "values", PList l) :: pick sl (names c))).
      assert (TX : repr (PObj c ((s2l "_values", PList l) :: sl))
                   = Ok (cname c ++ 40%N :: join (map kw_text kts) ++ [41%N])).
      { cbn [ReprModel.repr]. rewrite K. cbn [ReprModel.repr] in CT. rewrite CT. cbn [bind]. f_equal.
        rewrite TL. unfold kts.
        change (map kw_text (map tx ((s2l "values", PList l) :: pick sl (names c))))
          with ((s2l "values" ++ s2l "=" ++ txt (PList l)) :: map kw_text (map tx (pick sl (names c)))). rewrite TL.
        assert (J : forall a b (r : list str), join ((a ++ b) :: r) = a ++ join (b :: r)).
        { intros a b [|x r]; [reflexivity|]. rewrite !join_cons2, <- app_assoc. reflexivity. }
        rewrite app_assoc. rewrite J.
        assert (J2 : forall b (r : list str), join ((91%N :: b) :: r) = 91%N :: join (b :: r)).
        { intros b r. apply (J [91%N] b r). }
        rewrite J2.
        change (cname c ++ 40%N :: (91%N :: join ((join (map txt l) ++ [93%N]) :: map kw_text (map tx (pick sl (names c))))) ++ [41%N])
          with (cname c ++ [40%N] ++ 91%N :: join ((join (map txt l) ++ [93%N]) :: map kw_text (map tx (pick sl (names c)))) ++ [41%N]).
        rewrite app_assoc, replace1_at.
        - rewrite <- !app_assoc. reflexivity.
        - intros I. apply in_app_or in I as [I|[I|[]]]; [|discriminate].
          destruct (identifier_chars _ (us_name _ _ _ _ U)). auto. }
      assert (A : ast_of (PObj c ((s2l "_values", PList l) :: sl))
                  = ACall (cname c) [] (map ax ((s2l "values", PList l) :: pick sl (names c)))).
      { cbn [ast_of]. rewrite K. cbn [ast_of] in P, P1. rewrite P, P1. reflexivity. }
      assert (KG' : forall n x, In (n, x) ((s2l "values", PList l) :: pick sl (names c)) -> good x).
      { intros n x [I|I]; [injection I as _ <-; apply list_good; auto|eauto]. }
      destruct (good_pairs _ KG') as [F' E'].
      assert (KO' : Forall (fun kt => identifier (fst kt) /\ starts (snd kt)) kts).
      { unfold kts. cbn [map]. constructor; auto. cbn [tx fst snd]. split; auto.
        cbn. unfold letter. repeat constructor; lia. }
      assert (RD : reads (cname c ++ 40%N :: join (map kw_text kts) ++ [41%N])
                         (ast_of (PObj c ((s2l "_values", PList l) :: sl)))).
      { rewrite A. apply call_reads; [apply (us_name _ _ _ _ U)|]. intros n r Hn.
        pose proof (kwargs_read num_value _ _ F' KO' [] n r) as Q. fold kts in Q. cbn [app length] in Q. apply Q; [left; auto|lia]. }
      destruct (call_shape _ _ _ (us_name _ _ _ _ U) RD) as (_ & S1 & S2).
      eapply good_intro; [exact TX|auto|auto|auto|].
      rewrite A. cbn [ReprModel.eval]. rewrite (us_scope _ _ _ _ U). cbn [omap obind].
      rewrite E'. cbn [obind].
      assert (MF' : map fst (map ax ((s2l "values", PList l) :: pick sl (names c)))
                    = s2l "values" :: map fst (pick sl (names c))).
      { cbn [map]. rewrite MF. reflexivity. }
      destruct (free_name c (s2l "values") sl U) as (H5 & H6 & H7); [rewrite K; cbn; auto|].
      rewrite MF', no_repeats.
      2:{ constructor; [|apply pick_nodup, names_nodup; auto]. apply find_name_none. auto. }
      unfold call_py. rewrite K. cbn [first_param].
      destruct (free_name c (s2l "self") sl U) as (H1 & _ & _); [rewrite K; cbn; auto|].
      destruct (free_name c (s2l "json_data") sl U) as (_ & H2 & H3); [rewrite K; cbn; auto|].
      destruct (free_name c (s2l "init_dict") sl U) as (H4 & _ & _); [rewrite K; cbn; auto|].
      unfold has_name in *.
      change (find_name (s2l "self") ((s2l "values", PList l) :: pick sl (names c)))
        with (find_name (s2l "self") (pick sl (names c))). rewrite H1.
      change (find_name (s2l "json_data") ((s2l "values", PList l) :: pick sl (names c)))
        with (find_name (s2l "json_data") (pick sl (names c))). rewrite H2. cbn [obind].
      change (remove_name (s2l "json_data") ((s2l "values", PList l) :: pick sl (names c)))
        with ((s2l "values", PList l) :: remove_name (s2l "json_data") (pick sl (names c))). rewrite H3.
      change (find_name (s2l "init_dict") ((s2l "values", PList l) :: pick sl (names c)))
        with (find_name (s2l "init_dict") (pick sl (names c))). rewrite H4.
      cbn [decode obind].
      change (find_name (s2l "values") ((s2l "values", PList l) :: pick sl (names c))) with (Some (PList l)).
      change (remove_name (s2l "values") ((s2l "values", PList l) :: pick sl (names c)))
        with (remove_name (s2l "values") (pick sl (names c))). rewrite H7.
      unfold coll_init. rewrite K. cbn [is_list_kind list_items obind].
      rewrite items_kept by auto. cbn [obind]. apply (settled_init _ c [(s2l "_values", PList l)] sl U S).
  - (* a dict collection *)
    pose proof (dict_good l N Hu IHl) as GL.
    assert (NV : ~ In (s2l "_values") (names c)).
    { apply names_free; auto. rewrite K. cbn. auto 10. }
    pose proof (coll_text c (PDict l) sl (us_name _ _ _ _ U) NV IH GL) as CT.
    destruct (kw_ok c sl U IH) as [KO KG]. destruct (good_pairs _ KG) as [F E].
    assert (P : pick (map (fun kv => (fst kv, ast_of (snd kv))) ((s2l "_values", PDict l) :: sl)) (names c)
                = map ax (pick sl (names c))).
    { rewrite pick_map. rewrite pick_skip by auto. reflexivity. }
    assert (P1 : pick (map (fun kv => (fst kv, ast_of (snd kv))) ((s2l "_values", PDict l) :: sl)) [s2l "_values"]
                 = [(s2l "_values", ast_of (PDict l))]) by reflexivity.
    assert (MF : map fst (map ax (pick sl (names c))) = map fst (pick sl (names c))).
    { rewrite map_map. apply map_ext. reflexivity. }
    destruct GL as (GL1 & GL2 & GL3 & GL4 & GL5).
    assert (TL : exists t, txt (PDict l) = 123%N :: t).
    { assert (Q : forall s, repr (PDict l) = Ok s -> exists t, s = 123%N :: t).
      { intros s Hs. cbn [ReprModel.repr] in Hs.
        match type of Hs with bind ?m _ = _ => destruct m; [|discriminate] end.
        cbn [bind] in Hs. injection Hs as <-. eexists. reflexivity. }
      exact (Q _ GL1). }
    assert (A : ast_of (PObj c ((s2l "_values", PDict l) :: sl))
                = ACall (cname c) [ast_of (PDict l)] (map ax (pick sl (names c)))).
    { cbn [ast_of]. rewrite K. cbn [ast_of] in P, P1. rewrite P, P1. reflexivity. }
    assert (RD : reads (cname c ++ 40%N :: join (txt (PDict l) :: map kw_text (map tx (pick sl (names c)))) ++ [41%N])
                       (ast_of (PObj c ((s2l "_values", PDict l) :: sl)))).
    { rewrite A. apply call_reads; [apply (us_name _ _ _ _ U)|]. intros n r Hn.
      apply posargs_read; auto. destruct TL as (t & ->). eauto. }
    destruct (call_shape _ _ _ (us_name _ _ _ _ U) RD) as (_ & S1 & S2).
    eapply good_intro; [cbn [ReprModel.repr]; rewrite K; exact CT|auto|auto|auto|].
    rewrite A. cbn [ReprModel.eval]. rewrite (us_scope _ _ _ _ U). cbn [omap]. rewrite GL5. cbn [obind].
    rewrite E. cbn [obind]. rewrite MF, no_repeats by (apply pick_nodup, names_nodup; auto).
    unfold call_py. rewrite K. cbn [first_param].
    destruct (free_name c (s2l "self") sl U) as (H1 & _ & _); [rewrite K; cbn; auto|]. rewrite H1.
    destruct (free_name c (s2l "values") sl U) as (_ & H2 & H3); [rewrite K; cbn; auto|].
    rewrite H2. cbn [obind]. rewrite H3.
    destruct (free_name c (s2l "init_dict") sl U) as (H4 & _ & _); [rewrite K; cbn; auto|]. rewrite H4.
    unfold coll_init. rewrite K. cbn [is_list_kind dict_items obind].
    rewrite pairs_kept by auto. cbn [obind]. apply (settled_init _ c [(s2l "_values", PDict l)] sl U S).
Qed.

Lemma round_trip_text v : rebuildable v ->
  exists s, repr v = Ok s /\ eval_source W num_value parse by_key fuel scope s = Val v.
Proof.
  intros H. destruct (rebuildable_good v H) as (E & R & _ & _ & V). exists (txt v). split; auto.
  unfold eval_source, parse_source.
  pose proof (R (2 * length (txt v) + 2)%nat [] ltac:(lia) I) as P. rewrite app_nil_r in P.
  rewrite P. exact V.
Qed.
End Main.
