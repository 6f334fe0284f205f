(** Lemmas about the declaration of record types. *)
From Coq Require Import String List NArith Bool Arith Lia Permutation Sorting.Sorted.
Import ListNotations.
From Verif Require Import Prelude TraitModel TraitProofs MetaModel.

(** ** Dicts *)
Lemma dget_in {X} n (d : list (str * X)) x : dget n d = Some x -> In (n, x) d.
Proof.
  induction d as [|[m y] d IH]; simpl; [discriminate|]. destruct (str_eqb n m) eqn:e.
  - intros E; injection E as ->. apply str_eqb_eq in e as ->. auto.
  - auto.
Qed.
Lemma in_dget {X} n (d : list (str * X)) x : NoDup (map fst d) -> In (n, x) d -> dget n d = Some x.
Proof.
  induction d as [|[m y] d IH]; simpl; [intros _ []|]. intros hn [E|i].
  - injection E as -> ->. now rewrite str_eqb_refl.
  - inversion_clear hn as [|? ? h1 h2]. destruct (str_eqb n m) eqn:e; auto.
    apply str_eqb_eq in e as ->. exfalso. apply h1. change m with (fst (m, x)). now apply in_map.
Qed.
Lemma dget_none {X} n (d : list (str * X)) : dget n d = None <-> ~ In n (map fst d).
Proof.
  induction d as [|[m y] d IH]; simpl; [intuition|]. destruct (str_eqb n m) eqn:e.
  - apply str_eqb_eq in e as ->. split; [discriminate|]. intros h; exfalso; auto.
  - apply str_eqb_neq in e. rewrite IH. split; [intros h [E|i]|]; intuition.
Qed.
Lemma dget_dset {X} n m x (d : list (str * X)) : dget n (dset m x d) = if str_eqb n m then Some x else dget n d.
Proof.
  induction d as [|[k y] d IH]; simpl; auto. destruct (str_eqb m k) eqn:e.
  - apply str_eqb_eq in e as ->. simpl. destruct (str_eqb n k); auto.
  - simpl. rewrite IH. destruct (str_eqb n k) eqn:e1; auto. destruct (str_eqb n m) eqn:e2; auto.
    apply str_eqb_eq in e1. apply str_eqb_eq in e2. subst. rewrite str_eqb_refl in e. discriminate.
Qed.
Lemma dset_keys {X} n x (d : list (str * X)) m : In m (map fst (dset n x d)) <-> m = n \/ In m (map fst d).
Proof.
  induction d as [|[k y] d IH]; simpl; [intuition|]. destruct (str_eqb n k) eqn:e; simpl.
  - apply str_eqb_eq in e as ->. intuition.
  - rewrite IH. intuition.
Qed.
Lemma dset_nodup {X} n x (d : list (str * X)) : NoDup (map fst d) -> NoDup (map fst (dset n x d)).
Proof.
  induction d as [|[k y] d IH]; simpl; intros h; [constructor; auto|].
  inversion_clear h as [|? ? h1 h2]. destruct (str_eqb n k) eqn:e; simpl; constructor; auto.
  rewrite dset_keys. intros [->|i]; auto. rewrite str_eqb_refl in e. discriminate.
Qed.
Lemma dupdate_nodup {X} (e : list (str * X)) : forall d, NoDup (map fst d) -> NoDup (map fst (dupdate d e)).
Proof. induction e as [|[n x] e IH]; simpl; intros d h; auto. apply IH, dset_nodup, h. Qed.
Lemma dget_app {X} n (d e : list (str * X)) : dget n (d ++ e) = match dget n d with Some x => Some x | None => dget n e end.
Proof. induction d as [|[m y] d IH]; simpl; auto. destruct (str_eqb n m); auto. Qed.

(** ** The bases *)
Definition pnames (ps : list (str * nat)) : list str := map fst ps.
Definition props_of (bases : list (option (list (str * nat)))) : list (list (str * nat)) :=
  flat_map (fun b => match b with Some ps => [ps] | None => [] end) bases.
Definition shares (a b : list (str * nat)) : Prop := exists n, In n (pnames a) /\ In n (pnames b).

Lemma add_props_spec ps : forall acc, NoDup (pnames acc) -> NoDup (pnames ps) ->
  match add_props acc ps with
  | MOk r => r = acc ++ ps /\ NoDup (pnames r) /\ ~ shares acc ps
  | MErr e => e = MClash /\ shares acc ps
  end.
Proof.
  unfold pnames. induction ps as [|[n p] ps IH]; simpl; intros acc ha hp.
  - rewrite app_nil_r. split; auto. split; auto. intros [n [_ []]].
  - inversion_clear hp as [|? ? h1 h2]. destruct (dget n acc) eqn:e.
    + split; auto. exists n. split; [|simpl; auto]. apply dget_in in e. change n with (fst (n, n0)). now apply in_map.
    + apply dget_none in e.
      assert (hn : NoDup (map fst (acc ++ [(n, p)]))).
      { rewrite map_app. apply nodup_snoc; auto. }
      specialize (IH _ hn h2). destruct (add_props (acc ++ [(n, p)]) ps) as [r|x].
      * destruct IH as (-> & h & ns). rewrite <- app_assoc in *. split; auto. split; auto.
        intros [m [i1 [<-|i2]]]; auto. apply ns. exists m. split; auto. unfold pnames. rewrite map_app. apply in_or_app; auto.
      * destruct IH as [-> [m [i1 i2]]]. split; auto. unfold pnames in i1. rewrite map_app in i1.
        apply in_app_or in i1 as [i1|[<-|[]]].
        -- exists m. split; simpl; auto.
        -- contradiction.
Qed.

Lemma base_props_spec bases : (forall ps, In (Some ps) bases -> NoDup (pnames ps)) -> forall acc, NoDup (pnames acc) ->
  match base_props acc bases with
  | MOk r => r = acc ++ concat (props_of bases) /\ NoDup (pnames r) /\
             Forall (fun b => ~ shares acc b) (props_of bases) /\
             ForallOrdPairs (fun a b => ~ shares a b) (props_of bases)
  | MErr e => e = MClash /\ (Exists (shares acc) (props_of bases) \/
                             ~ ForallOrdPairs (fun a b => ~ shares a b) (props_of bases))
  end.
Proof.
  intros hb. induction bases as [|[ps|] bases IH]; simpl; intros acc ha.
  - rewrite app_nil_r. split; auto. split; auto. split; constructor.
  - pose proof (add_props_spec ps acc ha (hb ps (or_introl eq_refl))) as h1.
    destruct (add_props acc ps) as [r|e].
    + destruct h1 as (-> & hn & ns). specialize (IH (fun q i => hb q (or_intror i)) _ hn).
      destruct (base_props (acc ++ ps) bases) as [r|e].
      * destruct IH as (-> & h & f1 & f2). rewrite <- app_assoc in *. split; auto. split; auto. split.
        -- constructor; auto. eapply Forall_impl; [|apply f1]. intros b nb [m [i1 i2]]. apply nb. exists m.
           split; auto. unfold pnames. rewrite map_app. apply in_or_app; auto.
        -- constructor; auto. eapply Forall_impl; [|apply f1]. intros b nb [m [i1 i2]]. apply nb. exists m.
           split; auto. unfold pnames. rewrite map_app. apply in_or_app; auto.
      * destruct IH as [-> [ex|np]]; split; auto.
        -- apply Exists_exists in ex as [b [ib [m [i1 i2]]]]. unfold pnames in i1. rewrite map_app in i1.
           apply in_app_or in i1 as [i1|i1].
           ++ left. apply Exists_cons_tl, Exists_exists. exists b. split; auto. exists m. auto.
           ++ right. intros f. inversion_clear f as [|? ? fa fb]. rewrite Forall_forall in fa. apply (fa b ib).
              exists m. auto.
        -- right. intros f. inversion_clear f as [|? ? fa fb]. auto.
    + destruct h1 as [-> h1]. split; [reflexivity|]. left. now apply Exists_cons_hd.
  - exact (IH (fun q i => hb q (or_intror i)) acc ha).
Qed.

(** ** The class body *)
Definition body_props (attrs : list (str * attr)) : list (str * nat) :=
  flat_map (fun nv => match snd nv with AProp p => [(fst nv, p)] | _ => [] end) attrs.

Lemma body_props_in attrs n p : In (n, p) (body_props attrs) <-> In (n, AProp p) attrs.
Proof.
  unfold body_props. rewrite in_flat_map. split.
  - intros [[m v] [i j]]. simpl in j. destruct v; [|destruct j|destruct j]. destruct j as [E|[]]. injection E as <- <-. auto.
  - intros i. exists (n, AProp p). split; simpl; auto.
Qed.

Lemma body_loop_err attrs : forall s, snd (body_loop s attrs) = MErr MReserved \/ snd (body_loop s attrs) = MOk tt.
Proof.
  induction attrs as [|[n v] attrs IH]; cbn [body_loop]; intros s; auto.
  destruct (reserved n); auto. destruct v; auto. destruct (bound (l_heap s p)); auto.
Qed.
Lemma body_loop_ok attrs : forall s,
  snd (body_loop s attrs) = MOk tt <-> forall n, In n (map fst attrs) -> reserved n = false.
Proof.
  induction attrs as [|[n v] attrs IH]; cbn [body_loop map fst]; intros s.
  - split; auto. intros _ m [].
  - destruct (reserved n) eqn:er.
    + split; [discriminate|]. intros h. specialize (h n (or_introl eq_refl)). congruence.
    + assert (E : forall s', snd (body_loop s' attrs) = MOk tt <-> (forall m, In m (n :: map fst attrs) -> reserved m = false)).
      { intros s'. rewrite IH. split; intros h m; [intros [<-|i]; auto|intros i; apply h; simpl; auto]. }
      destruct v; auto. destruct (bound (l_heap s p)); auto.
Qed.

(** The mapping: by name, the last property of the body under that name, else what was
    there. *)
Lemma body_loop_props attrs : forall s s', NoDup (map fst attrs) -> body_loop s attrs = (s', MOk tt) ->
  (forall n, dget n (l_props s') = match dget n attrs with Some (AProp p) => Some p | _ => dget n (l_props s) end) /\
  (NoDup (pnames (l_props s)) -> NoDup (pnames (l_props s'))).
Proof.
  induction attrs as [|[m v] attrs IH]; cbn [body_loop map fst]; intros s s' hn.
  - intros E; injection E as <-. simpl. auto.
  - inversion_clear hn as [|? ? h1 h2]. destruct (reserved m); [discriminate|].
    assert (skip : body_loop s attrs = (s', MOk tt) -> (forall p, v <> AProp p) ->
      (forall n, dget n (l_props s') = match dget n ((m, v) :: attrs) with Some (AProp p) => Some p | _ => dget n (l_props s) end) /\
      (NoDup (pnames (l_props s)) -> NoDup (pnames (l_props s')))).
    { intros E np. destruct (IH _ _ h2 E) as [a b]. split; auto. intros n. rewrite a. simpl.
      destruct (str_eqb n m) eqn:e; auto. apply str_eqb_eq in e as ->.
      apply dget_none in h1. rewrite h1. destruct v as [p| |]; auto. destruct (np p eq_refl). }
    destruct v as [p| |]; [|intros E; apply skip; auto; discriminate|intros E; apply skip; auto; discriminate].
    assert (use : forall s1, l_props s1 = dset m p (l_props s) -> body_loop s1 attrs = (s', MOk tt) ->
      (forall n, dget n (l_props s') = match dget n ((m, AProp p) :: attrs) with Some (AProp p) => Some p | _ => dget n (l_props s) end) /\
      (NoDup (pnames (l_props s)) -> NoDup (pnames (l_props s')))).
    { intros s1 e1 E. destruct (IH _ _ h2 E) as [a b]. split.
      - intros n. rewrite a, e1. simpl. rewrite dget_dset. destruct (str_eqb n m) eqn:e; auto.
        apply str_eqb_eq in e as ->. apply dget_none in h1. now rewrite h1.
      - intros h. apply b. rewrite e1. now apply dset_nodup. }
    destruct (bound (l_heap s p)); intros E; refine (use _ _ E); reflexivity.
Qed.

(** No fresh property object is used under two names. *)
Definition fresh_once (h : nat -> pobj) (attrs : list (str * attr)) : Prop :=
  forall n m p, In (n, AProp p) attrs -> In (m, AProp p) attrs -> bound (h p) = false -> n = m.


(** The fresh properties of a body, with their names. *)
Definition locals (h : nat -> pobj) (attrs : list (str * attr)) : list (str * nat) :=
  filter (fun np => negb (bound (h (snd np)))) (body_props attrs).

Definition name_all (l : list (str * nat)) (h : nat -> pobj) : nat -> pobj :=
  fold_left (fun h np => upd_heap h (snd np) (set_name (h (snd np)) (fst np))) l h.
Definition bind_all (l : list (str * nat)) (id : nat) (h : nat -> pobj) : nat -> pobj :=
  fold_left (fun h np => upd_heap h (snd np) (bind (h (snd np)) id)) l h.
Definition aux_step (st : (nat -> pobj) * list (str * nat)) (np : str * nat) : (nat -> pobj) * list (str * nat) :=
  let o := set_name (fst st (snd np)) (fst np) in
  (upd_heap (fst st) (snd np) o, fold_left (fun d e => dset e (snd np) d) (aux_props o) (snd st)).

Lemma dset_fresh {X} n (x : X) d : ~ In n (map fst d) -> dset n x d = d ++ [(n, x)].
Proof.
  induction d as [|[m y] d IH]; simpl; intros h; auto. destruct (str_eqb n m) eqn:e.
  - apply str_eqb_eq in e as ->. exfalso; auto.
  - rewrite IH; auto.
Qed.
Lemma bound_set_name o n : bound (set_name o n) = bound o.
Proof. reflexivity. Qed.

Lemma body_loop_struct attrs : forall s s' h0,
  NoDup (map fst attrs) -> (forall n, In n (map fst attrs) -> ~ In n (map fst (l_local s))) ->
  (forall p, bound (l_heap s p) = bound (h0 p)) ->
  body_loop s attrs = (s', MOk tt) ->
  l_local s' = l_local s ++ locals h0 attrs /\
  (l_heap s', l_aux s') = fold_left aux_step (locals h0 attrs) (l_heap s, l_aux s).
Proof.
  induction attrs as [|[m v] attrs IH]; cbn [body_loop map fst]; intros s s' h0 hn hl hb.
  - intros E; injection E as <-. simpl. rewrite app_nil_r. auto.
  - inversion_clear hn as [|? ? h1 h2]. destruct (reserved m); [discriminate|].
    assert (hl' : forall n, In n (map fst attrs) -> ~ In n (map fst (l_local s))) by (intros n i; apply hl; simpl; auto).
    unfold locals, body_props. cbn [flat_map snd fst].
    destruct v as [p| |]; [|apply IH; auto|apply IH; auto].
    cbn [app filter snd fst]. rewrite <- (hb p). destruct (bound (l_heap s p)) eqn:eb; cbn [negb].
    + intros E. eapply IH in E; eauto.
    + intros E. eapply (IH _ _ h0) in E; auto.
      * cbn [l_local l_heap l_aux] in E. destruct E as [E1 E2]. split.
        -- rewrite E1. rewrite dset_fresh by (apply hl; simpl; auto). rewrite <- app_assoc. reflexivity.
        -- rewrite E2. reflexivity.
      * cbn [l_local]. intros n i. rewrite dset_keys. intros [->|j]; [contradiction|]. now apply (hl' n).
      * cbn [l_heap]. intros q. unfold upd_heap. destruct (Nat.eqb_spec p q) as [->|]; auto.
        rewrite bound_set_name. auto.
Qed.

Lemma aux_steps_heap l : forall h d, fst (fold_left aux_step l (h, d)) = name_all l h.
Proof. induction l as [|np l IH]; intros h d; [reflexivity|]. exact (IH _ _). Qed.

Lemma name_all_cons n q l h : name_all ((n, q) :: l) h = name_all l (upd_heap h q (set_name (h q) n)).
Proof. reflexivity. Qed.
Lemma bind_all_cons n q l id h : bind_all ((n, q) :: l) id h = bind_all l id (upd_heap h q (bind (h q) id)).
Proof. reflexivity. Qed.
Lemma name_all_out l : forall h p, ~ In p (map snd l) -> name_all l h p = h p.
Proof.
  induction l as [|[n q] l IH]; intros h p i; [reflexivity|]. simpl in i. rewrite name_all_cons. rewrite IH by tauto.
  unfold upd_heap. destruct (Nat.eqb_spec q p); auto. subst. tauto.
Qed.
Lemma name_all_in l : NoDup (map snd l) -> forall h n p, In (n, p) l -> name_all l h p = set_name (h p) n.
Proof.
  induction l as [|[m q] l IH]; intros hn h n p; [intros []|]. simpl in hn. inversion_clear hn as [|? ? h1 h2].
  intros [E|i].
  - injection E as -> ->. rewrite name_all_cons. rewrite name_all_out by auto.
    unfold upd_heap. now rewrite Nat.eqb_refl.
  - rewrite name_all_cons. rewrite (IH h2 _ n p i).
    assert (q <> p). { intros ->. apply h1. change p with (snd (n, p)). now apply in_map. }
    unfold upd_heap. destruct (Nat.eqb_spec q p); congruence.
Qed.
Lemma bind_all_out l id : forall h p, ~ In p (map snd l) -> bind_all l id h p = h p.
Proof.
  induction l as [|[n q] l IH]; intros h p i; [reflexivity|]. simpl in i. rewrite bind_all_cons. rewrite IH by tauto.
  unfold upd_heap. destruct (Nat.eqb_spec q p); auto. subst. tauto.
Qed.
Lemma bind_all_in l id : NoDup (map snd l) -> forall h p, In p (map snd l) -> bind_all l id h p = bind (h p) id.
Proof.
  induction l as [|[m q] l IH]; intros hn h p; [intros []|]. simpl in hn. inversion_clear hn as [|? ? h1 h2].
  rewrite bind_all_cons. cbn [map snd]. intros [->|i].
  - rewrite bind_all_out by auto. unfold upd_heap. now rewrite Nat.eqb_refl.
  - rewrite (IH h2 _ p i). assert (q <> p) by congruence.
    unfold upd_heap. destruct (Nat.eqb_spec q p); congruence.
Qed.

(** Fields a declaration never changes. *)
Definition same_static (a b : pobj) : Prop :=
  po_extraneous a = po_extraneous b /\ po_required a = po_required b /\ po_default a = po_default b /\ po_lazy a = po_lazy b.
Lemma name_all_static l : forall h p, same_static (name_all l h p) (h p).
Proof.
  induction l as [|[n q] l IH]; intros h p; [repeat split|]. rewrite name_all_cons.
  destruct (IH (upd_heap h q (set_name (h q) n)) p) as (a & b & c & d). unfold same_static. rewrite a, b, c, d.
  unfold upd_heap. destruct (Nat.eqb_spec q p); subst; repeat split.
Qed.
Lemma bind_all_static l id : forall h p, same_static (bind_all l id h p) (h p).
Proof.
  induction l as [|[n q] l IH]; intros h p; [repeat split|]. rewrite bind_all_cons.
  destruct (IH (upd_heap h q (bind (h q) id)) p) as (a & b & c & d). unfold same_static. rewrite a, b, c, d.
  unfold upd_heap. destruct (Nat.eqb_spec q p); subst; repeat split.
Qed.
Lemma bind_all_name l id : forall h p, po_name (bind_all l id h p) = po_name (h p).
Proof.
  induction l as [|[n q] l IH]; intros h p; [reflexivity|]. rewrite bind_all_cons. rewrite IH.
  unfold upd_heap. destruct (Nat.eqb_spec q p); subst; auto.
Qed.

(** The declaration as a whole. *)
Definition bases_ok (bases : list (option (list (str * nat)))) : Prop :=
  forall ps, In (Some ps) bases -> NoDup (pnames ps).

Lemma declare_struct h id bases attrs pk h' c : bases_ok bases -> NoDup (map fst attrs) ->
  declare_type h id bases attrs pk = (h', MOk c) ->
  base_props [] bases = MOk (concat (props_of bases)) /\
  (forall n, In n (map fst attrs) -> reserved n = false) /\
  (forall n, dget n (c_props c) = match dget n attrs with Some (AProp p) => Some p | _ => dget n (concat (props_of bases)) end) /\
  NoDup (pnames (c_props c)) /\
  coerce_props (c_props c) pk = MOk (c_pk c) /\
  let h1 := name_all (locals h attrs) h in
  h' = bind_all (locals h attrs) id h1 /\
  c_sorted c = ssort h1 (filter (fun p => negb (po_extraneous (h1 p))) (map snd (c_props c))) /\
  c_eager c = map fst (filter (fun np => eager_init (h1 (snd np))) (c_props c)) /\
  c_attrs c = dupdate attrs (map (fun np => (fst np, AAux (snd np))) (snd (fold_left aux_step (locals h attrs) (h, [])))).
Proof.
  intros hb hn. unfold declare_type.
  pose proof (base_props_spec bases hb [] (NoDup_nil _)) as bs.
  destruct (base_props [] bases) as [inh|e]; [|discriminate]. destruct bs as (-> & nd & _). simpl app in *.
  set (s0 := {| l_heap := h; l_props := concat (props_of bases); l_local := []; l_aux := [] |}).
  destruct (body_loop s0 attrs) as [s r] eqn:el.
  destruct r as [[]|e]; [|discriminate].
  destruct (coerce_props (l_props s) pk) as [pks|e] eqn:ec; [|discriminate].
  intros E; injection E as <- <-. cbn [c_props c_pk c_sorted c_eager c_attrs].
  destruct (body_loop_props _ _ _ hn el) as [b1 b2].
  destruct (body_loop_struct attrs s0 s h hn) as [b3 b4]; auto.
  assert (b5 : l_heap s = name_all (locals h attrs) h).
  { rewrite <- (aux_steps_heap _ _ []). change (h, []) with (l_heap s0, l_aux s0). rewrite <- b4. reflexivity. }
  assert (b6 : l_aux s = snd (fold_left aux_step (locals h attrs) (h, []))).
  { change (h, []) with (l_heap s0, l_aux s0). rewrite <- b4. reflexivity. }
  split; auto. split; [apply (body_loop_ok attrs s0); rewrite el; reflexivity|].
  split; auto. split; [apply b2; exact nd|]. split; auto.
  simpl in b3. cbv zeta. rewrite <- b5, b3, b6. auto.
Qed.

(** ** Accessors *)
Lemma dget_dupdate {X} n (e : list (str * X)) : forall d,
  dget n (dupdate d e) = match dget n (rev e) with Some x => Some x | None => dget n d end.
Proof.
  induction e as [|[m x] e IH]; intros d; [reflexivity|]. change (dupdate d ((m, x) :: e)) with (dupdate (dset m x d) e).
  rewrite IH. cbn [rev fst snd]. rewrite dget_app. destruct (dget n (rev e)); auto. rewrite dget_dset. simpl.
  destruct (str_eqb n m); auto.
Qed.

Definition accs (h : nat -> pobj) (l : list (str * nat)) : list (str * nat) :=
  flat_map (fun np => map (fun e => (e, snd np)) (aux_props (set_name (h (snd np)) (fst np)))) l.

Lemma dupdate_app {X} (e f : list (str * X)) d : dupdate d (e ++ f) = dupdate (dupdate d e) f.
Proof. unfold dupdate. apply fold_left_app. Qed.
Lemma fold_dset p es : forall (d : list (str * nat)), fold_left (fun d e => dset e p d) es d = dupdate d (map (fun e => (e, p)) es).
Proof. induction es as [|e es IH]; intros d; [reflexivity|]. apply IH. Qed.

Lemma aux_steps l : NoDup (map snd l) -> forall h d, snd (fold_left aux_step l (h, d)) = dupdate d (accs h l).
Proof.
  induction l as [|[n p] l IH]; intros hn h d; [reflexivity|]. simpl in hn. inversion_clear hn as [|? ? h1 h2].
  cbn [fold_left]. unfold aux_step at 2. cbn [fst snd]. rewrite (IH h2), fold_dset, <- dupdate_app.
  unfold accs. cbn [flat_map fst snd]. f_equal. f_equal. clear IH.
  induction l as [|[m q] l IH]; [reflexivity|]. cbn [flat_map fst snd]. rewrite IH.
  - f_equal. assert (p <> q) by (intros ->; apply h1; simpl; auto). unfold upd_heap.
    destruct (Nat.eqb_spec p q); [contradiction|reflexivity].
  - intros i; apply h1; simpl; auto.
  - now inversion_clear h2.
Qed.

Lemma dget_map {X Y} (f : X -> Y) n d : dget n (map (fun nx => (fst nx, f (snd nx))) d) = option_map f (dget n d).
Proof. induction d as [|[m x] d IH]; simpl; auto. destruct (str_eqb n m); auto. Qed.
Lemma dget_rev {X} n (d : list (str * X)) : dget n (rev d) = None <-> dget n d = None.
Proof. rewrite !dget_none, map_rev, <- in_rev. reflexivity. Qed.

Lemma rev_nodup_dget {X} n (d : list (str * X)) : NoDup (map fst d) -> dget n (rev d) = dget n d.
Proof.
  intros hn. destruct (dget n d) as [x|] eqn:e; [|now rewrite dget_rev].
  apply in_dget; [rewrite map_rev; apply NoDup_rev, hn|]. apply -> in_rev. now apply dget_in.
Qed.

(** ** The sorted list *)
From Coq Require Import Permutation.
Lemma sins_perm h p l : Permutation (p :: l) (sins h p l).
Proof.
  induction l as [|q l IH]; simpl; auto. destruct (str_cmp _ _); auto.
  etransitivity; [apply perm_swap|]. constructor. exact IH.
Qed.
Lemma ssort_perm h l : Permutation l (ssort h l).
Proof. induction l as [|p l IH]; simpl; auto. etransitivity; [constructor; exact IH|]. apply sins_perm. Qed.
Definition name_le (h : nat -> pobj) (p q : nat) : Prop := str_cmp (name_of (h p)) (name_of (h q)) <> Gt.
Lemma cmp_le_trans a b c : str_cmp a b <> Gt -> str_cmp b c <> Gt -> str_cmp a c <> Gt.
Proof.
  intros x y z. destruct (str_cmp a b) eqn:e1; try congruence.
  - apply str_cmp_eq in e1 as ->. congruence.
  - destruct (str_cmp b c) eqn:e2; try congruence.
    + apply str_cmp_eq in e2 as ->. congruence.
    + rewrite (str_cmp_trans _ _ _ e1 e2) in z. discriminate.
Qed.
Lemma sins_sorted h p l : StronglySorted (name_le h) l -> StronglySorted (name_le h) (sins h p l).
Proof.
  induction 1 as [|q l hs IH hf]; simpl; [repeat constructor|].
  destruct (str_cmp (name_of (h p)) (name_of (h q))) eqn:e.
  - constructor; [now constructor|]. constructor; [unfold name_le; congruence|].
    eapply Forall_impl; [|exact hf]. intros r. apply cmp_le_trans. congruence.
  - constructor; [now constructor|]. constructor; [unfold name_le; congruence|].
    eapply Forall_impl; [|exact hf]. intros r. apply cmp_le_trans. congruence.
  - constructor; auto. eapply Permutation_Forall; [apply sins_perm|]. constructor; auto.
    unfold name_le. rewrite str_cmp_anti, e. discriminate.
Qed.
Lemma ssort_sorted h l : StronglySorted (name_le h) (ssort h l).
Proof. induction l; simpl; [constructor|]. now apply sins_sorted. Qed.

(** ** Freshness *)
Lemma body_props_nodup attrs : NoDup (map fst attrs) -> NoDup (map fst (body_props attrs)).
Proof.
  induction attrs as [|[n v] attrs IH]; simpl; intros hn; [constructor|]. inversion_clear hn as [|? ? h1 h2].
  destruct v as [p| |]; simpl; auto. constructor; auto. intros i. apply in_map_iff in i as [[m q] [<- i]].
  apply body_props_in in i. apply h1. change (fst (m, q)) with (fst (m, AProp q)). now apply in_map.
Qed.
Lemma filter_nodup_map {X Y} (g : X -> Y) f (l : list X) : NoDup (map g l) -> NoDup (map g (filter f l)).
Proof.
  induction l as [|x l IH]; simpl; intros hn; auto. inversion_clear hn as [|? ? h1 h2]. destruct (f x); simpl; auto.
  constructor; auto. intros i. apply in_map_iff in i as [y [e i]]. apply filter_In in i as [i _]. apply h1.
  rewrite <- e. now apply in_map.
Qed.
Lemma locals_in h attrs n p : In (n, p) (locals h attrs) <-> In (n, AProp p) attrs /\ bound (h p) = false.
Proof. unfold locals. rewrite filter_In, body_props_in. simpl. now rewrite negb_true_iff. Qed.
Lemma nodup_fst_snd (l : list (str * nat)) : NoDup (map fst l) ->
  (forall n m p, In (n, p) l -> In (m, p) l -> n = m) -> NoDup (map snd l).
Proof.
  induction l as [|[n p] l IH]; simpl; intros hn hf; [constructor|]. inversion_clear hn as [|? ? h1 h2]. constructor.
  - intros i. apply in_map_iff in i as [[m q] [<- i]]. assert (n = m) by (eapply hf; [left; reflexivity|right; exact i]).
    subst. apply h1. change m with (fst (m, q)). now apply in_map.
  - apply IH; auto. intros a b q i j. eapply hf; right; eauto.
Qed.
Lemma locals_nodup h attrs : NoDup (map fst attrs) -> fresh_once h attrs -> NoDup (map snd (locals h attrs)).
Proof.
  intros hn hf. apply nodup_fst_snd.
  - apply filter_nodup_map, body_props_nodup, hn.
  - intros n m p i j. apply locals_in in i as [i hb]. apply locals_in in j as [j _]. eapply hf; eauto.
Qed.

(** ** Errors *)
Lemma shares_pairs bases : ~ ForallOrdPairs (fun a b => ~ shares a b) (props_of bases) <->
  exists l1 ps l2 qs l3 n, bases = l1 ++ Some ps :: l2 ++ Some qs :: l3 /\ In n (pnames ps) /\ In n (pnames qs).
Proof.
  induction bases as [|[ps|] bases IH]; simpl.
  - split; [intros h; destruct h; constructor|]. intros (l1 & ps & l2 & qs & l3 & n & e & _). destruct l1; discriminate.
  - split.
    + intros h.
      assert (d : Forall (fun b => ~ shares ps b) (props_of bases) \/ Exists (shares ps) (props_of bases)).
      { clear. induction (props_of bases) as [|q l IHl]; [left; constructor|].
        assert (ds : shares ps q \/ ~ shares ps q).
        { destruct (existsb (fun n => smem n (pnames q)) (pnames ps)) eqn:e.
          - left. apply existsb_exists in e as [n [i j]]. apply smem_in in j. exists n. auto.
          - right. intros [n [i j]]. rewrite <- not_true_iff_false in e. apply e, existsb_exists. exists n.
            split; auto. now apply smem_in. }
        destruct ds as [s|s]; [right; now constructor|]. destruct IHl; [left|right]; auto. }
      destruct d as [d|d].
      * destruct IH as [IH _]. destruct IH as (l1 & q & l2 & q' & l3 & n & -> & i & j).
        { intros f. apply h. now constructor. }
        exists (Some ps :: l1), q, l2, q', l3, n. auto.
      * apply Exists_exists in d as [q [iq [n [i j]]]]. unfold props_of in iq. apply in_flat_map in iq as [o [io io2]].
        destruct o as [q'|]; [|destruct io2]. destruct io2 as [->|[]]. apply in_split in io as (l2 & l3 & ->).
        exists [], ps, l2, q, l3, n. auto.
    + intros (l1 & q & l2 & q' & l3 & n & e & i & j) f. inversion_clear f as [|? ? fa fb]. destruct l1 as [|o l1].
      * injection e as -> ->. rewrite Forall_forall in fa. apply (fa q'); [|exists n; auto].
        unfold props_of. apply in_flat_map. exists (Some q'). split; [apply in_or_app|]; simpl; auto.
      * injection e as _ ->. destruct IH as [_ IH]. apply IH in fb; auto. exists l1, q, l2, q', l3, n. auto.
  - rewrite IH. split.
    + intros (l1 & q & l2 & q' & l3 & n & -> & i & j). exists (None :: l1), q, l2, q', l3, n. auto.
    + intros (l1 & q & l2 & q' & l3 & n & e & i & j). destruct l1 as [|o l1]; [discriminate|]. injection e as _ ->.
      exists l1, q, l2, q', l3, n. auto.
Qed.

Lemma body_loop_class attrs : forall s p, po_class (l_heap (fst (body_loop s attrs)) p) = po_class (l_heap s p).
Proof.
  induction attrs as [|[n v] attrs IH]; cbn [body_loop]; intros s p; [reflexivity|]. destruct (reserved n); [reflexivity|].
  destruct v as [q| |]; auto. destruct (bound (l_heap s q)); rewrite IH; cbn [l_heap]; auto.
  unfold upd_heap. destruct (Nat.eqb_spec q p); subst; auto.
Qed.
