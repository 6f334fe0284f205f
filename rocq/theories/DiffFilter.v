(** Comparing under a filter: what is reported, what has no influence and what is kept. *)
From Coq Require Import List Arith NArith ZArith Bool Lia Permutation.
From Verif Require Import Prelude SelPathModel FSModel PySeq MFSModel MFSProofs ValModel EqModel EqProofs SeqDiffModel SeqDiffProofs
  FuzzyModel FuzzyProps FuzzyFlip DiffModel DiffProofs DiffSwap DiffTotal DiffExact DiffEntries DiffOnce.
Import ListNotations.

(** ** Specification *)

(** A selector of the filter selects something at, below or above this path. *)
Definition touches (P : list (list elem)) (q : list elem) : Prop :=
  exists p x, In p P /\ covers p (q ++ x).

Section Spec.
Context {A C : Type}.
Variable W : classes A C.
Notation val := (val A C).
Notation prop := (prop A C).
Variable opt : options.
Variable record_id : rtype C -> option mfs -> val -> res val.
Variable m : mfs.
Variable P : list (list elem).

(** plain lists and dicts, and collections of plain items *)
Definition flat (v : val) : Prop :=
  match v with
  | VSeq _ _ | VMap _ => True
  | VLC c _ _ | VDC c _ _ => ValModel.item W c = IPlain
  | _ => False
  end.
Definition of_records (v : val) : Prop :=
  collection v /\ exists c d, class_of v = Some c /\ ValModel.item W c = IRec d.

(** No selector picks single items of a plain list or dict. *)
Definition whole_lists (v : val) : Prop := forall q w x,
  at_path W opt v q w -> flat w -> touches P q -> touches P (q ++ [x]).

(** Two values which agree wherever the filter looks: the slots touched and the items touched
    agree, and the identity of an item, as far as selected, is the same. *)
Inductive alike : list elem -> val -> val -> Prop :=
| alike_same q v : alike q v v
| alike_object q v v' c : same_type v v' -> class_of v = Some c ->
    (forall p, In p (props W c) -> touches P (q ++ [EStr (p_name p)]) ->
       slot v (p_name p) = slot v' (p_name p) \/
       exists u u', slot v (p_name p) = Some u /\ slot v' (p_name p) = Some u' /\ p_compare_as p = None /\
         alike (q ++ [EStr (p_name p)]) u u') ->
    (contents v = contents v' \/
     of_records v /\ length (contents v) = length (contents v') /\
     forall n k u k' u', nth_error (contents v) n = Some (k, u) -> nth_error (contents v') n = Some (k', u') ->
       k = k' /\ (touches P (q ++ [k]) -> alike (q ++ [k]) u u' /\
                  record_id RAuto (getitem_path m (q ++ [k])) u = record_id RAuto (getitem_path m (q ++ [k])) u')) ->
    alike q v v'.

(** Values of such types are never equal: neither is a collection, unless the other is
    neither a plain list or dict nor a collection. *)
Definition unrelated_types (u v : val) : Prop :=
  (collection u -> ~ plain v /\ ~ collection v) /\ (collection v -> ~ plain u).
Definition distinct_types (veqb : val -> val -> bool) : Prop := forall u v, ~ same_type u v ->
  class_of u <> None \/ class_of v <> None -> unrelated_types u v -> veqb u v = false.
(** A slot which holds a collection in one object holds no plain list and no other kind of
    collection in an object of the same class to be compared with it. *)
Definition typed_alike (a b : val) : Prop := forall q q' u v c p x y,
  at_path W opt a q u -> at_path W opt b q' v -> class_of u = Some c -> class_of v = Some c -> In p (props W c) ->
  seen opt p u = Some x -> seen opt p v = Some y -> same_type x y \/ unrelated_types x y.

(** Every collection of records the filter reaches is reached through a wildcard (or as a
    whole), and its items have the same identity whether or not the filter is applied. *)
Definition ids_selected (v : val) : Prop := forall q w, at_path W opt v q w -> of_records w -> touches P q ->
  touches P (q ++ [ENone]) /\
  forall k u, In (k, u) (contents w) -> record_id RAuto (getitem_path m (q ++ [ENone])) u = record_id RAuto None u.
End Spec.

(** The same options with another filter *)
Definition with_filter (f : option mfs) (o : options) : options :=
  mkOptions (o_text o) (o_unchanged_ o) (o_moved o) (o_empty_slots o) (o_empty_items o) (o_duck o) (o_extraneous o)
    f (o_fuzzy o) (o_recurse o).

(** ** Selectors *)

Lemma path_app p : forall m q, getitem_path m (p ++ q) =
  match getitem_path m p with Some m' => getitem_path m' q | None => None end.
Proof.
  induction p as [|x p IH]; intros m q.
  - cbn [app]. change (getitem_path m []) with (if complete m then Some m else Some m). now destruct (complete m).
  - cbn [app]. unfold getitem_path at 1 2. fold getitem_path. destruct (complete m) eqn:Ec.
    { destruct q; cbn [getitem_path]; now rewrite Ec. }
    destruct (hget _ (heads m)) as [[m'|]|]; auto.
    + destruct p as [|y p].
      * cbn [app]. destruct q; auto. change (getitem_path m' []) with (if complete m' then Some m' else Some m'). now destruct (complete m').
      * cbn [app]. apply IH.
    + now destruct q.
Qed.

Lemma complete_only m : MFSProofs.wf m -> complete m = true -> m = complete_mfs.
Proof.
  intros Wm Cm. assert (Hn : has_none m = true).
  { unfold complete in Cm. apply has_none_spec. destruct (hget ENone (heads m)) as [o|] eqn:E; [|discriminate].
    apply hget_in in E. apply in_map_iff. exists (ENone, o). auto. }
  destruct (wf_has_none m Wm Hn) as [o Ho]. unfold complete in Cm. rewrite Ho in Cm. cbn in Cm.
  destruct o; [discriminate|]. destruct m as [hs]. cbn in Ho. now subst.
Qed.

Section Residual.
Variable m : mfs.
Hypothesis Wm : MFSProofs.wf m.
Hypothesis Nm : heads m <> [].
Notation r := (getitem_path m).

Lemma r_true q : sel_true (r q) = match r q with Some _ => true | None => false end.
Proof.
  destruct (r q) as [m'|] eqn:E; auto. cbn. apply getitem_path_nonempty in E; auto. destruct (heads m'); [congruence|reflexivity].
Qed.
Lemma m_true : sel_true (Some m) = true.
Proof. cbn. destruct (heads m); [congruence|reflexivity]. Qed.

Lemma r_same p p' q : r p = r p' -> r (p ++ q) = r (p' ++ q).
Proof. intros E. now rewrite !path_app, E. Qed.
Lemma r_none p q : r p = None -> r (p ++ q) = None.
Proof. intros E. now rewrite path_app, E. Qed.

Lemma contained q : contains m q = true -> r q = Some complete_mfs.
Proof.
  intros H. pose proof (getitem_path_contains q m [] Wm) as G. rewrite app_nil_r, H in G.
  destruct (r q) as [m'|] eqn:E; [|discriminate]. f_equal. apply complete_only; [eapply getitem_path_wf; eauto|].
  symmetry in G. exact G.
Qed.

Lemma wild cf k : MFSProofs.wf cf -> has_none cf = true -> complete cf = false -> getitem cf ENone = getitem_path cf [k].
Proof.
  intros Wc Hn Hc. destruct (wf_has_none cf Wc Hn) as [o Ho]. unfold getitem, getitem_path. rewrite Hc, Hn, Ho. cbn.
  destruct o; reflexivity.
Qed.
End Residual.

Section Touch.
Variable ordm : list arg -> list arg.
Hypothesis Ho : forall l, Permutation (ordm l) l.
Variable P : list (list elem).
Hypothesis Pn : P <> [].
Variable m : mfs.
Hypothesis Hm : make ordm (map AFS P) = Ok m.

Lemma filter_wf : MFSProofs.wf m.
Proof.
  eapply (build_wf ordm Ho); [|exact Hm]. apply Forall_forall. intros a I. apply in_map_iff in I as (p&<-&_). exact I.
Qed.
Lemma filter_contains q : contains m q = true <-> exists p, In p P /\ covers p q.
Proof.
  assert (G : Forall good_arg (map AFS P)) by (apply Forall_forall; intros a I; apply in_map_iff in I as (p&<-&_); exact I).
  rewrite (build_contains ordm Ho _ _ _ G Hm q). unfold MFSProofs.paths. rewrite flat_map_concat_map, map_map. cbn [paths_of].
  split.
  - intros (p&I&Cv). apply in_map_iff in I as (p0&<-&I). apply in_concat in I as (l&I&Il). apply in_map_iff in I as (p1&<-&I).
    destruct Il as [<-|[]]. exists p1. split; auto. destruct p1; [constructor|exact Cv].
  - intros (p&I&Cv). exists (norm p). split; [|destruct p; [constructor|exact Cv]].
    apply in_map_iff. exists p. split; auto. apply in_concat. exists [p]. split; [|now left]. apply in_map_iff. eauto.
Qed.
Lemma filter_heads : heads m <> [].
Proof.
  assert (exists p, In p P) as [p Ip] by (clear - Pn; destruct P as [|p l]; [congruence|]; exists p; now left). intros Z.
  assert (X : forall p q, covers p (p ++ q)) by (clear; induction p; intros q0; cbn [app]; constructor; auto).
  assert (H : contains m (p ++ [ENone]) = true) by (apply filter_contains; exists p; split; [exact Ip|apply X]).
  destruct p; cbn [app contains] in H; destruct m as [hs]; cbn [heads] in Z; subst hs; discriminate H.
Qed.
Lemma touches_iff q : touches P q <-> getitem_path m q <> None.
Proof.
  pose proof filter_wf as Wm. unfold touches. split.
  - intros (p&x&I&Cv) E. assert (H : contains m (q ++ x) = true) by (apply filter_contains; eauto).
    rewrite getitem_path_contains, E in H by auto. discriminate.
  - intros H. destruct (getitem_path m q) as [m'|] eqn:E; [|congruence].
    destruct (wf_inhabited m') as [x Hx]; [eapply getitem_path_wf; eauto|eapply getitem_path_nonempty; eauto; apply filter_heads|].
    assert (G : contains m (q ++ x) = true) by (rewrite getitem_path_contains, E; auto).
    apply filter_contains in G as (p&I&Cv). exists p, x. auto.
Qed.
End Touch.

(** ** The comparison of identified items, as one function of its inputs *)
Section Core.
Context {A C : Type}.
Notation val := (val A C).
Variable veqb : val -> val -> bool.
Variable hashable : val -> bool.
Variable a_falsy : A -> bool.
Variable a_items : A -> res (list (elem * val)).
Variable record_id : rtype C -> option mfs -> val -> res val.
Variable ord : list elem -> list elem -> dorders (A := A) (C := C).

Definition core (opt : options) (rec : val -> val -> list elem -> list elem -> res (list dentry)) (na nb : bool)
    (fa fb : list elem) (ga gb : list (elem * val)) (ta tb : list ((pk val * nat) * elem)) : res (list dentry) :=
  let so := ord fa fb in
  if o_recurse opt then
    let sa := map snd ta in
    let sb := map snd tb in
    do l <- concatM (fun k => do x <- val_at ga k; do y <- val_at gb k; rec x y (fa ++ [k]) (fb ++ [k]))
              (so_keys so (filter (fun k => emem k sb) sa));
    Ok (l ++ map (fun k => (Removed, fa ++ [k], fb)) (so_keys so (filter (fun k => negb (emem k sb)) sa))
          ++ map (fun k => (Added, fa, fb ++ [k])) (so_keys so (filter (fun k => negb (emem k sa)) sb)))
  else
    let va := map fst ta in
    let vb := map fst tb in
    let removed := filter (fun x => negb (kmem veqb x vb)) va in
    let added := filter (fun x => negb (kmem veqb x va)) vb in
    let common := filter (fun x => kmem veqb x vb) va in
    let force := na || nb in
    do l1 <- (if force then
                concatM (fun x =>
                    if na then
                      do k <- key_at veqb tb x; do y <- val_at gb k; rec VNothing y (fa ++ [k]) (fb ++ [k])
                    else
                      do k <- key_at veqb ta x; do y <- val_at ga k; rec y VNothing (fa ++ [k]) (fb ++ [k]))
                  (so_common so (removed ++ added))
              else
                concatM (fun x =>
                    do k <- key_at veqb ta x; do u <- val_at ga k;
                    do j <- key_at veqb tb x; do v <- val_at gb j;
                    rec u v (fa ++ [k]) (fb ++ [j]))
                  (so_common so common));
    let pairs := if negb force && o_fuzzy opt
                 then fuzzy_match veqb (v_falsy a_falsy) (so_fuzzy_a so removed) (so_fuzzy_b so added) else [] in
    do l2 <- concatM (fun xy =>
               do k <- key_at veqb ta (fst xy); do u <- val_at ga k;
               do j <- key_at veqb tb (snd xy); do v <- val_at gb j;
               do l <- rec u v (fa ++ [k]) (fb ++ [j]);
               Ok (l ++ (if o_moved opt && negb (elem_eqb k j) then [(Moved, fa ++ [k], fb ++ [j])]
                         else if o_unchanged_ opt && match changes l with [] => true | _ => false end
                              then [(NoChange, fa ++ [k], fb ++ [j])] else [])))
             pairs;
    let removed := filter (fun x => negb (kmem veqb x (map fst pairs))) removed in
    let added := filter (fun x => negb (kmem veqb x (map snd pairs))) added in
    do l3 <- (if o_unchanged_ opt || o_moved opt then
                concatM (fun x =>
                    do k <- key_at veqb ta x; do j <- key_at veqb tb x;
                    Ok (if o_moved opt && negb (elem_eqb k j) then [(Moved, fa ++ [k], fb ++ [j])]
                        else if o_unchanged_ opt then [(NoChange, fa ++ [k], fb ++ [j])] else []))
                  (so_unchanged so common)
              else Ok []);
    do l4 <- (if force then Ok []
              else concatM (fun x => do k <- key_at veqb ta x; Ok [(Removed, fa ++ [k], fb)]) (so_removed so removed));
    do l5 <- (if force then Ok []
              else concatM (fun x => do k <- key_at veqb tb x; Ok [(Added, fa, fb ++ [k])]) (so_added so added));
    Ok (l1 ++ l2 ++ l3 ++ l4 ++ l5).

Lemma records_core opt rec d a b fa fb : records_iter veqb hashable a_falsy a_items opt record_id ord rec d a b fa fb =
  do sel <- id_selector opt fa;
  if match sel with Some (inr s) => negb (sel_true s) | _ => false end then Ok []
  else
    do ga <- generator a_items a;
    do ia <- id_keys hashable opt record_id d sel fa ga;
    do gb <- generator a_items b;
    do ib <- id_keys hashable opt record_id d sel fa gb;
    core opt rec (is_nothing a) (is_nothing b) fa fb ga gb (tag (keqb veqb) [] ia) (tag (keqb veqb) [] ib).
Proof. reflexivity. Qed.

(** Two runs *)
Variable R : list (dentry) -> list (dentry) -> Prop.
Variable total : bool.   (* the second may succeed only if the first does *)
Definition related (r r' : res (list dentry)) : Prop :=
  match r, r' with
  | Ok l, Ok l' => R l l'
  | Err _, Err _ => True
  | Err _, Ok _ => total = false
  | Ok _, Err _ => False
  end.
Hypothesis R_nil : R [] [].
Hypothesis R_app : forall l l' k k', R l l' -> R k k' -> R (l ++ k) (l' ++ k').

Lemma related_concat {X} (f f' : X -> res (list dentry)) l :
  (forall x, In x l -> related (f x) (f' x)) -> related (concatM f l) (concatM f' l).
Proof.
  induction l as [|x l IH]; intros H; cbn [concatM]; [exact R_nil|].
  pose proof (H x (or_introl eq_refl)) as Hx. specialize (IH (fun y I => H y (or_intror I))).
  destruct (f x) as [u|], (f' x) as [u'|]; cbn [bind related] in *; try (destruct Hx; fail); auto;
    destruct (concatM f l) as [v|], (concatM f' l) as [v'|]; cbn [bind related] in *; auto.
Qed.
Lemma related_bind r r' (f f' : list dentry -> res (list dentry)) : related r r' ->
  (forall l l', R l l' -> related (f l) (f' l')) -> related (do l <- r; f l) (do l <- r'; f' l).
Proof.
  intros H K. destruct r as [l|], r' as [l'|]; cbn [bind related] in *; auto; try (destruct H; fail).
  destruct (f' l'); auto.
Qed.

Lemma core_related opt opt' rec rec' na nb fa fb ga ga' gb gb' ta tb :
  o_recurse opt = o_recurse opt' -> o_fuzzy opt = o_fuzzy opt' -> o_moved opt = o_moved opt' -> o_unchanged_ opt = o_unchanged_ opt' ->
  orders_ok (ord fa fb) ->
  (o_unchanged_ opt = true -> forall l l', R l l' -> changes l = changes l') ->
  (forall k, In k (map snd ta) -> exists u u', val_at ga k = Ok u /\ val_at ga' k = Ok u') ->
  (forall k, In k (map snd tb) -> exists u u', val_at gb k = Ok u /\ val_at gb' k = Ok u') ->
  (forall k j u u' v v', In k (map snd ta) -> In j (map snd tb) -> val_at ga k = Ok u -> val_at ga' k = Ok u' ->
     val_at gb j = Ok v -> val_at gb' j = Ok v' -> related (rec u v (fa ++ [k]) (fb ++ [j])) (rec' u' v' (fa ++ [k]) (fb ++ [j]))) ->
  (na = true -> forall k u u', In k (map snd tb) -> val_at gb k = Ok u -> val_at gb' k = Ok u' ->
     related (rec VNothing u (fa ++ [k]) (fb ++ [k])) (rec' VNothing u' (fa ++ [k]) (fb ++ [k]))) ->
  (nb = true -> forall k u u', In k (map snd ta) -> val_at ga k = Ok u -> val_at ga' k = Ok u' ->
     related (rec u VNothing (fa ++ [k]) (fb ++ [k])) (rec' u' VNothing (fa ++ [k]) (fb ++ [k]))) ->
  (forall k, In k (map snd ta) -> R [(Removed, fa ++ [k], fb)] [(Removed, fa ++ [k], fb)]) ->
  (forall k, In k (map snd tb) -> R [(Added, fa, fb ++ [k])] [(Added, fa, fb ++ [k])]) ->
  (forall t k j, In k (map snd ta) -> In j (map snd tb) -> t = Moved \/ t = NoChange /\ o_unchanged_ opt = true ->
     R [(t, fa ++ [k], fb ++ [j])] [(t, fa ++ [k], fb ++ [j])]) ->
  related (core opt rec na nb fa fb ga gb ta tb) (core opt' rec' na nb fa fb ga' gb' ta tb).
Proof.
  intros Er Ef Em Eu Oo Ch Ta Tb HR HN1 HN2 Rr Ra Rm. unfold core. rewrite <- Er, <- Ef, <- Em, <- Eu.
  destruct Oo as (_&Ok_&_&_&_&_&_&_).
  assert (Km : forall k l, emem k l = true -> In k l).
  { intros k l E. apply existsb_exists in E as (x&I&E). apply elem_eqb_iff in E. now subst. }
  assert (Rmap : forall {X} (f : X -> dentry) l, (forall x, In x l -> R [f x] [f x]) -> R (map f l) (map f l)).
  { intros X f. induction l as [|x l IHl]; intros H; cbn [map]; auto.
    apply (R_app [f x] [f x]); [apply H; now left|apply IHl; intros y I; apply H; now right]. }
  destruct (o_recurse opt).
  - apply related_bind.
    + apply related_concat. intros k I. apply (Permutation_in _ (Ok_ _)) in I. apply filter_In in I as [I E]. apply Km in E.
      destruct (Ta k I) as (u&u'&Eu1&Eu2), (Tb k E) as (v&v'&Ev1&Ev2). rewrite Eu1, Eu2, Ev1, Ev2. cbn [bind]. now apply HR.
    + intros l l' Hl. cbn [related]. repeat apply R_app; auto; apply Rmap; intros k I;
        apply (Permutation_in _ (Ok_ _)) in I; apply filter_In in I as [I _]; auto.
  - assert (Ka : forall (t : list ((pk val * nat) * elem)) x k, key_at veqb t x = Ok k -> In k (map snd t)) by (intros t x k; apply key_at_in).
    apply related_bind.
    + destruct (na || nb) eqn:Force.
      * apply related_concat. intros x _. destruct na.
        -- destruct (key_at veqb tb x) as [k|e] eqn:Ek; [|exact I]. apply Ka in Ek. cbn [bind].
           destruct (Tb k Ek) as (u&u'&E1&E2). rewrite E1, E2. cbn [bind]. now apply HN1.
        -- destruct (key_at veqb ta x) as [k|e] eqn:Ek; [|exact I]. apply Ka in Ek. cbn [bind].
           destruct (Ta k Ek) as (u&u'&E1&E2). rewrite E1, E2. cbn [bind]. now apply HN2.
      * apply related_concat. intros x _. destruct (key_at veqb ta x) as [k|e] eqn:Ek; [|exact I]. apply Ka in Ek. cbn [bind].
        destruct (Ta k Ek) as (u&u'&E1&E2). rewrite E1, E2. cbn [bind].
        destruct (key_at veqb tb x) as [j|e] eqn:Ej; [|exact I]. apply Ka in Ej. cbn [bind].
        destruct (Tb j Ej) as (v&v'&E3&E4). rewrite E3, E4. cbn [bind]. now apply HR.
    + intros l1 l1' H1. cbv zeta. set (pairs := if _ && _ then fuzzy_match _ _ _ _ else []). apply related_bind.
      * apply related_concat. intros xy _. destruct (key_at veqb ta (fst xy)) as [k|e] eqn:Ek; [|exact I]. apply Ka in Ek. cbn [bind].
        destruct (Ta k Ek) as (u&u'&E1&E2). rewrite E1, E2. cbn [bind].
        destruct (key_at veqb tb (snd xy)) as [j|e] eqn:Ej; [|exact I]. apply Ka in Ej. cbn [bind].
        destruct (Tb j Ej) as (v&v'&E3&E4). rewrite E3, E4. cbn [bind]. apply related_bind; [now apply HR|].
        intros l l' Hl. cbn [related]. apply R_app; auto.
        destruct (_ && negb _); [apply Rm; auto|]. destruct (o_unchanged_ opt) eqn:Ou; cbn [andb]; [|exact R_nil].
        rewrite (Ch eq_refl l l' Hl). destruct (changes l'); [apply Rm; auto|exact R_nil].
      * intros l2 l2' H2. apply related_bind.
        -- destruct (o_unchanged_ opt || o_moved opt); [|exact R_nil]. apply related_concat. intros x _.
           destruct (key_at veqb ta x) as [k|e] eqn:Ek; [|exact I]. apply Ka in Ek. cbn [bind].
           destruct (key_at veqb tb x) as [j|e] eqn:Ej; [|exact I]. apply Ka in Ej. cbn [bind related].
           destruct (_ && negb _); [apply Rm; auto|]. destruct (o_unchanged_ opt) eqn:Ou; [apply Rm; auto|exact R_nil].
        -- intros l3 l3' H3. apply related_bind.
           ++ destruct (na || nb); [exact R_nil|]. apply related_concat. intros x _.
              destruct (key_at veqb ta x) as [k|e] eqn:Ek; [|exact I]. apply Ka in Ek. cbn [bind related]. auto.
           ++ intros l4 l4' H4. apply related_bind.
              ** destruct (na || nb); [exact R_nil|]. apply related_concat. intros x _.
                 destruct (key_at veqb tb x) as [k|e] eqn:Ek; [|exact I]. apply Ka in Ek. cbn [bind related]. auto.
              ** intros l5 l5' H5. cbn [related]. repeat apply R_app; auto.
Qed.
End Core.

(** ** The base paths of all entries begin with the path of the base *)
Section Under.
Context {A C : Type}.
Variable W : classes A C.
Variable ceqb : C -> C -> bool.
Notation val := (val A C).
Notation prop := (prop A C).
Variable veqb : val -> val -> bool.
Variable hashable : val -> bool.
Variable repr : val -> str.
Variable a_hash a_falsy : A -> bool.
Variable a_items : A -> res (list (elem * val)).
Variable opt : options.
Variable record_id : rtype C -> option mfs -> val -> res val.
Variable ord : list elem -> list elem -> dorders (A := A) (C := C).
Hypothesis ord_ok : forall fa fb, orders_ok (ord fa fb).

Definition under (fa : list elem) (e : dentry) : Prop := exists x, snd (fst e) = fa ++ x.
Lemma under_sub fa k l : Forall (under (fa ++ [k])) l -> Forall (under fa) l.
Proof. intros H. eapply Forall_impl; [|exact H]. intros e [x E]. exists (k :: x). now rewrite E, <- app_assoc. Qed.
Lemma under_at fa k t (f : list elem) : under fa (t, fa ++ [k], f).
Proof. now exists [k]. Qed.
Lemma under_here fa t (f : list elem) : under fa (t, fa, f).
Proof. exists []. cbn. now rewrite app_nil_r. Qed.

Lemma id_keys_sub d sel fa g : forall i, id_keys hashable opt record_id d sel fa g = Ok i -> incl (map fst i) (map fst g).
Proof.
  induction g as [|[k v] g IH]; cbn [DiffModel.id_keys]; intros i H; [inversion H; apply incl_refl|].
  cbv zeta in H. destruct (match sel with Some (inl _) => _ | _ => _ end); [apply incl_tl; auto|].
  apply bind_ok in H as (x&_&H). destruct (_ && _); [apply incl_tl; auto|].
  destruct (negb (hashable x)); [discriminate H|]. destruct (key_of x); [discriminate H|].
  apply bind_ok in H as (i'&Hi&H). inversion H. cbn [map fst]. apply incl_cons; [now left|]. apply incl_tl; auto.
Qed.

Section Step.
Variable rec : val -> val -> list elem -> list elem -> res (list dentry).
Hypothesis IH : forall a b fa fb l, rec a b fa fb = Ok l -> Forall (under fa) l.

Lemma list_under a b fa fb l : list_iter W veqb hashable repr a_hash a_items opt ord a b fa fb = Ok l -> Forall (under fa) l.
Proof.
  intros H. unfold list_iter in H.
  apply bind_ok in H as (ga&_&H). apply bind_ok in H as (ka&_&H).
  apply bind_ok in H as (gb&_&H). apply bind_ok in H as (kb&_&H). inversion H. clear H.
  apply Forall_map, Forall_forall. intros [[t i] j] _. cbn [fst snd]. destruct i; [apply under_at|apply under_here].
Qed.
Lemma slot_under a b fa fb p l : slot_diff ceqb veqb opt rec a b fa fb p = Ok l -> Forall (under (fa ++ [EStr (p_name p)])) l.
Proof.
  unfold slot_diff. destruct (is_filtered _ _ _); [intros H; inversion H; auto|].
  set (u := normalize_slot opt _ p a). set (v := normalize_slot opt _ p b).
  assert (F1 : forall t f, Forall (under (fa ++ [EStr (p_name p)])) [(t, fa ++ [EStr (p_name p)], f)]).
  { intros t f. constructor; auto. apply under_here. }
  destruct (is_nothing u && is_nothing v); [intros H; inversion H; auto|].
  destruct ((comparable u || comparable v) && _).
  - intros H. apply bind_ok in H as (l0&H0&H). apply IH in H0.
    destruct (xorb _ _); [|inversion H; subst; auto].
    destruct (changes l0) as [|d t]; [destruct (o_unchanged_ opt); inversion H; auto|].
    destruct (forallb _ _); [inversion H; auto|discriminate].
  - destruct (xorb _ _); [intros H; inversion H; auto|]. destruct (negb _); [intros H; inversion H; auto|].
    destruct (o_unchanged_ opt); intros H; inversion H; auto.
Qed.
Lemma record_under a b fa fb l : record_iter W ceqb veqb opt rec a b fa fb = Ok l -> Forall (under fa) l.
Proof.
  unfold record_iter. intros H. destruct (_ && _ && _); [discriminate|]. destruct (class_of _); [|discriminate].
  apply Forall_forall. intros e I. destruct (concatM_in _ _ _ H e I) as (p&u&_&Hp&Iu).
  apply slot_under, under_sub in Hp. rewrite Forall_forall in Hp. auto.
Qed.
Lemma records_under d a b fa fb l : records_iter veqb hashable a_falsy a_items opt record_id ord rec d a b fa fb = Ok l -> Forall (under fa) l.
Proof.
  rewrite records_core. intros H.
  apply bind_ok in H as (sel&_&H). destruct (match sel with Some (inr s) => negb (sel_true s) | _ => false end); [inversion H; auto|].
  apply bind_ok in H as (ga&_&H). apply bind_ok in H as (ia&Ia&H). apply bind_ok in H as (gb&_&H). apply bind_ok in H as (ib&Ib&H).
  apply id_keys_sub in Ia, Ib.
  pose (R := fun l l' : list dentry => l = l' /\ Forall (under fa) l).
  assert (RO : forall x, related R false x x <-> (forall l, x = Ok l -> Forall (under fa) l)).
  { intros [l0|]; cbn [related]; split.
    - intros [_ F] l' E. inversion E. now subst.
    - intros F. split; auto.
    - intros _ l' E. discriminate.
    - auto. }
  revert l H. apply RO. apply core_related; auto; rewrite ?tag_snd_fst.
  - split; auto.
  - intros l l' k k' [-> F] [-> G]. split; auto. now apply Forall_app.
  - now intros _ l l' [-> _].
  - intros k I. apply Ia in I. destruct (val_total _ k I) as (v&Hv&_). eauto.
  - intros k I. apply Ib in I. destruct (val_total _ k I) as (v&Hv&_). eauto.
  - intros k j u u' v v' _ _ Hu Hu' Hv Hv'. rewrite Hu in Hu'. inversion Hu'. subst u'. rewrite Hv in Hv'. inversion Hv'. subst v'.
    apply RO. intros l Hl. apply IH in Hl. eapply under_sub; eauto.
  - intros _ k u u' _ Hu Hu'. rewrite Hu in Hu'. inversion Hu'. subst u'. apply RO. intros l Hl. apply IH in Hl. eapply under_sub; eauto.
  - intros _ k u u' _ Hu Hu'. rewrite Hu in Hu'. inversion Hu'. subst u'. apply RO. intros l Hl. apply IH in Hl. eapply under_sub; eauto.
  - intros k _. split; auto. constructor; auto. apply under_at.
  - intros k _. split; auto. constructor; auto. apply under_here.
  - intros t k j _ _ _. split; auto. constructor; auto. apply under_at.
Qed.
Lemma dispatch_under a b fa fb l :
  dispatch W ceqb veqb hashable repr a_hash a_falsy a_items opt record_id ord rec a b fa fb = Ok l -> Forall (under fa) l.
Proof.
  unfold dispatch.
  assert (G : (do l <- collection_iter W veqb hashable repr a_hash a_falsy a_items opt record_id ord rec a b fa fb;
     do m <- record_iter W ceqb veqb opt rec a b fa fb; Ok (l ++ m)) = Ok l -> Forall (under fa) l).
  { intros H. apply bind_ok in H as (l1&H1&H). apply bind_ok in H as (l2&H2&H). inversion H.
    apply Forall_app. split; [|eapply record_under; eauto].
    unfold collection_iter in H1. destruct (class_of _); [|discriminate].
    destruct (ValModel.item W c); [discriminate|eapply records_under; eauto|eapply list_under; eauto]. }
  destruct (if is_nothing a then b else a); intros H; try (inversion H; auto; fail);
    try (eapply list_under; eauto; fail); try (eapply record_under; eauto; fail); auto.
Qed.
End Step.
Lemma diff_under n : forall a b fa fb l,
  diff W ceqb veqb hashable repr a_hash a_falsy a_items opt record_id ord n a b fa fb = Ok l -> Forall (under fa) l.
Proof. induction n as [|n IHn]; intros; [discriminate|]. cbn [diff] in *. eapply dispatch_under; eauto. Qed.
End Under.

(** ** Comparison *)
Section Filter.
Context {A C : Type}.
Variable W : classes A C.
Variable ceqb : C -> C -> bool.
Notation val := (val A C).
Notation prop := (prop A C).
Variable veqb : val -> val -> bool.
Variable hashable : val -> bool.
Variable repr : val -> str.
Variable a_hash a_falsy : A -> bool.
Variable a_items : A -> res (list (elem * val)).
Variable opt : options.
Variable record_id : rtype C -> option mfs -> val -> res val.
Variable ord : list elem -> list elem -> dorders (A := A) (C := C).

Variable ordm : list arg -> list arg.
Hypothesis Ho : forall l, Permutation (ordm l) l.
Variable P : list (list elem).
Hypothesis Pn : P <> [].
Variable m : mfs.
Hypothesis Hm : make ordm (map AFS P) = Ok m.
Hypothesis Hf : o_filter opt = Some m.
Hypothesis Hd : o_duck opt = false.
Hypothesis ord_ok : forall fa fb, orders_ok (ord fa fb).
Hypothesis ceq : forall c d, ceqb c d = true <-> c = d.
Hypothesis keeps : keeps_wf W.

Notation r := (getitem_path m).
Notation diff := (diff W ceqb veqb hashable repr a_hash a_falsy a_items opt record_id ord).
Notation dispatch := (dispatch W ceqb veqb hashable repr a_hash a_falsy a_items opt record_id ord).
Notation records_iter := (records_iter veqb hashable a_falsy a_items opt record_id ord).
Notation list_iter := (list_iter W veqb hashable repr a_hash a_items opt ord).
Notation collection_iter := (collection_iter W veqb hashable repr a_hash a_falsy a_items opt record_id ord).
Notation record_iter := (record_iter W ceqb veqb opt).
Notation slot_diff := (slot_diff ceqb veqb opt).
Notation id_keys := (id_keys hashable opt record_id).
Notation wfv := (wfv W).
Notation seen := (seen (A := A) (C := C) opt).

Let Wm : MFSProofs.wf m := filter_wf ordm Ho P m Hm.
Let Nm : heads m <> [] := filter_heads ordm Ho P Pn m Hm.

Lemma filtered p fs : is_filtered (A := A) (C := C) opt p fs =
  (negb (o_extraneous opt) && p_extraneous p) || match r fs with Some _ => false | None => true end.
Proof.
  unfold is_filtered. rewrite Hf, (m_true m Nm), (r_true m Wm Nm). cbn [andb]. now destruct (r fs).
Qed.

(** the selector for a collection: by wildcard or key by key *)
Lemma id_sel fa cf : r fa = Some cf ->
  (has_none cf = false /\ id_selector opt fa = Ok (Some (inl cf))) \/
  (has_none cf = true /\ exists s, id_selector opt fa = Ok (Some (inr (Some s))) /\ forall k, r (fa ++ [k]) = Some s).
Proof.
  intros E. assert (Wc : MFSProofs.wf cf) by (eapply getitem_path_wf; eauto).
  unfold id_selector. rewrite Hf, (m_true m Nm).
  replace (match fa with [] => Some m | _ :: _ => r fa end) with (Some cf).
  2:{ destruct fa; auto. rewrite <- E. change (r []) with (if complete m then Some m else Some m). now destruct (complete m). }
  destruct (has_none cf) eqn:Hn; cbn [negb]; [right|left; auto]. split; auto.
  destruct (complete cf) eqn:Hc.
  - exists cf. split; auto. intros k. rewrite path_app, E. unfold getitem_path. now rewrite Hc.
  - destruct (wf_has_none cf Wc Hn) as [o Eo]. rewrite Eo. cbn [length Nat.ltb Nat.leb].
    assert (exists s, getitem cf ENone = Some s) as [s Es].
    { unfold getitem. rewrite Hc, Eo. cbn. destruct o; eauto. }
    exists s. rewrite Es. split; auto. intros k. rewrite path_app, E, <- (wild cf k); auto.
Qed.

(** the items taking part *)
Definition chosen (fa : list elem) (k : elem) : Prop :=
  match id_selector opt fa with Ok (Some (inl _)) => contains m (fa ++ [k]) = true | _ => True end.

Lemma chosen_r fa fb k j : r fa <> None -> r fa = r fb -> chosen fa k -> chosen fa j ->
  r (fa ++ [k]) = r (fb ++ [j]) /\ r (fa ++ [k]) <> None.
Proof.
  intros N E Hk Hj. rewrite <- (r_same m fa fb [j] E). destruct (r fa) as [cf|] eqn:Ea; [|congruence].
  unfold chosen in *. destruct (id_sel fa cf Ea) as [[_ Es]|[_ (s&Es&Er)]]; rewrite Es in Hk, Hj.
  - rewrite (contained m Wm _ Hk), (contained m Wm _ Hj). split; congruence.
  - rewrite !Er. split; congruence.
Qed.

(** what of the selector reaches record_id is the part of the filter below the item *)
Definition below (sel : option (mfs + option mfs)) (k : elem) : option mfs :=
  match sel with Some (inl cf) => getitem cf k | Some (inr s) => s | None => None end.
Lemma below_r fa sel k : r fa <> None -> id_selector opt fa = Ok sel -> below sel k = r (fa ++ [k]).
Proof.
  intros N Es. destruct (r fa) as [cf|] eqn:Ea; [|congruence].
  destruct (id_sel fa cf Ea) as [[Hn Es']|[_ (s&Es'&Er)]]; rewrite Es' in Es; inversion Es; subst sel; cbn [below].
  - rewrite path_app, Ea. unfold getitem, getitem_path. destruct (complete cf); auto. now rewrite Hn.
  - now rewrite Er.
Qed.

Lemma id_keys_chosen d fa sel l : id_selector opt fa = Ok sel -> forall i, id_keys d sel fa l = Ok i ->
  forall k, In k (map fst i) -> chosen fa k /\ In k (map fst l).
Proof.
  intros Es. induction l as [|[k v] t IH]; cbn [DiffModel.id_keys map fst]; intros i H k0 I; [inversion H; subst; destruct I|].
  assert (Step : forall skip, skip = match sel with Some (inl _) => negb (contains m (fa ++ [k])) | _ => false end ->
    match sel, o_filter opt with Some (inl _), Some m0 => negb (contains m0 (fa ++ [k])) | _, _ => false end = skip).
  { intros skip ->. rewrite Hf. destruct sel as [[|]|]; reflexivity. }
  rewrite (Step _ eq_refl) in H. clear Step.
  destruct (match sel with Some (inl _) => negb (contains m (fa ++ [k])) | _ => false end) eqn:Sk.
  - destruct (IH _ H _ I). split; [auto|now right].
  - assert (Ck : chosen fa k).
    { unfold chosen. rewrite Es. destruct sel as [[cf|s]|]; auto. now apply negb_false_iff in Sk. }
    apply bind_ok in H as (x&Hx&H). destruct (_ && _); [destruct (IH _ H _ I); split; [auto|now right]|].
    destruct (negb (hashable x)); [discriminate H|]. destruct (key_of x); [discriminate H|].
    apply bind_ok in H as (i'&Hi&H). inversion H; subst i. cbn [map fst] in I.
    destruct I as [<-|I]; [split; [auto|now left]|]. destruct (IH _ Hi _ I). split; [auto|now right].
Qed.

(** *** Slots *)
Definition norm (p : prop) (v : val) : val :=
  normalize_slot opt (match slot v (p_name p) with Some u => u | None => VNothing end) p v.

Lemma norm_seen p v : is_nothing (norm p v) = false -> seen p v = Some (norm p v).
Proof.
  unfold norm, normalize_slot, DiffExact.seen, present, normalize_val.
  assert (G : forall x : val, is_nothing (if o_empty_slots opt && match match x with VText s => VText (o_text opt s) | _ => x end with VText [] | VNone => true | _ => false end
                                  then VNothing else match x with VText s => VText (o_text opt s) | _ => x end) = false ->
     is_nothing x = false /\
     (if o_empty_slots opt && match match x with VText s => VText (o_text opt s) | _ => x end with VText [] | VNone => true | _ => false end
                                  then VNothing else match x with VText s => VText (o_text opt s) | _ => x end) = as_text opt x).
  { intros x. destruct (_ && _); [discriminate|]. destruct x; cbn; auto. }
  intros H. destruct (slot v (p_name p)) as [u|].
  - destruct (is_nothing u) eqn:Nu.
    + destruct u; try discriminate Nu. apply G in H as [H _]. destruct (p_compare_as p); discriminate H.
    + destruct (p_compare_as p) as [f|]; apply G in H as [H ->]; now rewrite H.
  - apply G in H as [H _]. destruct (p_compare_as p); discriminate H.
Qed.
Lemma norm_nothing p (v : val) : is_nothing v = true -> is_nothing (norm p v) = true.
Proof.
  intros Nv. destruct v; try discriminate Nv. unfold norm, normalize_slot, normalize_val. cbn [slot].
  destruct (p_compare_as p); cbn; now rewrite andb_false_r.
Qed.

Lemma at_app v q w : at_path W opt v q w -> forall q' u, at_path W opt w q' u -> at_path W opt v (q ++ q') u.
Proof. induction 1; intros q' u0 H'; cbn [app]; auto; econstructor; eauto. Qed.

(** the value of a root at a path, or nothing *)
Definition live (o v : val) (q : list elem) : Prop := is_nothing v = true \/ (at_path W opt o q v /\ wfv v).
Lemma live_slot o v q c p : live o v q -> (is_nothing v = true \/ class_of v = Some c) -> In p (props W c) ->
  live o (norm p v) (q ++ [EStr (p_name p)]).
Proof.
  intros [Nv|[Av Wv]] Cv Ip; [left; now apply norm_nothing|]. destruct (is_nothing (norm p v)) eqn:N; [now left|right].
  apply norm_seen in N. destruct Cv as [Nv|Ev]; [destruct v; try discriminate Nv; discriminate N|]. split.
  - eapply at_app; eauto. eapply at_slot; eauto. constructor.
  - eapply (seen_wf W opt keeps); eauto.
Qed.
Lemma live_item o v q k u : live o v q -> In (k, u) (contents v) -> live o u (q ++ [k]).
Proof.
  intros [Nv|[Av Wv]] I; [destruct v; try discriminate Nv; destruct I|right]. split.
  - eapply at_app; eauto. eapply at_item; eauto. constructor.
  - eapply contents_wf; eauto.
Qed.

Definition kindred (a b : val) : Prop :=
  same_type a b \/ (class_of a <> None /\ class_of b <> None) \/ is_nothing a = true \/ is_nothing b = true.
Definition main (a b : val) : val := if is_nothing a then b else a.

Lemma generator_contents (v : val) c : (is_nothing v = true \/ (class_of v = Some c /\ collection v)) -> generator a_items v = Ok (contents v).
Proof. intros [N|[E Cv]]; destruct v; try discriminate N; try (destruct Cv; fail); reflexivity. Qed.

(** *** Everything reported is selected *)
Section Sound.
Variables a0 b0 : val.
Hypothesis La : whole_lists W opt P a0.
Hypothesis Lb : whole_lists W opt P b0.

Definition fine (e : dentry) : Prop := r (snd (fst e)) <> None /\ r (snd e) <> None.
Definition R1 (l l' : list dentry) : Prop := l = l' /\ Forall fine l.
Lemma R1_nil : R1 [] [].
Proof. split; auto. Qed.
Lemma R1_app l l' k k' : R1 l l' -> R1 k k' -> R1 (l ++ k) (l' ++ k').
Proof. intros [-> F] [-> G]. split; auto. now apply Forall_app. Qed.
Lemma R1_one e : fine e -> R1 [e] [e].
Proof. intros F. split; auto. Qed.
Lemma R1_ok x : related R1 false x x <-> (forall l, x = Ok l -> Forall fine l).
Proof.
  destruct x as [l|]; cbn [related]; split.
  - intros [_ F] l' E. inversion E. now subst.
  - intros F. split; auto.
  - intros _ l E. discriminate.
  - auto.
Qed.

Lemma flat_reach a b fa fb : live a0 a fa -> live b0 b fb -> r fa <> None -> r fa = r fb -> flat W (main a b) ->
  forall x, r (fa ++ [x]) <> None.
Proof.
  intros Va Vb N E F x. unfold main in F. destruct (is_nothing a) eqn:Na.
  - destruct Vb as [Nb|[Ab _]]; [destruct b; try discriminate Nb; destruct F|].
    rewrite (r_same m fa fb [x] E). apply (touches_iff ordm Ho P Pn m Hm). eapply Lb; eauto.
    apply (touches_iff ordm Ho P Pn m Hm). congruence.
  - destruct Va as [Na'|[Aa _]]; [congruence|]. apply (touches_iff ordm Ho P Pn m Hm). eapply La; eauto.
    now apply (touches_iff ordm Ho P Pn m Hm).
Qed.

Lemma list_sound a b fa fb l : r fa <> None -> r fa = r fb -> (forall x, r (fa ++ [x]) <> None) ->
  list_iter a b fa fb = Ok l -> Forall fine l.
Proof.
  intros N E X H. unfold DiffModel.list_iter in H.
  apply bind_ok in H as (ga&Ga&H). apply bind_ok in H as (ka&Ka&H).
  apply bind_ok in H as (gb&Gb&H). apply bind_ok in H as (kb&Kb&H). inversion H. clear H.
  apply Forall_map, Forall_forall. intros [[t i] j] _. cbn [fst snd]. split.
  - cbn [fst snd]. destruct i; cbn [place]; auto.
  - cbn [fst snd]. destruct j; cbn [place]; [|congruence]. rewrite <- (r_same m fa fb _ E). auto.
Qed.

Section Step.
Variable rec : val -> val -> list elem -> list elem -> res (list dentry).
Hypothesis IH : forall a b fa fb l, r fa <> None -> r fa = r fb -> live a0 a fa -> live b0 b fb -> kindred a b ->
  rec a b fa fb = Ok l -> Forall fine l.

Lemma slot_sound c a b fa fb p l : r fa <> None -> r fa = r fb -> live a0 a fa -> live b0 b fb ->
  (is_nothing a = true \/ class_of a = Some c) -> (is_nothing b = true \/ class_of b = Some c) -> In p (props W c) ->
  slot_diff rec a b fa fb p = Ok l -> Forall fine l.
Proof.
  intros N E Va Vb Ca Cb Ip. unfold DiffModel.slot_diff. rewrite filtered.
  destruct (negb (o_extraneous opt) && p_extraneous p); [intros H; inversion H; auto|]. cbn [orb].
  destruct (r (fa ++ [EStr (p_name p)])) as [s|] eqn:Es; [|intros H; inversion H; auto].
  assert (Es' : r (fb ++ [EStr (p_name p)]) = Some s) by (rewrite <- (r_same m fa fb _ E); auto).
  fold (norm p a) (norm p b). set (u := norm p a). set (v := norm p b).
  assert (Lu : live a0 u (fa ++ [EStr (p_name p)])) by (eapply live_slot; eauto).
  assert (Lv : live b0 v (fb ++ [EStr (p_name p)])) by (eapply live_slot; eauto).
  assert (F1 : forall t, Forall fine [(t, fa ++ [EStr (p_name p)], fb ++ [EStr (p_name p)])]).
  { intros t. constructor; auto. split; cbn [fst snd]; congruence. }
  destruct (is_nothing u && is_nothing v); [intros H; inversion H; auto|]. rewrite Hd, orb_false_r.
  destruct (_ && _) eqn:B.
  - intros H. apply bind_ok in H as (l0&H0&H). apply IH in H0; auto; try congruence.
    + destruct (xorb _ _); [|inversion H; subst; auto].
      destruct (changes l0) as [|d t]; [destruct (o_unchanged_ opt); inversion H; auto|].
      destruct (forallb _ _); [inversion H; auto|discriminate].
    + apply andb_true_iff in B as [_ B]. apply orb_true_iff in B as [B|B].
      * left. now apply (same_type_iff ceqb ceq).
      * apply andb_true_iff in B as [_ B]. right. right. destruct (is_nothing u), (is_nothing v); auto; discriminate.
  - destruct (xorb _ _); [intros H; inversion H; auto|]. destruct (negb _); [intros H; inversion H; auto|].
    destruct (o_unchanged_ opt); intros H; inversion H; auto.
Qed.

Lemma record_class c a b fa fb l : class_of (main a b) = Some c -> record_iter rec a b fa fb = Ok l ->
  (is_nothing a = true \/ class_of a = Some c) /\ (is_nothing b = true \/ class_of b = Some c) /\
  (same_type a b \/ is_nothing a = true \/ is_nothing b = true).
Proof.
  unfold DiffModel.record_iter, main. rewrite Hd. cbn [negb andb]. intros Ec H.
  destruct (is_nothing a) eqn:Na.
  - destruct b; try discriminate Ec; auto.
  - destruct (is_nothing b) eqn:Nb; [auto|]. cbn [orb negb] in H. rewrite andb_true_r in H.
    destruct (types_match ceqb a b) eqn:T; [|discriminate H].
    apply (same_type_iff ceqb ceq) in T. split; [auto|]. split; [|auto]. right. eapply same_class; eauto.
Qed.

Lemma record_sound c a b fa fb l : r fa <> None -> r fa = r fb -> live a0 a fa -> live b0 b fb ->
  class_of (main a b) = Some c -> record_iter rec a b fa fb = Ok l -> Forall fine l.
Proof.
  intros N E Va Vb Ec H. destruct (record_class c a b fa fb l Ec H) as (Ca&Cb&_).
  unfold DiffModel.record_iter in H. destruct (_ && _); [discriminate|]. fold (main a b) in H. rewrite Ec in H.
  apply Forall_forall. intros e I. destruct (concatM_in _ _ _ H e I) as (p&u&Ip&Hp&Iu).
  apply all_properties_in in Ip. eapply slot_sound in Hp; eauto. rewrite Forall_forall in Hp. auto.
Qed.

Lemma records_sound c d a b fa fb l : r fa <> None -> r fa = r fb -> live a0 a fa -> live b0 b fb ->
  (is_nothing a = true \/ class_of a = Some c) -> (is_nothing b = true \/ class_of b = Some c) ->
  (same_type a b \/ is_nothing a = true \/ is_nothing b = true) ->
  collection (main a b) -> ValModel.item W c = IRec d -> records_iter rec d a b fa fb = Ok l -> Forall fine l.
Proof.
  intros N E Va Vb Ca Cb T Cm Ei. rewrite records_core. intros H.
  assert (Ka : is_nothing a = true \/ class_of a = Some c /\ collection a).
  { destruct (is_nothing a) eqn:Na; [now left|right]. unfold main in Cm. rewrite Na in Cm. destruct Ca; [congruence|auto]. }
  assert (Kb : is_nothing b = true \/ class_of b = Some c /\ collection b).
  { destruct (is_nothing b) eqn:Nb; [now left|right]. destruct Cb as [|Cb]; [congruence|]. split; auto.
    unfold main in Cm. destruct (is_nothing a) eqn:Na; auto. destruct T as [T|[T|T]]; try congruence.
    destruct a, b; try (destruct T; fail); try (destruct Cm; fail); exact I. }
  rewrite (generator_contents a c Ka), (generator_contents b c Kb) in H. cbn [bind] in H.
  apply bind_ok in H as (sel&Es&H). destruct (match sel with Some (inr s) => negb (sel_true s) | _ => false end); [inversion H; auto|].
  apply bind_ok in H as (ia&Ia&H). apply bind_ok in H as (ib&Ib&H).
  pose proof (id_keys_chosen d fa sel _ Es ia Ia) as Xa. pose proof (id_keys_chosen d fa sel _ Es ib Ib) as Xb.
  revert l H. apply R1_ok. apply core_related; auto using R1_nil, R1_app; rewrite ?tag_snd_fst.
  - now intros _ l l' [-> _].
  - intros k I. apply Xa in I as [_ I]. destruct (val_total _ k I) as (v&Hv&_). eauto.
  - intros k I. apply Xb in I as [_ I]. destruct (val_total _ k I) as (v&Hv&_). eauto.
  - intros k j u u' v v' Ik Ij Hu Hu' Hv Hv'. rewrite Hu in Hu'. inversion Hu'. subst u'. rewrite Hv in Hv'. inversion Hv'. subst v'.
    apply R1_ok. intros l Hl. apply Xa in Ik as [Ik _]. apply Xb in Ij as [Ij _].
    destruct (chosen_r fa fb k j N E Ik Ij) as [E1 N1]. apply val_at_in in Hu, Hv.
    refine (IH _ _ _ _ l N1 E1 _ _ _ Hl); [eapply live_item; eauto|eapply live_item; eauto|].
    right. left. split.
    + destruct Va as [Na|[_ Wa]]; [destruct a; try discriminate Na; destruct Hu|].
      destruct Ka as [Na|[Ea Ca']]; [destruct a; try discriminate Na; destruct Hu|]. eapply contents_rec; eauto.
    + destruct Vb as [Nb|[_ Wb]]; [destruct b; try discriminate Nb; destruct Hv|].
      destruct Kb as [Nb|[Eb Cb']]; [destruct b; try discriminate Nb; destruct Hv|]. eapply contents_rec; eauto.
  - intros Na k u u' Ik Hu Hu'. rewrite Hu in Hu'. inversion Hu'. subst u'. apply R1_ok. intros l Hl.
    apply Xb in Ik as [Ik _]. destruct (chosen_r fa fb k k N E Ik Ik) as [E1 N1]. apply val_at_in in Hu.
    refine (IH _ _ _ _ l N1 E1 _ _ _ Hl); [now left|eapply live_item; eauto|]. right. right. now left.
  - intros Nb k u u' Ik Hu Hu'. rewrite Hu in Hu'. inversion Hu'. subst u'. apply R1_ok. intros l Hl.
    apply Xa in Ik as [Ik _]. destruct (chosen_r fa fb k k N E Ik Ik) as [E1 N1]. apply val_at_in in Hu.
    refine (IH _ _ _ _ l N1 E1 _ _ _ Hl); [eapply live_item; eauto|now left|]. right. right. now right.
  - intros k Ik. apply Xa in Ik as [Ik _]. destruct (chosen_r fa fb k k N E Ik Ik) as [E1 N1].
    apply R1_one. split; cbn [fst snd]; congruence.
  - intros k Ik. apply Xb in Ik as [Ik _]. destruct (chosen_r fa fb k k N E Ik Ik) as [E1 N1].
    apply R1_one. split; cbn [fst snd]; congruence.
  - intros t k j Ik Ij _. apply Xa in Ik as [Ik _]. apply Xb in Ij as [Ij _].
    destruct (chosen_r fa fb k j N E Ik Ij) as [E1 N1]. apply R1_one. split; cbn [fst snd]; congruence.
Qed.

Lemma dispatch_sound a b fa fb l : r fa <> None -> r fa = r fb -> live a0 a fa -> live b0 b fb -> kindred a b ->
  dispatch rec a b fa fb = Ok l -> Forall fine l.
Proof.
  intros N E Va Vb K. unfold DiffModel.dispatch. fold (main a b).
  assert (G : forall c, collection (main a b) -> class_of (main a b) = Some c ->
    (do l <- collection_iter rec a b fa fb; do m <- record_iter rec a b fa fb; Ok (l ++ m)) = Ok l -> Forall fine l).
  { intros c Cm Ec H. apply bind_ok in H as (l1&H1&H). apply bind_ok in H as (l2&H2&H). inversion H.
    apply Forall_app. split; [|eapply record_sound; eauto].
    destruct (record_class c a b fa fb l2 Ec H2) as (Ca&Cb&T).
    unfold DiffModel.collection_iter in H1. fold (main a b) in H1. rewrite Ec in H1.
    destruct (ValModel.item W c) as [|d|] eqn:Ei; [discriminate| |].
    - eapply records_sound; eauto.
    - eapply list_sound; eauto. eapply flat_reach; eauto. destruct (main a b); try (destruct Cm; fail); cbn in Ec; inversion Ec; subst; exact Ei. }
  pose proof (flat_reach a b fa fb Va Vb N E) as FR. pose proof (fun c => record_sound c a b fa fb) as RS.
  destruct (main a b) eqn:Em; intros H; try (inversion H; auto; fail).
  - eapply list_sound; eauto. apply FR. exact I.
  - eapply list_sound; eauto. apply FR. exact I.
  - eapply RS; eauto. reflexivity.
  - eapply G; eauto; reflexivity.
  - eapply G; eauto; reflexivity.
Qed.
End Step.

Lemma diff_sound n : forall a b fa fb l, r fa <> None -> r fa = r fb -> live a0 a fa -> live b0 b fb -> kindred a b ->
  diff n a b fa fb = Ok l -> Forall fine l.
Proof.
  induction n as [|n IHn]; intros a b fa fb l N E Va Vb K H; [discriminate|]. cbn [DiffModel.diff] in H. eapply dispatch_sound; eauto.
Qed.
End Sound.

(** *** What is not selected has no influence *)
Section Same.
Variables a0 b0 : val.
Hypothesis Obj : forall c p f o o' u, In p (props W c) -> p_compare_as p = Some f -> f o u = f o' u.
Hypothesis Strict : distinct_types veqb.
Hypothesis Typed : typed_alike W opt a0 b0.
Notation alike := (alike W record_id m P).

Notation R2 := (@eq (list dentry)).
Lemma R2_app (l l' k k' : list dentry) : l = l' -> k = k' -> l ++ k = l' ++ k'.
Proof. congruence. Qed.
Lemma R2_refl x : related R2 true x x.
Proof. destruct x; cbn; auto. Qed.

Lemma alike_cases q v v' : alike q v v' -> v = v' \/ (same_type v v' /\ class_of v <> None).
Proof. destruct 1; [now left|right; split; auto; congruence]. Qed.
Lemma alike_nothing q v v' : alike q v v' -> is_nothing v' = is_nothing v.
Proof. intros H. apply alike_cases in H as [<-|[H _]]; auto. destruct v, v'; auto; destruct H. Qed.
Lemma alike_class q v v' : alike q v v' -> class_of v' = class_of v.
Proof. intros H. apply alike_cases in H as [<-|[H _]]; auto. destruct v, v'; auto; destruct H; reflexivity. Qed.
Lemma alike_comparable q v v' : alike q v v' -> comparable v' = comparable v.
Proof. intros H. apply alike_cases in H as [<-|[H _]]; auto. destruct v, v'; auto; destruct H. Qed.
Lemma alike_match q q' u u' v v' : alike q u u' -> alike q' v v' -> types_match ceqb u' v' = types_match ceqb u v.
Proof.
  intros H K. apply alike_cases in H. apply alike_cases in K.
  destruct H as [<-|[H _]]; destruct K as [<-|[K _]]; auto.
  - destruct v, v'; try (destruct K; fail); destruct u; auto; cbn in K; subst; auto.
  - destruct u, u'; try (destruct H; fail); destruct v; auto; cbn in H; subst; auto.
  - destruct u, u'; try (destruct H; fail); destruct v, v'; try (destruct K; fail); cbn in H, K; subst; auto.
Qed.
Lemma alike_main fa fb a a' b b' : alike fa a a' -> alike fb b b' -> exists q, alike q (main a b) (main a' b').
Proof. intros Ha Hb. unfold main. rewrite (alike_nothing _ _ _ Ha). destruct (is_nothing a); eauto. Qed.

Lemma alike_norm c q v v' p : alike q v v' -> (is_nothing v = true \/ class_of v = Some c) -> In p (props W c) ->
  r (q ++ [EStr (p_name p)]) <> None -> alike (q ++ [EStr (p_name p)]) (norm p v) (norm p v').
Proof.
  intros H Cv Ip N. destruct H as [q v|q v v' c' T Ec Hs _]; [constructor|].
  destruct Cv as [Nv|Ec']; [destruct v; discriminate|]. assert (c' = c) by congruence. subst c'.
  apply (touches_iff ordm Ho P Pn m Hm) in N.
  assert (E : slot v (p_name p) = slot v' (p_name p) -> norm p v = norm p v').
  { intros E. unfold norm, normalize_slot. rewrite <- E.
    destruct (slot v (p_name p)) as [u|]; destruct (p_compare_as p) as [f|] eqn:Ef; auto.
    destruct (is_nothing u); auto. now rewrite (Obj c p f v v' u Ip Ef). }
  destruct (Hs p Ip N) as [Es|(u&u'&Eu&Eu'&Ef&Ha)]; [rewrite (E Es); constructor|].
  destruct (alike_cases _ _ _ Ha) as [->|[T' Nc]]; [rewrite E by congruence; constructor|].
  unfold norm, normalize_slot. rewrite Eu, Eu', Ef. unfold normalize_val.
  destruct u, u'; try (destruct T'; fail); cbn [class_of] in Nc; try congruence; rewrite !andb_false_r; exact Ha.
Qed.

Lemma item_keys_class coll coll' g : class_of coll = class_of coll' ->
  item_keys W hashable repr a_hash opt coll g = item_keys W hashable repr a_hash opt coll' g.
Proof.
  intros E. induction g as [|[k v] g IHg]; cbn [item_keys]; auto. rewrite IHg. unfold item_key, normalize_item. now rewrite E.
Qed.

Lemma alike_generator q v v' : alike q v v' -> ~ of_records W v -> generator a_items v = generator a_items v'.
Proof.
  intros H N. destruct H as [|q v v' c T Ec _ Hc]; auto. destruct Hc as [E|[F _]]; [|contradiction].
  destruct v, v'; try (destruct T; fail); cbn in *; auto; try congruence.
Qed.

Lemma list_same a a' b b' fa fb : alike fa a a' -> alike fb b b' -> ~ of_records W a -> ~ of_records W b ->
  list_iter a b fa fb = list_iter a' b' fa fb.
Proof.
  intros Ha Hb Na Nb. unfold DiffModel.list_iter. rewrite Hd.
  rewrite <- (alike_generator _ _ _ Ha Na), <- (alike_generator _ _ _ Hb Nb).
  destruct (generator a_items a) as [ga|]; auto. cbn [bind]. rewrite <- (item_keys_class a a' ga) by (symmetry; eapply alike_class; eauto).
  destruct (item_keys _ _ _ _ _ a ga); auto. cbn [bind].
  destruct (generator a_items b) as [gb|]; auto. cbn [bind]. now rewrite <- (item_keys_class b b' gb) by (symmetry; eapply alike_class; eauto).
Qed.

(** lists of items which agree as far as the filter looks *)
Definition lock (q : list elem) : list (elem * val) -> list (elem * val) -> Prop :=
  Forall2 (fun x y => fst x = fst y /\ (touches P (q ++ [fst x]) -> alike (q ++ [fst x]) (snd x) (snd y) /\
     record_id RAuto (r (q ++ [fst x])) (snd x) = record_id RAuto (r (q ++ [fst x])) (snd y))).
Lemma lock_nth q l : forall l', length l = length l' ->
  (forall n k u k' u', nth_error l n = Some (k, u) -> nth_error l' n = Some (k', u') ->
     k = k' /\ (touches P (q ++ [k]) -> alike (q ++ [k]) u u' /\ record_id RAuto (r (q ++ [k])) u = record_id RAuto (r (q ++ [k])) u')) ->
  lock q l l'.
Proof.
  induction l as [|[k u] l IHl]; intros [|[k' u'] l'] E H; try discriminate; constructor.
  - cbn [fst snd]. exact (H 0 k u k' u' eq_refl eq_refl).
  - apply IHl; [cbn in E; congruence|]. intros n. exact (H (S n)).
Qed.
Lemma lock_contents q v v' : alike q v v' -> lock q (contents v) (contents v').
Proof.
  assert (G : forall l, lock q l l).
  { induction l; constructor; auto. split; auto. split; [constructor|auto]. }
  intros H. destruct H as [q v|q v v' c T Ec _ Hc]; [apply G|]. destruct Hc as [<-|(_&El&Hn)]; [apply G|now apply lock_nth].
Qed.
Lemma lock_val q l l' k u : lock q l l' -> val_at l k = Ok u -> touches P (q ++ [k]) ->
  exists u', val_at l' k = Ok u' /\ alike (q ++ [k]) u u'.
Proof.
  intros H. unfold val_at. induction H as [|[x v] [x' v'] l l' [Ex Hx] H IHl]; cbn [dict_get]; [discriminate|].
  cbn [fst snd] in *. subst x'. destruct (elem_eqb x k) eqn:Ek.
  - intros E T. inversion E. subst v. apply elem_eqb_iff in Ek. subst x. exists v'. split; auto. now apply Hx.
  - intros E T. apply IHl; auto.
Qed.

Lemma lock_keys d fa fb sel l l' : r fa <> None -> r fa = r fb -> id_selector opt fa = Ok sel -> lock fb l l' ->
  id_keys d sel fa l = id_keys d sel fa l'.
Proof.
  intros N E Es H. induction H as [|[x v] [x' v'] l l' [Ex Hx] H IHl]; auto.
  cbn [DiffModel.id_keys fst snd] in *. subst x'. rewrite Hd, Hf, IHl.
  change (match sel with Some (inl cf) => getitem cf x | Some (inr s) => s | None => None end) with (below sel x).
  rewrite (below_r fa sel x N Es).
  destruct (match sel with Some (inl _) => negb (contains m (fa ++ [x])) | _ => false end) eqn:Sk; auto.
  assert (Ck : chosen fa x).
  { unfold chosen. rewrite Es. destruct sel as [[cf|s]|]; auto. now apply negb_false_iff in Sk. }
  destruct (chosen_r fa fb x x N E Ck Ck) as [E1 N1]. rewrite E1.
  assert (touches P (fb ++ [x])) as T by (apply (touches_iff ordm Ho P Pn m Hm); congruence).
  rewrite (proj2 (Hx T)). reflexivity.
Qed.

Section Step.
Variable rec rec' : val -> val -> list elem -> list elem -> res (list dentry).
Hypothesis IH : forall a a' b b' fa fb, r fa <> None -> r fa = r fb -> live a0 a fa -> live b0 b fb -> kindred a b ->
  alike fa a a' -> alike fb b b' -> related R2 true (rec a b fa fb) (rec' a' b' fa fb).

Lemma slot_same c a a' b b' fa fb p : r fa <> None -> r fa = r fb -> live a0 a fa -> live b0 b fb ->
  (is_nothing a = true \/ class_of a = Some c) -> (is_nothing b = true \/ class_of b = Some c) -> In p (props W c) ->
  alike fa a a' -> alike fb b b' -> related R2 true (slot_diff rec a b fa fb p) (slot_diff rec' a' b' fa fb p).
Proof.
  intros N E Va Vb Ca Cb Ip Ha Hb. unfold DiffModel.slot_diff. rewrite filtered.
  destruct (negb (o_extraneous opt) && p_extraneous p); [reflexivity|]. cbn [orb].
  destruct (r (fa ++ [EStr (p_name p)])) as [s|] eqn:Es; [|reflexivity].
  assert (Es' : r (fb ++ [EStr (p_name p)]) = Some s) by (rewrite <- (r_same m fa fb _ E); auto).
  assert (Hu : alike (fa ++ [EStr (p_name p)]) (norm p a) (norm p a')) by (eapply alike_norm; eauto; congruence).
  assert (Hv : alike (fb ++ [EStr (p_name p)]) (norm p b) (norm p b')) by (eapply alike_norm; eauto; congruence).
  fold (norm p a) (norm p b) (norm p a') (norm p b').
  assert (Lu : live a0 (norm p a) (fa ++ [EStr (p_name p)])) by (eapply live_slot; eauto).
  assert (Lv : live b0 (norm p b) (fb ++ [EStr (p_name p)])) by (eapply live_slot; eauto).
  assert (Ty : is_nothing (norm p a) = false -> is_nothing (norm p b) = false ->
     same_type (norm p a) (norm p b) \/ unrelated_types (norm p a) (norm p b)).
  { intros Nu Nv. pose proof (norm_seen _ _ Nu) as Su. pose proof (norm_seen _ _ Nv) as Sv.
    destruct Ca as [Na|Ca]; [apply (norm_nothing p) in Na; congruence|].
    destruct Cb as [Nb|Cb]; [apply (norm_nothing p) in Nb; congruence|].
    destruct Va as [Na|[Aa _]]; [apply (norm_nothing p) in Na; congruence|].
    destruct Vb as [Nb|[Ab _]]; [apply (norm_nothing p) in Nb; congruence|].
    eapply Typed; eauto. }
  rewrite (alike_nothing _ _ _ Hu), (alike_nothing _ _ _ Hv), (alike_comparable _ _ _ Hu), (alike_comparable _ _ _ Hv),
    (alike_match _ _ _ _ _ _ Hu Hv).
  set (u := norm p a) in *. set (v := norm p b) in *. set (u' := norm p a') in *. set (v' := norm p b') in *.
  destruct (is_nothing u && is_nothing v) eqn:Nuv; [reflexivity|]. rewrite Hd, orb_false_r.
  destruct ((comparable u || comparable v) && _) eqn:B.
  - apply related_bind.
    + apply IH; auto; try congruence. apply andb_true_iff in B as [_ B]. apply orb_true_iff in B as [B|B].
      * left. now apply (same_type_iff ceqb ceq).
      * apply andb_true_iff in B as [_ B]. right. right. destruct (is_nothing u), (is_nothing v); auto; discriminate.
    + intros l l' <-. apply R2_refl.
  - destruct (xorb _ _) eqn:X; [reflexivity|].
    replace (veqb u' v') with (veqb u v); [apply R2_refl|].
    assert (Nu : is_nothing u = false) by (destruct (is_nothing u), (is_nothing v); auto; discriminate).
    assert (Nv : is_nothing v = false) by (destruct (is_nothing u), (is_nothing v); auto; discriminate).
    rewrite andb_false_r, orb_false_r in B.
    assert (K : class_of u <> None \/ class_of v <> None -> veqb u v = false /\ veqb u' v' = false).
    { intros K. assert (Tm : types_match ceqb u v = false).
      { apply andb_false_iff in B as [B|B]; auto. exfalso. apply orb_false_iff in B as [B1 B2].
        destruct K as [K|K]; [destruct u|destruct v]; try discriminate; cbn in K; congruence. }
      assert (Nt : ~ same_type u v) by (intros T; apply (same_type_iff ceqb ceq) in T; congruence).
      assert (Nt' : ~ same_type u' v').
      { intros T. apply (same_type_iff ceqb ceq) in T. rewrite (alike_match _ _ _ _ _ _ Hu Hv) in T. congruence. }
      destruct (Ty Nu Nv) as [T|T]; [contradiction|]. split; apply Strict; auto.
      - rewrite (alike_class _ _ _ Hu), (alike_class _ _ _ Hv). exact K.
      - apply alike_cases in Hu as [<-|[Hu _]]; apply alike_cases in Hv as [<-|[Hv _]]; auto.
        + destruct v, v'; try (destruct Hv; fail); auto.
        + destruct u, u'; try (destruct Hu; fail); auto.
        + destruct u, u'; try (destruct Hu; fail); destruct v, v'; try (destruct Hv; fail); auto. }
    destruct (alike_cases _ _ _ Hu) as [<-|[_ Ku]]; [destruct (alike_cases _ _ _ Hv) as [<-|[_ Kv]]; auto|];
      destruct K as [-> ->]; auto.
Qed.

Lemma record_same c a a' b b' fa fb : r fa <> None -> r fa = r fb -> live a0 a fa -> live b0 b fb ->
  class_of (main a b) = Some c -> alike fa a a' -> alike fb b b' ->
  related R2 true (record_iter rec a b fa fb) (record_iter rec' a' b' fa fb).
Proof.
  intros N E Va Vb Ec Ha Hb. unfold DiffModel.record_iter. rewrite Hd. cbn [negb andb].
  rewrite (alike_match _ _ _ _ _ _ Ha Hb), (alike_nothing _ _ _ Ha), (alike_nothing _ _ _ Hb).
  destruct (negb (types_match ceqb a b) && negb (is_nothing a || is_nothing b)) eqn:B; [exact I|].
  fold (main a b). replace (if is_nothing a then b' else a') with (main a' b') by (unfold main; now rewrite (alike_nothing _ _ _ Ha)).
  destruct (alike_main _ _ _ _ _ _ Ha Hb) as [q Hq]. rewrite (alike_class _ _ _ Hq), Ec.
  assert (Cab : (is_nothing a = true \/ class_of a = Some c) /\ (is_nothing b = true \/ class_of b = Some c)).
  { unfold main in Ec. destruct (is_nothing a) eqn:Na; [auto|]. destruct (is_nothing b) eqn:Nb; [auto|].
    cbn [orb negb] in B. rewrite andb_true_r in B. apply negb_false_iff in B. apply (same_type_iff ceqb ceq) in B.
    split; [auto|]. right. eapply same_class; eauto. }
  destruct Cab as [Ca Cb]. apply related_concat; auto using R2_app.
  intros p Ip. apply all_properties_in in Ip. eapply slot_same; eauto.
Qed.

Lemma records_same c d a a' b b' fa fb : r fa <> None -> r fa = r fb -> live a0 a fa -> live b0 b fb ->
  (is_nothing a = true \/ class_of a = Some c /\ collection a) -> (is_nothing b = true \/ class_of b = Some c /\ collection b) ->
  ValModel.item W c = IRec d -> alike fa a a' -> alike fb b b' ->
  related R2 true (records_iter rec d a b fa fb) (records_iter rec' d a' b' fa fb).
Proof.
  intros N E Va Vb Ka Kb Ei Ha Hb. rewrite !records_core.
  destruct (id_selector opt fa) as [sel|] eqn:Es; [|exact I]. cbn [bind].
  destruct (match sel with Some (inr s) => negb (sel_true s) | _ => false end); [reflexivity|].
  assert (G : forall q v v', alike q v v' -> is_nothing v = true \/ class_of v = Some c /\ collection v ->
     generator a_items v = Ok (contents v) /\ generator a_items v' = Ok (contents v')).
  { intros q v v' Hv K. split; [eapply generator_contents; eauto|]. apply (generator_contents v' c).
    rewrite (alike_nothing _ _ _ Hv), (alike_class _ _ _ Hv). destruct K as [K|[K1 K2]]; auto. right. split; auto.
    apply alike_cases in Hv as [<-|[Hv _]]; auto. destruct v, v'; try (destruct Hv; fail); auto. }
  destruct (G _ _ _ Ha Ka) as [-> ->]. destruct (G _ _ _ Hb Kb) as [-> ->]. clear G. cbn [bind].
  pose proof (lock_contents _ _ _ Ha) as Lka. pose proof (lock_contents _ _ _ Hb) as Lkb.
  rewrite <- (lock_keys d fa fa sel _ _ N eq_refl Es Lka), <- (lock_keys d fa fb sel _ _ N E Es Lkb).
  destruct (id_keys d sel fa (contents a)) as [ia|] eqn:Ia; [|exact I]. cbn [bind].
  destruct (id_keys d sel fa (contents b)) as [ib|] eqn:Ib; [|exact I]. cbn [bind].
  pose proof (id_keys_chosen d fa sel _ Es ia Ia) as Xa. pose proof (id_keys_chosen d fa sel _ Es ib Ib) as Xb.
  rewrite (alike_nothing _ _ _ Ha), (alike_nothing _ _ _ Hb).
  assert (Tch : forall k, chosen fa k -> touches P (fa ++ [k]) /\ touches P (fb ++ [k])).
  { intros k Hk. destruct (chosen_r fa fb k k N E Hk Hk) as [E1 N1].
    split; apply (touches_iff ordm Ho P Pn m Hm); congruence. }
  assert (Ga : forall k, In k (map fst ia) -> exists u u', val_at (contents a) k = Ok u /\ val_at (contents a') k = Ok u' /\ alike (fa ++ [k]) u u').
  { intros k I. apply Xa in I as [Ck I]. destruct (val_total _ k I) as (u&Hu&_).
    destruct (lock_val _ _ _ _ _ Lka Hu (proj1 (Tch k Ck))) as (u'&Hu'&A'). eauto. }
  assert (Gb : forall k, In k (map fst ib) -> exists u u', val_at (contents b) k = Ok u /\ val_at (contents b') k = Ok u' /\ alike (fb ++ [k]) u u').
  { intros k I. apply Xb in I as [Ck I]. destruct (val_total _ k I) as (u&Hu&_).
    destruct (lock_val _ _ _ _ _ Lkb Hu (proj2 (Tch k Ck))) as (u'&Hu'&A'). eauto. }
  apply core_related; auto using R2_app; rewrite ?tag_snd_fst.
  - intros _ l l' <-. reflexivity.
  - intros k I. destruct (Ga k I) as (u&u'&?&?&_). eauto.
  - intros k I. destruct (Gb k I) as (u&u'&?&?&_). eauto.
  - intros k j u u' v v' Ik Ij Hu Hu' Hv Hv'.
    destruct (Ga k Ik) as (u1&u1'&X1&X2&Au). rewrite X1 in Hu. rewrite X2 in Hu'. inversion Hu. inversion Hu'. subst u1 u1'.
    destruct (Gb j Ij) as (v1&v1'&Y1&Y2&Av). rewrite Y1 in Hv. rewrite Y2 in Hv'. inversion Hv. inversion Hv'. subst v1 v1'.
    apply Xa in Ik as [Ik _]. apply Xb in Ij as [Ij _].
    destruct (chosen_r fa fb k j N E Ik Ij) as [E1 N1]. apply val_at_in in X1, Y1.
    apply IH; auto; try (eapply live_item; eauto).
    right. left. split.
    + destruct Va as [Na|[_ Wa]]; [destruct a; try discriminate Na; destruct X1|].
      destruct Ka as [Na|[Ea Ca']]; [destruct a; try discriminate Na; destruct X1|]. eapply contents_rec; eauto.
    + destruct Vb as [Nb|[_ Wb]]; [destruct b; try discriminate Nb; destruct Y1|].
      destruct Kb as [Nb|[Eb Cb']]; [destruct b; try discriminate Nb; destruct Y1|]. eapply contents_rec; eauto.
  - intros Na k u u' Ik Hu Hu'.
    destruct (Gb k Ik) as (v1&v1'&Y1&Y2&Av). rewrite Y1 in Hu. rewrite Y2 in Hu'. inversion Hu. inversion Hu'. subst v1 v1'.
    apply Xb in Ik as [Ik _]. destruct (chosen_r fa fb k k N E Ik Ik) as [E1 N1]. apply val_at_in in Y1.
    apply IH; auto; [now left|eapply live_item; eauto|right; right; now left|constructor].
  - intros Nb k u u' Ik Hu Hu'.
    destruct (Ga k Ik) as (v1&v1'&Y1&Y2&Av). rewrite Y1 in Hu. rewrite Y2 in Hu'. inversion Hu. inversion Hu'. subst v1 v1'.
    apply Xa in Ik as [Ik _]. destruct (chosen_r fa fb k k N E Ik Ik) as [E1 N1]. apply val_at_in in Y1.
    apply IH; auto; [eapply live_item; eauto|now left|right; right; now right|constructor].
Qed.

Lemma dispatch_same a a' b b' fa fb : r fa <> None -> r fa = r fb -> live a0 a fa -> live b0 b fb -> kindred a b ->
  alike fa a a' -> alike fb b b' -> related R2 true (dispatch rec a b fa fb) (dispatch rec' a' b' fa fb).
Proof.
  intros N E Va Vb K Ha Hb. unfold DiffModel.dispatch. fold (main a b) (main a' b').
  destruct (alike_main _ _ _ _ _ _ Ha Hb) as [q Hq].
  assert (Ls : (plain (main a b)) -> list_iter a b fa fb = list_iter a' b' fa fb).
  { intros Pl. apply list_same; auto.
    - intros [Ca _]. unfold main in Pl. destruct (is_nothing a) eqn:Na; [destruct a; try discriminate Na; destruct Ca|].
      destruct a; try (destruct Ca; fail); destruct Pl.
    - intros [Cb _]. unfold main in Pl. destruct (is_nothing a) eqn:Na; [destruct b; try (destruct Cb; fail); destruct Pl|].
      destruct K as [T|[[K _]|[K|K]]]; [..|congruence|destruct b; try discriminate; destruct Cb].
      + destruct a; try (destruct Pl; fail); destruct b; try (destruct Cb; fail); destruct T.
      + destruct a; try (destruct Pl; fail); cbn in K; congruence. }
  assert (G : forall c, collection (main a b) -> class_of (main a b) = Some c ->
    related R2 true (do l <- collection_iter rec a b fa fb; do m <- record_iter rec a b fa fb; Ok (l ++ m))
            (do l <- collection_iter rec' a' b' fa fb; do m <- record_iter rec' a' b' fa fb; Ok (l ++ m))).
  { intros c Cm Ec. pose proof (record_same c a a' b b' fa fb N E Va Vb Ec Ha Hb) as RS.
    destruct (record_iter rec a b fa fb) as [l2|] eqn:H2; destruct (record_iter rec' a' b' fa fb) as [l2'|] eqn:H2';
      cbn [related] in RS; try (discriminate RS); try (destruct RS; fail).
    2:{ destruct (collection_iter rec a b fa fb), (collection_iter rec' a' b' fa fb); exact I. }
    subst l2'. destruct (record_class rec c a b fa fb l2 Ec H2) as (Ca&Cb&T).
    apply related_bind; [|intros l l' <-; reflexivity].
    unfold DiffModel.collection_iter. fold (main a b) (main a' b'). rewrite (alike_class _ _ _ Hq), Ec.
    assert (Ka : is_nothing a = true \/ class_of a = Some c /\ collection a).
    { destruct (is_nothing a) eqn:Na; [now left|right]. unfold main in Cm. rewrite Na in Cm. destruct Ca; [congruence|auto]. }
    assert (Kb : is_nothing b = true \/ class_of b = Some c /\ collection b).
    { destruct (is_nothing b) eqn:Nb; [now left|right]. destruct Cb as [|Cb]; [congruence|]. split; auto.
      unfold main in Cm. destruct (is_nothing a) eqn:Na; auto. destruct T as [T|[T|T]]; try congruence.
      destruct a, b; try (destruct T; fail); try (destruct Cm; fail); exact I. }
    destruct (ValModel.item W c) as [|d|] eqn:Ei; [exact I| |].
    - eapply records_same; eauto.
    - rewrite (list_same a a' b b'); [apply R2_refl|auto|auto| |].
      + intros (Cc&c'&d'&Ec'&Ed'). destruct Ka as [Na|[Ea _]]; [destruct a; try discriminate Na; destruct Cc|congruence].
      + intros (Cc&c'&d'&Ec'&Ed'). destruct Kb as [Nb|[Eb _]]; [destruct b; try discriminate Nb; destruct Cc|congruence]. }
  pose proof (fun c Ec => record_same c a a' b b' fa fb N E Va Vb Ec Ha Hb) as RS.
  destruct (alike_cases _ _ _ Hq) as [Em|[Tm _]].
  - rewrite <- Em. destruct (main a b) eqn:Em'; try reflexivity.
    + rewrite Ls by exact I. apply R2_refl.
    + rewrite Ls by exact I. apply R2_refl.
    + eapply RS; reflexivity.
    + eapply G; [exact I|reflexivity].
    + eapply G; [exact I|reflexivity].
  - destruct (main a b) eqn:Em', (main a' b') eqn:Em''; try (destruct Tm; fail).
    + rewrite Ls by exact I. apply R2_refl.
    + rewrite Ls by exact I. apply R2_refl.
    + eapply RS; reflexivity.
    + eapply G; [exact I|reflexivity].
    + eapply G; [exact I|reflexivity].
Qed.
End Step.

Lemma diff_same n : forall a a' b b' fa fb, r fa <> None -> r fa = r fb -> live a0 a fa -> live b0 b fb -> kindred a b ->
  alike fa a a' -> alike fb b b' -> related R2 true (diff n a b fa fb) (diff n a' b' fa fb).
Proof.
  induction n as [|n IHn]; intros; [exact I|]. cbn [DiffModel.diff]. now apply dispatch_same.
Qed.
End Same.

(** *** Nothing selected is lost *)
Section Complete.
Variables a0 b0 : val.
Hypothesis La : whole_lists W opt P a0.
Hypothesis Lb : whole_lists W opt P b0.
Hypothesis Ia0 : ids_selected W opt record_id m P a0.
Hypothesis Ib0 : ids_selected W opt record_id m P b0.
Hypothesis Hes : o_empty_slots opt = false.
Hypothesis Hun : o_unchanged_ opt = false.

Notation free := (with_filter None opt).
Definition keep (e : dentry) : bool := match r (snd (fst e)) with Some _ => true | None => false end.
Definition R3 (l l' : list dentry) : Prop := l' = filter keep l.
Lemma R3_nil : R3 [] [].
Proof. reflexivity. Qed.
Lemma R3_app l l' k k' : R3 l l' -> R3 k k' -> R3 (l ++ k) (l' ++ k').
Proof. unfold R3. intros -> ->. now rewrite filter_app. Qed.
Lemma R3_all l : Forall fine l -> R3 l l.
Proof.
  induction 1 as [|e l [He _] _ IHl]; [reflexivity|]. unfold R3, keep in *. cbn [filter]. destruct (r (snd (fst e))); congruence.
Qed.
Lemma R3_one t q f : r q <> None -> R3 [(t, q, f)] [(t, q, f)].
Proof. intros N. unfold R3, keep. cbn [filter fst snd]. destruct (r q); [reflexivity|now destruct N]. Qed.
Lemma R3_none fa l : r fa = None -> Forall (under fa) l -> R3 l [].
Proof.
  intros N. induction 1 as [|e l [x He] _ IHl]; [reflexivity|]. unfold R3, keep in *. cbn [filter].
  rewrite He, (r_none m fa x N). exact IHl.
Qed.

Definition alive (o v : val) (q : list elem) : Prop := at_path W opt o q v /\ wfv v.
Definition akin (a b : val) : Prop := same_type a b \/ (class_of a <> None /\ class_of b <> None).

Lemma id_keys_free d fa fb v : r fa <> None -> r fa = r fb -> (forall k, r (fb ++ [k]) = r (fb ++ [ENone])) ->
  forall s g, id_selector opt fa = Ok (Some (inr (Some s))) -> (forall k, r (fa ++ [k]) = Some s) ->
  (forall k u, In (k, u) g -> record_id RAuto (r (fb ++ [ENone])) u = record_id RAuto None u) -> incl g (contents v) ->
  DiffModel.id_keys hashable free record_id d None fa g = id_keys d (Some (inr (Some s))) fa g.
Proof.
  intros N E Ek s g Es Er Hid Hin. induction g as [|[k u] g IHg]; auto.
  cbn [DiffModel.id_keys]. cbv zeta. change (o_duck free) with (o_duck opt). rewrite Hd.
  change (o_empty_items free) with (o_empty_items opt).
  rewrite <- IHg; [|intros k' u' I; apply (Hid k'); now right|intros x I; apply Hin; now right].
  replace (Some s) with (r (fb ++ [ENone])).
  2:{ rewrite <- (r_same m fa fb [ENone] E). apply Er. }
  rewrite (Hid k u (or_introl eq_refl)). reflexivity.
Qed.

Section Step.
Variable rec rec' : val -> val -> list elem -> list elem -> res (list dentry).
Hypothesis Under : forall a b fa fb l, rec a b fa fb = Ok l -> Forall (under fa) l.
Hypothesis IH : forall a b fa fb, r fa <> None -> r fa = r fb -> alive a0 a fa -> alive b0 b fb -> akin a b ->
  related R3 false (rec a b fa fb) (rec' a b fa fb).

Lemma slot_keep c a b fa fb p : r fa <> None -> r fa = r fb -> alive a0 a fa -> alive b0 b fb ->
  class_of a = Some c -> class_of b = Some c -> In p (props W c) ->
  related R3 false (DiffModel.slot_diff ceqb veqb free rec a b fa fb p) (slot_diff rec' a b fa fb p).
Proof.
  intros N E Va Vb Ca Cb Ip.
  destruct (r (fa ++ [EStr (p_name p)])) as [s|] eqn:Es.
  2:{ assert (X : slot_diff rec' a b fa fb p = Ok []).
      { unfold DiffModel.slot_diff. rewrite filtered, Es, orb_true_r. reflexivity. }
      rewrite X. destruct (DiffModel.slot_diff ceqb veqb free rec a b fa fb p) as [l|] eqn:El; cbn [related]; auto.
      eapply R3_none; [exact Es|]. eapply slot_under; eauto. }
  unfold DiffModel.slot_diff. rewrite filtered, Es.
  change (is_filtered free p (fa ++ [EStr (p_name p)])) with ((negb (o_extraneous opt) && p_extraneous p) || false).
  destruct (negb (o_extraneous opt) && p_extraneous p); [reflexivity|]. cbn [orb].
  assert (Es' : r (fb ++ [EStr (p_name p)]) = Some s) by (rewrite <- (r_same m fa fb _ E); auto).
  change (normalize_slot free) with (normalize_slot (A := A) (C := C) opt). change (o_empty_slots free) with (o_empty_slots opt).
  change (o_duck free) with (o_duck opt). change (o_unchanged_ free) with (o_unchanged_ opt). rewrite Hes, Hd, Hun.
  fold (norm p a) (norm p b). set (u := norm p a). set (v := norm p b).
  destruct (is_nothing u && is_nothing v) eqn:Nuv; [reflexivity|]. rewrite !andb_false_l, !orb_false_r.
  assert (F1 : forall t, R3 [(t, fa ++ [EStr (p_name p)], fb ++ [EStr (p_name p)])] [(t, fa ++ [EStr (p_name p)], fb ++ [EStr (p_name p)])]).
  { intros t. apply R3_one. congruence. }
  destruct ((comparable u || comparable v) && types_match ceqb u v) eqn:B.
  - apply andb_true_iff in B as [_ B]. apply (same_type_iff ceqb ceq) in B.
    assert (Nu : is_nothing u = false) by (destruct u; auto; destruct B).
    assert (Nv : is_nothing v = false) by (destruct v; auto; destruct u; destruct B).
    rewrite Nu, Nv. cbn [xorb]. apply related_bind; [|intros l l' Hl; exact Hl].
    apply IH; auto; try congruence.
    + destruct (live_slot a0 a fa c p (or_intror Va) (or_intror Ca) Ip) as [K|K]; [fold u in K; congruence|exact K].
    + destruct (live_slot b0 b fb c p (or_intror Vb) (or_intror Cb) Ip) as [K|K]; [fold v in K; congruence|exact K].
    + now left.
  - destruct (xorb _ _); [apply F1|]. destruct (negb _); [apply F1|reflexivity].
Qed.

Lemma record_keep c a b fa fb : r fa <> None -> r fa = r fb -> alive a0 a fa -> alive b0 b fb ->
  class_of a = Some c -> akin a b ->
  related R3 false (DiffModel.record_iter W ceqb veqb free rec a b fa fb) (record_iter rec' a b fa fb).
Proof.
  intros N E Va Vb Ec K. unfold DiffModel.record_iter. change (o_duck free) with (o_duck opt). rewrite Hd.
  assert (Na : is_nothing a = false) by (destruct a; auto; discriminate). rewrite Na. cbn [negb andb orb].
  assert (Nb : is_nothing b = false) by (destruct b; auto; destruct K as [K|[_ K]]; [destruct a; destruct K|cbn in K; congruence]).
  rewrite Nb, andb_true_r. destruct (types_match ceqb a b) eqn:T; [|exact I]. cbn [negb]. rewrite Ec.
  apply (same_type_iff ceqb ceq) in T. pose proof (same_class _ _ _ T Ec) as Ec'.
  apply related_concat; auto using R3_nil, R3_app. intros p Ip. apply all_properties_in in Ip. eapply slot_keep; eauto.
Qed.

Lemma records_keep c d a b fa fb : r fa <> None -> r fa = r fb -> alive a0 a fa -> alive b0 b fb ->
  class_of a = Some c -> class_of b = Some c -> collection a -> collection b -> ValModel.item W c = IRec d ->
  related R3 false (DiffModel.records_iter veqb hashable a_falsy a_items free record_id ord rec d a b fa fb) (records_iter rec' d a b fa fb).
Proof.
  intros N E Va Vb Ca Cb Ka Kb Ei. rewrite !records_core.
  assert (Oa : of_records W a) by (split; eauto). assert (Ob : of_records W b) by (split; eauto).
  destruct (Ia0 fa a (proj1 Va) Oa) as [Ta Ida]; [now apply (touches_iff ordm Ho P Pn m Hm)|].
  destruct (Ib0 fb b (proj1 Vb) Ob) as [Tb Idb]; [apply (touches_iff ordm Ho P Pn m Hm); congruence|].
  apply (touches_iff ordm Ho P Pn m Hm) in Ta, Tb.
  destruct (r fa) as [cf|] eqn:Ea; [|congruence]. assert (N' : r fa <> None) by congruence. assert (E' : r fa = r fb) by congruence.
  destruct (id_sel fa cf Ea) as [[Hn _]|(Hn&s&Es&Er)].
  { exfalso. rewrite path_app, Ea in Ta. unfold getitem_path in Ta. rewrite Hn in Ta.
    assert (complete cf = false) as Hc.
    { destruct (complete cf) eqn:Hc; auto. assert (Wc : MFSProofs.wf cf) by (eapply getitem_path_wf; eauto).
      rewrite (complete_only cf Wc Hc) in Hn. discriminate Hn. }
    rewrite Hc in Ta. destruct (hget ENone (heads cf)) as [o|] eqn:G; [|congruence].
    assert (has_none cf = true); [|congruence]. apply has_none_spec. apply hget_in in G. apply in_map_iff. exists (ENone, o). auto. }
  change (id_selector free fa) with (@Ok (option (mfs + option mfs)) None). rewrite Es. cbn [bind].
  assert (Ts : sel_true (Some s) = true).
  { rewrite <- (Er ENone), (r_true m Wm Nm). now rewrite Er. }
  rewrite Ts. cbn [negb].
  rewrite (generator_contents a c (or_intror (conj Ca Ka))), (generator_contents b c (or_intror (conj Cb Kb))). cbn [bind].
  assert (Erb : forall k, r (fb ++ [k]) = r (fb ++ [ENone])).
  { intros k. rewrite <- !(r_same m fa fb _ E'). now rewrite !Er. }
  assert (Era : forall k, r (fa ++ [k]) = r (fa ++ [ENone])) by (intros k; now rewrite !Er).
  rewrite (id_keys_free d fa fa a N' eq_refl Era s _ Es Er Ida (incl_refl _)).
  rewrite (id_keys_free d fa fb b N' E' Erb s _ Es Er Idb (incl_refl _)).
  destruct (id_keys d _ fa (contents a)) as [ia|] eqn:Ia; [|exact I]. cbn [bind].
  destruct (id_keys d _ fa (contents b)) as [ib|] eqn:Ib; [|exact I]. cbn [bind].
  pose proof (id_keys_chosen d fa _ _ Es ia Ia) as Xa. pose proof (id_keys_chosen d fa _ _ Es ib Ib) as Xb.
  assert (Na : is_nothing a = false) by (destruct a; auto; discriminate).
  assert (Nb : is_nothing b = false) by (destruct b; auto; discriminate). rewrite Na, Nb.
  apply core_related; auto using R3_nil, R3_app; rewrite ?tag_snd_fst; try discriminate.
  - intros U. change (o_unchanged_ opt = true) in U. congruence.
  - intros k I. apply Xa in I as [_ I]. destruct (val_total _ k I) as (v&Hv&_). eauto.
  - intros k I. apply Xb in I as [_ I]. destruct (val_total _ k I) as (v&Hv&_). eauto.
  - intros k j u u' v v' Ik Ij Hu Hu' Hv Hv'. rewrite Hu in Hu'. inversion Hu'. subst u'. rewrite Hv in Hv'. inversion Hv'. subst v'.
    apply Xa in Ik as [Ik _]. apply Xb in Ij as [Ij _].
    destruct (chosen_r fa fb k j N' E' Ik Ij) as [E1 N1]. apply val_at_in in Hu, Hv. apply IH; auto.
    + split; [|eapply contents_wf; [apply Va|eauto]]. eapply at_app; [apply Va|]. eapply at_item; [eauto|constructor].
    + split; [|eapply contents_wf; [apply Vb|eauto]]. eapply at_app; [apply Vb|]. eapply at_item; [eauto|constructor].
    + right. split; eapply contents_rec; try exact Hu; try exact Hv; eauto; [apply Va|apply Vb].
  - intros k _. apply R3_one. rewrite Er. congruence.
  - intros k _. apply R3_one. exact N'.
  - intros t k j _ _ _. apply R3_one. rewrite Er. congruence.
Qed.

Lemma list_keep a b fa fb : r fa <> None -> r fa = r fb -> (forall x, r (fa ++ [x]) <> None) ->
  related R3 false (DiffModel.list_iter W veqb hashable repr a_hash a_items free ord a b fa fb) (list_iter a b fa fb).
Proof.
  intros N E X. change (DiffModel.list_iter W veqb hashable repr a_hash a_items free ord a b fa fb) with (list_iter a b fa fb).
  destruct (list_iter a b fa fb) as [l|] eqn:El; cbn [related]; auto. apply R3_all. eapply list_sound; eauto.
Qed.

Lemma dispatch_keep a b fa fb : r fa <> None -> r fa = r fb -> alive a0 a fa -> alive b0 b fb -> akin a b ->
  related R3 false (DiffModel.dispatch W ceqb veqb hashable repr a_hash a_falsy a_items free record_id ord rec a b fa fb) (dispatch rec' a b fa fb).
Proof.
  intros N E Va Vb K. unfold DiffModel.dispatch.
  assert (Na : is_nothing a = false) by (destruct a; auto; destruct K as [K|[K _]]; [destruct b; destruct K|cbn in K; congruence]).
  rewrite Na.
  assert (FR : flat W a -> forall x, r (fa ++ [x]) <> None).
  { intros F. apply (flat_reach a0 b0 La Lb a b fa fb (or_intror Va) (or_intror Vb) N E). unfold main. now rewrite Na. }
  assert (G : forall c, collection a -> class_of a = Some c -> related R3 false
    (do l <- DiffModel.collection_iter W veqb hashable repr a_hash a_falsy a_items free record_id ord rec a b fa fb;
     do m <- DiffModel.record_iter W ceqb veqb free rec a b fa fb; Ok (l ++ m))
    (do l <- collection_iter rec' a b fa fb; do m <- record_iter rec' a b fa fb; Ok (l ++ m))).
  { intros c Cm Ec. pose proof (record_keep c a b fa fb N E Va Vb Ec K) as RS.
    destruct (DiffModel.record_iter W ceqb veqb free rec a b fa fb) as [l2|] eqn:H2.
    2:{ destruct (DiffModel.collection_iter W veqb hashable repr a_hash a_falsy a_items free record_id ord rec a b fa fb); cbn [bind related];
        destruct (bind _ _); auto. }
    assert (Ec' : class_of b = Some c /\ collection b).
    { unfold DiffModel.record_iter in H2. change (o_duck free) with (o_duck opt) in H2. rewrite Hd, Na in H2. cbn [negb andb orb] in H2.
      assert (Nb : is_nothing b = false) by (destruct b; auto; destruct K as [K|[_ K]]; [destruct a; destruct K|cbn in K; congruence]).
      rewrite Nb, andb_true_r in H2. destruct (types_match ceqb a b) eqn:T; [|discriminate H2].
      apply (same_type_iff ceqb ceq) in T. split; [eapply same_class; eauto|].
      destruct a, b; try (destruct T; fail); try (destruct Cm; fail); exact I. }
    destruct Ec' as [Ec' Cb].
    apply related_bind.
    - unfold DiffModel.collection_iter. rewrite Na, Ec. destruct (ValModel.item W c) as [|d|] eqn:Ei; [exact I| |].
      + eapply records_keep; eauto.
      + apply list_keep; auto. apply FR. destruct a; try (destruct Cm; fail); cbn in Ec; inversion Ec; subst; exact Ei.
    - intros l l' Hl. apply related_bind; [exact RS|]. intros k k' Hk. cbn [related]. now apply R3_app. }
  pose proof (fun c Ec => record_keep c a b fa fb N E Va Vb Ec K) as RS.
  destruct a; try reflexivity.
  - apply list_keep; auto. apply FR. exact I.
  - apply list_keep; auto. apply FR. exact I.
  - eapply RS; reflexivity.
  - eapply G; [exact I|reflexivity].
  - eapply G; [exact I|reflexivity].
Qed.
End Step.

Lemma diff_keep n : forall a b fa fb, r fa <> None -> r fa = r fb -> alive a0 a fa -> alive b0 b fb -> akin a b ->
  related R3 false (DiffModel.diff W ceqb veqb hashable repr a_hash a_falsy a_items free record_id ord n a b fa fb) (diff n a b fa fb).
Proof.
  induction n as [|n IHn]; intros; [exact I|]. cbn [DiffModel.diff]. apply dispatch_keep; auto.
  intros a1 b1 fa1 fb1 l. apply diff_under. exact ord_ok.
Qed.
End Complete.
End Filter.
