(** Comparing under a filter: C31.
    [touches], [whole_lists], [alike], [typed_alike], [distinct_types], [ids_selected] and
    [with_filter] are defined in DiffFilter, [covers] in MFSProofs, [at_path] in DiffEntries. *)
From Coq Require Import String List Arith NArith ZArith Bool Lia Permutation.
From Verif Require Import Prelude SelPathModel FSModel FSProofs PySeq MFSModel MFSProofs ValModel EqModel EqProofs SeqDiffModel SeqDiffProofs
  FuzzyModel FuzzyProps DiffModel DiffProofs DiffSwap DiffTotal DiffExact DiffEntries DiffOnce DiffExample DiffProps DiffFilter FilterId.
Import ListNotations.

Section Props.
Context {A C : Type}.
Variable W : classes A C.
Variable ceqb : C -> C -> bool.
Notation val := (val A C).
Variable veqb : val -> val -> bool.
Variable hashable : val -> bool.
Variable repr : val -> str.
Variable a_hash a_falsy : A -> bool.
Variable a_items : A -> res (list (elem * val)).
Variable record_id : rtype C -> option mfs -> val -> res val.
Notation orders := (list elem -> list elem -> dorders (A := A) (C := C)).
Notation diff_iter opt o := (diff_iter W ceqb veqb hashable repr a_hash a_falsy a_items opt record_id o).

(** The filter is made of the paths [P]; objects may be compared, without duck typing. *)
Definition filtered_by (opt : options) (P : list (list elem)) (m : mfs) : Prop :=
  P <> [] /\ o_filter opt = Some m /\ o_duck opt = false /\
  exists ordm, (forall l, Permutation (ordm l) l) /\ make ordm (map AFS P) = Ok m.
Definition proper (ord : orders) (a b : val) : Prop :=
  (forall fa fb, orders_ok (ord fa fb)) /\ (forall c d, ceqb c d = true <-> c = d) /\
  keeps_wf W /\ wfv W a /\ wfv W b /\ (same_type a b \/ (class_of a <> None /\ class_of b <> None)).

Lemma root m : getitem_path m [] = Some m.
Proof. cbn. now destruct (complete m). Qed.
Lemma root_some m : getitem_path m [] <> None.
Proof. rewrite root. discriminate. Qed.
Lemma root_live opt (a : val) : wfv W a -> live W opt a a [].
Proof. intros Wa. right. split; [constructor|exact Wa]. Qed.

(** Only selected paths are reported, if no selector picks single items of a plain list or dict
    (see C31_list_items_refuted). *)
Theorem C31_only_selected : forall opt (ord : orders) P m n a b l,
  proper ord a b -> filtered_by opt P m -> whole_lists W opt P a -> whole_lists W opt P b ->
  diff_iter opt ord n a b = Ok l ->
  forall t p q, In (t, p, q) l -> touches P p /\ touches P q.
Proof.
  intros opt ord P m n a b l (Oo&Ce&K&Wa&Wb&R) (Pn&Hf&Hd&ordm&Ho&Hm) La Lb H t p q I.
  assert (F : Forall (fine m) l).
  { eapply (diff_sound W ceqb veqb hashable repr a_hash a_falsy a_items opt record_id ord ordm Ho P Pn m Hm Hf Hd Oo Ce K a b La Lb n a b [] []);
      [apply root_some|reflexivity|now apply root_live|now apply root_live|destruct R; [now left|right; now left]|exact H]. }
  rewrite Forall_forall in F. destruct (F _ I) as [F1 F2]. split; now apply (touches_iff ordm Ho P Pn m Hm).
Qed.

(** What is not selected has no influence: two pairs of objects which agree wherever the
    filter looks give the same entries, or both fail. *)
Theorem C31_no_influence : forall opt (ord : orders) P m n a a' b b',
  proper ord a b -> filtered_by opt P m ->
  (forall c p f o o' u, In p (props W c) -> p_compare_as p = Some f -> f o u = f o' u) ->
  distinct_types veqb -> typed_alike W opt a b ->
  alike W record_id m P [] a a' -> alike W record_id m P [] b b' ->
  match diff_iter opt ord n a b, diff_iter opt ord n a' b' with
  | Ok l, Ok l' => l = l'
  | Err _, Err _ => True
  | _, _ => False
  end.
Proof.
  intros opt ord P m n a a' b b' (Oo&Ce&K&Wa&Wb&R) (Pn&Hf&Hd&ordm&Ho&Hm) Obj Ds Ty Ha Hb.
  pose proof (diff_same W ceqb veqb hashable repr a_hash a_falsy a_items opt record_id ord ordm Ho P Pn m Hm Hf Hd Oo Ce K a b Obj Ds Ty
    n a a' b b' [] [] (root_some m) eq_refl (root_live opt a Wa) (root_live opt b Wb)) as X.
  assert (Kd : kindred a b) by (destruct R; [now left|right; now left]). specialize (X Kd Ha Hb).
  unfold DiffModel.diff_iter. destruct (DiffModel.diff _ _ _ _ _ _ _ _ _ _ _ n a b [] []), (DiffModel.diff _ _ _ _ _ _ _ _ _ _ _ n a' b' [] []);
    cbn [related] in X; auto. discriminate X.
Qed.

(** Nothing selected is lost: the entries are those of the comparison without the filter whose
    path is selected, in the same order. *)
Theorem C31_exactly_selected : forall opt (ord : orders) P m n a b l,
  proper ord a b -> filtered_by opt P m -> o_empty_slots opt = false -> o_unchanged_ opt = false ->
  whole_lists W opt P a -> whole_lists W opt P b ->
  ids_selected W opt record_id m P a -> ids_selected W opt record_id m P b ->
  diff_iter (with_filter None opt) ord n a b = Ok l ->
  exists keep, diff_iter opt ord n a b = Ok (filter keep l) /\
    forall t p q, keep (t, p, q) = true <-> touches P p.
Proof.
  intros opt ord P m n a b l (Oo&Ce&K&Wa&Wb&R) (Pn&Hf&Hd&ordm&Ho&Hm) He Hu La Lb Ia Ib H.
  pose proof (diff_keep W ceqb veqb hashable repr a_hash a_falsy a_items opt record_id ord ordm Ho P Pn m Hm Hf Hd Oo Ce K a b La Lb Ia Ib He Hu
    n a b [] [] (root_some m) eq_refl (conj (at_here W opt a) Wa) (conj (at_here W opt b) Wb) R) as X.
  exists (keep m). split.
  - unfold DiffModel.diff_iter in *. rewrite H in X. destruct (DiffModel.diff _ _ _ _ _ _ _ _ opt _ _ n a b [] []); [|destruct X].
    cbn [related] in X. now rewrite X.
  - intros t p q. unfold keep. cbn [fst snd]. rewrite (touches_iff ordm Ho P Pn m Hm). destruct (getitem_path m p); split; congruence.
Qed.
End Props.

(** ** Identity of the items of a collection under a filter *)
Section Identity.
Context {A C H : Type}.
Variable W : classes A C.
Notation val := (val A C).
Variable sort_items : list (elem * val) -> list (elem * val).
Variable alien_atom : C -> A -> res (list (elem * val)).
Variable a_hash : A -> bool.
Variable ahash : A -> res H.
Variables hnothing hnone : H.
Variable htext : str -> H.
Variable htuple : list H -> H.
Notation rid := (rid W sort_items alien_atom a_hash ahash hnothing hnone htext htuple).

(** Slots which are not selected have no influence on the identity. *)
Theorem C31_identity_no_influence : forall P m ordm n f q v v' c,
  (forall l, Permutation (ordm l) l) -> P <> [] -> make ordm (map AFS P) = Ok m ->
  touches P q -> same_type v v' -> class_of v = Some c ->
  (forall g, f = Some g -> forall p o o' u, In p (props W c) \/ In p (pkey W c) -> g u p o = g u p o') ->
  (forall p, In p (props W c) \/ In p (pkey W c) -> touches P (q ++ [EStr (p_name p)]) -> slot v (p_name p) = slot v' (p_name p)) ->
  contents v = contents v' ->
  rid n f RAuto (getitem_path m q) v = rid n f RAuto (getitem_path m q) v'.
Proof.
  intros P m ordm n f q v v' c Ho Pn Hm Tq T Ec Hf Hs Hc.
  pose proof (proj1 (touches_iff ordm Ho P Pn m Hm q) Tq) as N. destruct (getitem_path m q) as [s|] eqn:E; [|congruence].
  eapply rid_selected; eauto.
  - assert (X := r_true m (filter_wf ordm Ho P m Hm) (filter_heads ordm Ho P Pn m Hm) q). now rewrite E in X.
  - intros p I Np. apply (Hs p I). apply (touches_iff ordm Ho P Pn m Hm). now rewrite path_app, E.
Qed.

(** With the whole primary key selected, and made of plain values, the identity is the one
    without a filter. *)
Theorem C31_identity_by_key : forall P m ordm n f q v c,
  (forall l, Permutation (ordm l) l) -> P <> [] -> make ordm (map AFS P) = Ok m ->
  class_of v = Some c -> pkey W c <> [] ->
  (forall p, In p (pkey W c) -> touches P (q ++ [EStr (p_name p)]) /\
     forall vts, p_valuetype p = Some vts -> forall d, ~ In (Some d) vts) ->
  rid n f RAuto (getitem_path m q) v = rid n f RAuto None v.
Proof.
  intros P m ordm n f q v c Ho Pn Hm Ec Nk Hk.
  destruct (getitem_path m q) as [s|] eqn:E; [|reflexivity]. eapply rid_pk; eauto. intros p I. destruct (Hk p I) as [T V].
  split; auto. apply (touches_iff ordm Ho P Pn m Hm) in T.
  pose proof (r_true m (filter_wf ordm Ho P m Hm) (filter_heads ordm Ho P Pn m Hm) (q ++ [EStr (p_name p)])) as X.
  rewrite path_app, E in X, T. rewrite X. now destruct (getitem_path s _).
Qed.

(** The same if the item is selected as a whole. *)
Theorem C31_identity_whole : forall P m ordm n f q v,
  (forall l, Permutation (ordm l) l) -> P <> [] -> make ordm (map AFS P) = Ok m ->
  (exists p, In p P /\ covers p q) ->
  rid n f RAuto (getitem_path m q) v = rid n f RAuto None v.
Proof.
  intros P m ordm n f q v Ho Pn Hm Cv. apply (filter_contains ordm Ho P m Hm) in Cv.
  rewrite (contained m (filter_wf ordm Ho P m Hm) q Cv). apply rid_all.
Qed.
End Identity.

(** ** Cases *)

(** Classes: 0 a user, with an id as primary key; 1 a list of users; 2 a group; 3 an address,
    with an extraneous note; 4 a plan; 5 a list of plans. *)
Definition W5 : classes nat nat := mkClasses
  (fun c => match c with 1 | 5 => KList | _ => KRec end)
  (fun c => match c with
            | 0 => [P "id" None; P "name" None; P "email" None; P "home" (Some [Some 3]); P "plans" (Some [Some 5])]
            | 2 => [P "title" None; P "users" (Some [Some 1]); P "labels" None]
            | 3 => [P "street" None; P "city" None; XP "note"]
            | 4 => [P "name" None; P "rate" None]
            | _ => []
            end)
  (fun c => match c with 0 => [P "id" None] | _ => [] end)
  (fun c => match c with 1 => IRec 0 | 5 => IRec 4 | _ => IPlain end)
  (fun _ => None)
  (fun _ v => Ok v).
Definition id5 (opt : options) : rtype nat -> option mfs -> V -> res V :=
  rid (H := unit) W5 (fun l => l) (fun _ _ => Err TypeErr) (fun _ => true) (fun _ => Ok tt) tt tt (fun _ => tt) (fun _ => tt) 9 (nrm opt).
Definition diff5 (opt : options) (x y : V) : res (list dentry) :=
  diff_iter W5 Nat.eqb vb (fun _ => true) (fun _ => s2l "?") (fun _ => true) (Nat.eqb 0) (fun _ => Err TypeErr) opt (id5 opt) in_order 9 x y.

Definition s (x : string) : elem := EStr (s2l x).
Definition filter_of (ps : list (list elem)) : mfs := match make (fun l => l) (map AFS ps) with Ok m => m | Err _ => Node [] end.
Definition under_filter (ps : list (list elem)) : options := with_filter (Some (filter_of ps)) defaults.

Definition user5 (id : nat) (name email : string) : V := VRec 0 [(s2l "id", VAtom id); (s2l "name", t name); (s2l "email", t email)].
Definition group (title : string) (us : list V) (labels : list string) : V :=
  VRec 2 [(s2l "title", t title); (s2l "users", VLC 1 [] us); (s2l "labels", VSeq false (map t labels))].

Definition g1 := group "ops" [user5 1 "ann" "a@x"; user5 2 "bob" "b@x"] ["red"; "hot"]%string.
Definition g2 := group "dev" [user5 2 "rob" "b@y"; user5 3 "cat" "c@y"] ["red"; "wet"]%string.
Definition g1' := group "dev" [user5 1 "ann" "ann@z"; user5 2 "bob" "-"] ["red"; "hot"]%string.
Definition P5 : list (list elem) := [[s "labels"]; [s "users"; ENone; s "id"]; [s "users"; ENone; s "name"]].

(** *** All paths of an object *)
Section Walk.
Variable W : classes nat nat.
Variable opt : options.
Fixpoint walk (n : nat) (v : V) : list (list elem * V) :=
  ([], v) :: match n with
             | O => []
             | S n =>
                 match class_of v with
                 | Some c => flat_map (fun p => match DiffExact.seen opt p v with
                                                | Some u => map (fun qw => (EStr (p_name p) :: fst qw, snd qw)) (walk n u)
                                                | None => []
                                                end) (props W c)
                 | None => []
                 end ++
                 flat_map (fun ku => map (fun qw => (fst ku :: fst qw, snd qw)) (walk n (snd ku))) (contents v)
             end.
Lemma walk_in v q w : at_path W opt v q w -> forall n, length q <= n -> In (q, w) (walk n v).
Proof.
  induction 1 as [v|v c p u q w Ec Ip Es _ IH|v k u q w I _ IH]; intros n L.
  - destruct n; now left.
  - destruct n as [|n]; cbn [length] in L; [lia|]. cbn [walk]. right. rewrite Ec. apply in_or_app. left.
    apply in_flat_map. exists p. split; auto. rewrite Es. apply in_map_iff. exists (q, w). split; auto. apply IH. lia.
  - destruct n as [|n]; cbn [length] in L; [lia|]. cbn [walk]. right. apply in_or_app. right.
    apply in_flat_map. exists (k, u). split; auto. apply in_map_iff. exists (q, w). split; auto. apply IH. lia.
Qed.
Lemma walk_at n : forall v q w, In (q, w) (walk n v) -> at_path W opt v q w.
Proof.
  induction n as [|n IH]; intros v q w; cbn [walk]; intros [E|I]; try (inversion E; constructor); [destruct I|].
  apply in_app_or in I as [I|I].
  - destruct (class_of v) as [c|] eqn:Ec; [|destruct I]. apply in_flat_map in I as (p&Ip&I).
    destruct (DiffExact.seen opt p v) as [u|] eqn:Es; [|destruct I]. apply in_map_iff in I as ([q' w']&E&I). inversion E; subst.
    eapply at_slot; eauto.
  - apply in_flat_map in I as ([k u]&Ip&I). apply in_map_iff in I as ([q' w']&E&I). inversion E; subst. eapply at_item; eauto.
Qed.
Lemma at_prefix v q w : at_path W opt v q w -> forall n, n <= length q -> exists q' w', at_path W opt v q' w' /\ length q' = n.
Proof.
  induction 1 as [v|v c p u q w Ec Ip Es _ IH|v k u q w I _ IH]; intros n L.
  - exists [], v. cbn in L. split; [constructor|cbn; lia].
  - destruct n as [|n]; [exists [], v; split; [constructor|auto]|]. cbn [length] in L. destruct (IH n) as (q'&w'&H&E); [lia|].
    exists (EStr (p_name p) :: q'), w'. split; [eapply at_slot; eauto|cbn; lia].
  - destruct n as [|n]; [exists [], v; split; [constructor|auto]|]. cbn [length] in L. destruct (IH n) as (q'&w'&H&E); [lia|].
    exists (k :: q'), w'. split; [eapply at_item; eauto|cbn; lia].
Qed.
Lemma walk_all n v (Q : list elem -> V -> bool) :
  forallb (fun qw => Nat.ltb (length (fst qw)) n && Q (fst qw) (snd qw)) (walk n v) = true ->
  forall q w, at_path W opt v q w -> Q q w = true.
Proof.
  intros F q w H. rewrite forallb_forall in F.
  assert (L : length q < n).
  { destruct (Nat.lt_ge_cases (length q) n) as [L|L]; auto. exfalso.
    destruct (at_prefix v q w H n L) as (q'&w'&H'&E). assert (I := walk_in _ _ _ H' n (Nat.eq_le_incl _ _ E)).
    specialize (F _ I). apply andb_true_iff in F as [F _]. apply Nat.ltb_lt in F. cbn [fst] in F. lia. }
  assert (I := walk_in _ _ _ H n (Nat.lt_le_incl _ _ L)). specialize (F _ I). now apply andb_true_iff in F.
Qed.
End Walk.

Definition touched (m : mfs) (q : list elem) : bool := match getitem_path m q with Some _ => true | None => false end.
Definition flatb (v : V) : bool :=
  match v with
  | VSeq _ _ | VMap _ => true
  | VLC c _ _ | VDC c _ _ => match ValModel.item W5 c with IPlain => true | _ => false end
  | _ => false
  end.
Definition wholeb (m : mfs) (q : list elem) : bool := match getitem_path m q with Some c => complete c | None => true end.

Section Check.
Variable ps : list (list elem).
Hypothesis Ps : ps <> [].
Variable m : mfs.
Hypothesis Hm : make (fun l => l) (map AFS ps) = Ok m.
Let Ho : forall l : list arg, Permutation ((fun l => l) l) l := fun l => Permutation_refl l.

Lemma touched_iff q : touched m q = true <-> touches ps q.
Proof. rewrite (touches_iff (fun l => l) Ho ps Ps m Hm). unfold touched. destruct (getitem_path m q); split; congruence. Qed.
Lemma whole_check opt n v :
  forallb (fun qw => Nat.ltb (length (fst qw)) n && (negb (flatb (snd qw)) || wholeb m (fst qw))) (walk W5 opt n v) = true ->
  whole_lists W5 opt ps v.
Proof.
  intros F q w x H Fl T. apply (walk_all W5 opt n v (fun q w => negb (flatb w) || wholeb m q) F) in H.
  assert (flatb w = true) as E.
  { destruct w; try (destruct Fl; fail); auto; cbn in *; now rewrite Fl. }
  rewrite E in H. cbn [negb orb] in H. apply touched_iff in T. apply touched_iff. unfold touched, wholeb in *.
  rewrite path_app. destruct (getitem_path m q) as [c|]; [|discriminate]. unfold getitem_path. now rewrite H.
Qed.
Definition recordsb (v : V) : bool :=
  match v with VLC c _ _ | VDC c _ _ => match ValModel.item W5 c with IRec _ => true | _ => false end | _ => false end.
Definition same_res (x y : res V) : bool := match x, y with Ok u, Ok v => vb u v | _, _ => false end.
Lemma ids_check opt rid n v :
  forallb (fun qw => Nat.ltb (length (fst qw)) n && (negb (recordsb (snd qw) && touched m (fst qw)) ||
     touched m (fst qw ++ [ENone]) &&
     forallb (fun ku => same_res (rid RAuto (getitem_path m (fst qw ++ [ENone])) (snd ku)) (rid RAuto None (snd ku))) (contents (snd qw))))
    (walk W5 opt n v) = true ->
  ids_selected W5 opt rid m ps v.
Proof.
  intros F q w H (Cw&c&d&Ec&Ei) T.
  apply (walk_all W5 opt n v (fun q w => negb (recordsb w && touched m q) ||
     touched m (q ++ [ENone]) &&
     forallb (fun ku => same_res (rid RAuto (getitem_path m (q ++ [ENone])) (snd ku)) (rid RAuto None (snd ku))) (contents w)) F) in H.
  apply touched_iff in T. rewrite T in H.
  replace (recordsb w) with true in H.
  2:{ destruct w; try (destruct Cw; fail); cbn in *; inversion Ec; subst; now rewrite Ei. }
  cbn [andb negb orb] in H. apply andb_true_iff in H as [H1 H2]. split; [now apply touched_iff|].
  intros k u I. rewrite forallb_forall in H2. specialize (H2 _ I). cbn [snd] in H2.
  destruct (rid RAuto (getitem_path m (q ++ [ENone])) u), (rid RAuto None u); try discriminate. apply vb_eq in H2. congruence.
Qed.
End Check.

Definition plainb (v : V) : bool := match v with VSeq _ _ | VMap _ => true | _ => false end.
Definition collb (v : V) : bool := match v with VLC _ _ _ | VDC _ _ _ => true | _ => false end.
Definition unrelb (u v : V) : bool := (negb (collb u) || (negb (plainb v) && negb (collb v))) && (negb (collb v) || negb (plainb u)).
Lemma unrelb_ok u v : unrelb u v = true -> unrelated_types u v.
Proof. unfold unrelb, unrelated_types. destruct u, v; cbn; intros E; try discriminate; tauto. Qed.
Lemma typed_check opt n a b :
  forallb (fun qw => Nat.ltb (length (fst qw)) n &&
    forallb (fun qw' => Nat.ltb (length (fst qw')) n &&
      match class_of (snd qw) with
      | Some c => match class_of (snd qw') with
                  | Some d => negb (Nat.eqb c d) ||
                      forallb (fun p => match DiffExact.seen opt p (snd qw), DiffExact.seen opt p (snd qw') with
                                        | Some x, Some y => types_match Nat.eqb x y || unrelb x y
                                        | _, _ => true
                                        end) (props W5 c)
                  | None => true
                  end
      | None => true
      end) (walk W5 opt n b)) (walk W5 opt n a) = true ->
  typed_alike W5 opt a b.
Proof.
  intros F q q' u v c p x y Hu Hv Cu Cv Ip Sx Sy.
  apply (walk_all W5 opt n a (fun q u => forallb (fun qw' => Nat.ltb (length (fst qw')) n &&
      match class_of u with
      | Some c => match class_of (snd qw') with
                  | Some d => negb (Nat.eqb c d) ||
                      forallb (fun p => match DiffExact.seen opt p u, DiffExact.seen opt p (snd qw') with
                                        | Some x, Some y => types_match Nat.eqb x y || unrelb x y
                                        | _, _ => true
                                        end) (props W5 c)
                  | None => true
                  end
      | None => true
      end) (walk W5 opt n b)) F) in Hu.
  apply (walk_all W5 opt n b (fun q' v => match class_of u with
      | Some c => match class_of v with
                  | Some d => negb (Nat.eqb c d) ||
                      forallb (fun p => match DiffExact.seen opt p u, DiffExact.seen opt p v with
                                        | Some x, Some y => types_match Nat.eqb x y || unrelb x y
                                        | _, _ => true
                                        end) (props W5 c)
                  | None => true
                  end
      | None => true
      end) Hu) in Hv.
  rewrite Cu, Cv, Nat.eqb_refl in Hv. cbn [negb orb] in Hv. rewrite forallb_forall in Hv. specialize (Hv p Ip). rewrite Sx, Sy in Hv.
  apply orb_true_iff in Hv as [Hv|Hv]; [left|right; now apply unrelb_ok].
  apply (same_type_iff Nat.eqb Nat.eqb_eq) in Hv. exact Hv.
Qed.
Lemma distinct_vb : distinct_types vb.
Proof.
  intros u v Nt Cl _. destruct (vb u v) eqn:E; auto. exfalso. apply vb_eq in E. subst v. apply Nt.
  destruct Cl as [Cl|Cl]; destruct u; cbn in *; auto; congruence.
Qed.
Lemma keeps_W5 : keeps_wf W5.
Proof.
  intros c p f o u I E. exfalso. destruct c as [|[|[|[|[|c]]]]]; cbn in I; repeat (destruct I as [<-|I]; [discriminate E|]); destruct I.
Qed.
Lemma no_compare_as c p f : In p (props W5 c) -> p_compare_as p = Some f -> False.
Proof. intros I E. destruct c as [|[|[|[|[|c]]]]]; cbn in I; repeat (destruct I as [<-|I]; [discriminate E|]); destruct I. Qed.

Lemma proper_5 a b : wfv W5 a -> wfv W5 b -> same_type a b -> proper W5 Nat.eqb in_order a b.
Proof.
  intros Wa Wb T. split; [apply in_order_ok|]. split; [intros c d; apply Nat.eqb_eq|]. split; [apply keeps_W5|]. auto.
Qed.
Lemma filtered_5 ps : ps <> [] -> make (fun l => l) (map AFS ps) = Ok (filter_of ps) -> filtered_by (under_filter ps) ps (filter_of ps).
Proof. intros N E. split; auto. split; [reflexivity|]. split; [reflexivity|]. exists (fun l => l). split; auto. Qed.

Lemma wf_g1 : wfv W5 g1.
Proof. unfold g1, group, user5, t. cbn [map]. wfv_tac. Qed.
Lemma wf_g2 : wfv W5 g2.
Proof. unfold g2, group, user5, t. cbn [map]. wfv_tac. Qed.

(** Labels are compared, and the id and name of users; neither the title nor the email. *)
Example C31_selected_case :
  proper W5 Nat.eqb in_order g1 g2 /\ filtered_by (under_filter P5) P5 (filter_of P5) /\
  whole_lists W5 (under_filter P5) P5 g1 /\ whole_lists W5 (under_filter P5) P5 g2 /\
  ids_selected W5 (under_filter P5) (id5 (under_filter P5)) (filter_of P5) P5 g1 /\
  ids_selected W5 (under_filter P5) (id5 (under_filter P5)) (filter_of P5) P5 g2 /\
  diff5 (under_filter P5) g1 g2 = Ok
    [(Modified, [s "labels"; EInt 1], [s "labels"; EInt 1]);
     (Modified, [s "users"; EInt 1; s "name"], [s "users"; EInt 0; s "name"]);
     (Removed, [s "users"; EInt 0], [s "users"]); (Added, [s "users"], [s "users"; EInt 1])] /\
  diff5 (with_filter None (under_filter P5)) g1 g2 = Ok
    [(Modified, [s "labels"; EInt 1], [s "labels"; EInt 1]); (Modified, [s "title"], [s "title"]);
     (Modified, [s "users"; EInt 1; s "email"], [s "users"; EInt 0; s "email"]);
     (Modified, [s "users"; EInt 1; s "name"], [s "users"; EInt 0; s "name"]);
     (Removed, [s "users"; EInt 0], [s "users"]); (Added, [s "users"], [s "users"; EInt 1])].
Proof.
  assert (N : P5 <> []) by discriminate.
  assert (M : make (fun l => l) (map AFS P5) = Ok (filter_of P5)) by (vm_compute; reflexivity).
  split; [apply proper_5; [apply wf_g1|apply wf_g2|reflexivity]|]. split; [now apply filtered_5|].
  split; [apply (whole_check P5 N _ M _ 5); vm_compute; reflexivity|].
  split; [apply (whole_check P5 N _ M _ 5); vm_compute; reflexivity|].
  split; [apply (ids_check P5 N _ M _ _ 5); vm_compute; reflexivity|].
  split; [apply (ids_check P5 N _ M _ _ 5); vm_compute; reflexivity|].
  split; vm_compute; reflexivity.
Qed.

(** Other titles and emails, the same entries. *)
Lemma nrm_object opt (ps : list (prop nat nat)) : (forall p, In p ps -> p_compare_as p = None) ->
  forall g, nrm opt = Some g -> forall p o o' u, In p ps -> g u p o = g u p o'.
Proof. intros H g E p o o' u I. inversion E. unfold normalize_slot. now rewrite (H p I). Qed.
Lemma compare_none p : (exists c, In p (props W5 c) \/ In p (pkey W5 c)) -> p_compare_as p = None.
Proof.
  intros [c [I|I]].
  - destruct (p_compare_as p) eqn:E; auto. exfalso. eapply no_compare_as; eauto.
  - destruct c as [|c]; [destruct I as [<-|[]]; reflexivity|destruct I].
Qed.
Lemma touched_no q m : make (fun l => l) (map AFS P5) = Ok m -> touched m q = false -> ~ touches P5 q.
Proof.
  intros M E T. apply (touched_iff P5 ltac:(discriminate) m M) in T. congruence.
Qed.
Lemma user_alike i id name e e' : alike W5 (id5 (under_filter P5)) (filter_of P5) P5 [s "users"; EInt i] (user5 id name e) (user5 id name e') /\
  id5 (under_filter P5) RAuto (getitem_path (filter_of P5) [s "users"; EInt i]) (user5 id name e) =
  id5 (under_filter P5) RAuto (getitem_path (filter_of P5) [s "users"; EInt i]) (user5 id name e').
Proof.
  assert (M : make (fun l => l) (map AFS P5) = Ok (filter_of P5)) by (vm_compute; reflexivity).
  assert (Sl : forall p, In p (props W5 0) \/ In p (pkey W5 0) -> touches P5 ([s "users"; EInt i] ++ [EStr (p_name p)]) ->
     slot (user5 id name e) (p_name p) = slot (user5 id name e') (p_name p)).
  { intros p I T. destruct I as [I|I]; cbn in I; repeat (destruct I as [<-|I]; [try reflexivity|]); try destruct I.
    exfalso. revert T. apply (touched_no _ (filter_of P5)); auto. }
  split.
  - eapply alike_object with (c := 0); [reflexivity|reflexivity| |left; reflexivity].
    intros p I T. left. apply Sl; auto.
  - apply (C31_identity_no_influence W5 (fun l => l) (fun _ _ => Err TypeErr) (fun _ => true) (fun _ => Ok tt) tt tt (fun _ => tt) (fun _ => tt)
      P5 (filter_of P5) (fun l => l) 9 (nrm (under_filter P5)) _ _ _ 0); auto; try discriminate; try reflexivity.
    + apply (touched_iff P5 ltac:(discriminate) _ M). reflexivity.
    + intros g E p o o' u I. inversion E. unfold normalize_slot. rewrite (compare_none p); eauto.
Qed.
Example C31_no_influence_case :
  proper W5 Nat.eqb in_order g1 g2 /\ typed_alike W5 (under_filter P5) g1 g2 /\ distinct_types vb /\
  alike W5 (id5 (under_filter P5)) (filter_of P5) P5 [] g1 g1' /\ g1 <> g1' /\
  diff5 (under_filter P5) g1 g2 = diff5 (under_filter P5) g1' g2 /\
  diff5 defaults g1 g2 <> diff5 defaults g1' g2 /\
  (exists e l, diff5 (under_filter P5) g1 g2 = Ok (e :: l)).
Proof.
  assert (M : make (fun l => l) (map AFS P5) = Ok (filter_of P5)) by (vm_compute; reflexivity).
  split; [apply proper_5; [apply wf_g1|apply wf_g2|reflexivity]|].
  split; [apply (typed_check _ 5); vm_compute; reflexivity|]. split; [apply distinct_vb|].
  split; [|split; [discriminate|split; [vm_compute; reflexivity|split; [vm_compute; discriminate|eexists; eexists; vm_compute; reflexivity]]]].
  eapply alike_object with (c := 2); [reflexivity|reflexivity| |left; reflexivity].
  intros p I T. cbn in I. destruct I as [<-|[<-|[<-|[]]]].
  - exfalso. revert T. apply (touched_no _ (filter_of P5)); auto.
  - right. eexists. eexists. split; [reflexivity|]. split; [reflexivity|]. split; [reflexivity|].
    eapply alike_object with (c := 1); [reflexivity|reflexivity|intros p []|].
    right. split; [split; [exact I|exists 1, 0; auto]|]. split; [reflexivity|].
    intros [|[|n]] k u k' u' E E'; cbn in E, E'; try (injection E as <- <-; injection E' as <- <-).
    + split; auto. intros _. apply user_alike.
    + split; auto. intros _. apply user_alike.
    + destruct n; discriminate.
  - left. reflexivity.
Qed.

(** The id, its key, is selected: users are identified as without the filter. *)
Example C31_identity_case : forall q u, q = [s "users"; ENone] -> In u [user5 1 "ann" "a@x"; user5 2 "bob" "b@x"] ->
  (forall p, In p (pkey W5 0) -> touches P5 (q ++ [EStr (p_name p)]) /\
     forall vts, p_valuetype p = Some vts -> forall d, ~ In (Some d) vts) /\
  id5 defaults RAuto (getitem_path (filter_of P5) q) u = id5 defaults RAuto None u /\
  exists i, id5 defaults RAuto None u = Ok i.
Proof.
  assert (M : make (fun l => l) (map AFS P5) = Ok (filter_of P5)) by (vm_compute; reflexivity).
  intros q u -> I. split.
  - intros p [<-|[]]. split; [apply (touched_iff P5 ltac:(discriminate) _ M); reflexivity|discriminate].
  - destruct I as [<-|[<-|[]]]; (split; [vm_compute; reflexivity|eexists; vm_compute; reflexivity]).
Qed.
(** All of the users is selected. *)
Example C31_identity_whole_case : (exists p, In p [[s "users"]] /\ covers p [s "users"; EInt 0]) /\
  getitem_path (filter_of [[s "users"]]) [s "users"; EInt 0] <> None.
Proof. split; [exists [s "users"]; split; [now left|repeat constructor]|vm_compute; discriminate]. Qed.

(** ** Findings *)

(** The same leaves wherever the filter looks *)
Definition leaves_agree (ps : list (list elem)) (a b : V) : Prop := forall q w,
  touches ps q -> comparable w = false -> at_path W5 defaults a q w <-> at_path W5 defaults b q w.
Definition leaf_check (m : mfs) n (a b : V) : bool :=
  forallb (fun qw => Nat.ltb (length (fst qw)) n && (negb (touched m (fst qw)) || comparable (snd qw) ||
    existsb (fun qw' => fs_eqb (fst qw) (fst qw') && vb (snd qw) (snd qw')) (walk W5 defaults n b))) (walk W5 defaults n a).
Lemma leaf_check_ok ps m n a b : ps <> [] -> make (fun l => l) (map AFS ps) = Ok m ->
  leaf_check m n a b = true -> leaf_check m n b a = true -> leaves_agree ps a b.
Proof.
  intros Np Hm Ca Cb q w T Cw.
  assert (G : forall x y, leaf_check m n x y = true -> at_path W5 defaults x q w -> at_path W5 defaults y q w).
  { intros x y F H. apply (walk_all W5 defaults n x (fun q w => negb (touched m q) || comparable w ||
      existsb (fun qw' => fs_eqb q (fst qw') && vb w (snd qw')) (walk W5 defaults n y)) F) in H.
    rewrite (proj2 (touched_iff ps Np m Hm q) T), Cw in H. cbn [negb orb] in H. apply existsb_exists in H as ([q' w']&I&E).
    apply andb_true_iff in E as [E1 E2]. cbn [fst snd] in *. apply fs_eqb_eq in E1. apply vb_eq in E2. subst. eapply walk_at; eauto. }
  split; apply G; auto.
Qed.

(** One item of a plain list is selected; the others are compared, too. *)
Theorem C31_list_items_refuted : exists ps a b t p q,
  diff5 (under_filter ps) a b = Ok [(t, p, q)] /\ ~ touches ps p /\ make (fun l => l) (map AFS ps) = Ok (filter_of ps).
Proof.
  exists [[s "labels"; EInt 0]], (group "ops" [] ["red"; "hot"]%string), (group "ops" [] ["red"; "wet"]%string).
  eexists. eexists. eexists. split; [vm_compute; reflexivity|].
  assert (NE : [[s "labels"; EInt 0]] <> []) by discriminate.
  assert (M : make (fun l => l) (map AFS [[s "labels"; EInt 0]]) = Ok (filter_of [[s "labels"; EInt 0]])) by (vm_compute; reflexivity).
  split; auto. rewrite <- (touched_iff _ NE _ M). vm_compute. discriminate.
Qed.

(** A slot of one item of a collection of records is selected; the item is not compared at all. *)
Theorem C31_one_item_refuted : exists ps a b p,
  touches ps p /\ make (fun l => l) (map AFS ps) = Ok (filter_of ps) /\
  diff5 defaults a b = Ok [(Modified, p, p)] /\ diff5 (under_filter ps) a b = Ok [].
Proof.
  exists [[s "users"; EInt 0; s "name"]], (group "ops" [user5 1 "ann" "a@x"] []), (group "ops" [user5 1 "eve" "a@x"] []), [s "users"; EInt 0; s "name"].
  assert (NE : [[s "users"; EInt 0; s "name"]] <> []) by discriminate.
  assert (M : make (fun l => l) (map AFS [[s "users"; EInt 0; s "name"]]) = Ok (filter_of [[s "users"; EInt 0; s "name"]])) by (vm_compute; reflexivity).
  split; [apply (touched_iff _ NE _ M); reflexivity|]. split; [exact M|]. split; vm_compute; reflexivity.
Qed.

(** Below a second wildcard the identity of the outer items takes in what is not selected: here
    the rate of a plan, though only the names of plans are compared. *)
Definition user_plan (rate : nat) : V :=
  VRec 0 [(s2l "id", VAtom 1); (s2l "plans", VLC 5 [] [VRec 4 [(s2l "name", t "pro"); (s2l "rate", VAtom rate)]])].
Definition Pplans : list (list elem) := [[s "users"; ENone; s "plans"; ENone; s "name"]].
Theorem C31_nested_identity_refuted : exists a b e l,
  leaves_agree Pplans a b /\ diff5 (under_filter Pplans) a b = Ok (e :: l).
Proof.
  exists (group "ops" [user_plan 5] []), (group "ops" [user_plan 6] []). eexists. eexists.
  split; [|vm_compute; reflexivity].
  apply (leaf_check_ok Pplans (filter_of Pplans) 9); [discriminate|vm_compute; reflexivity|vm_compute; reflexivity|vm_compute; reflexivity].
Qed.

(** If nothing of a sub record counts towards the identity (only an extraneous slot is selected),
    the whole sub record does. *)
Definition user_home (street : string) : V :=
  VRec 0 [(s2l "id", VAtom 1); (s2l "home", VRec 3 [(s2l "street", t street); (s2l "city", t "york"); (s2l "note", t "-")])].
Definition Pnote : list (list elem) := [[s "users"; ENone; s "home"; s "note"]].
Theorem C31_empty_identity_refuted : exists a b e l,
  leaves_agree Pnote a b /\ diff5 (under_filter Pnote) a b = Ok (e :: l).
Proof.
  exists (group "ops" [user_home "high st"] []), (group "ops" [user_home "low st"] []). eexists. eexists.
  split; [|vm_compute; reflexivity].
  apply (leaf_check_ok Pnote (filter_of Pnote) 9); [discriminate|vm_compute; reflexivity|vm_compute; reflexivity|vm_compute; reflexivity].
Qed.

Print Assumptions C31_only_selected.
Print Assumptions C31_no_influence.
Print Assumptions C31_exactly_selected.
Print Assumptions C31_identity_no_influence.
Print Assumptions C31_identity_by_key.
Print Assumptions C31_identity_whole.
Print Assumptions C31_list_items_refuted.
Print Assumptions C31_one_item_refuted.
Print Assumptions C31_nested_identity_refuted.
Print Assumptions C31_empty_identity_refuted.
