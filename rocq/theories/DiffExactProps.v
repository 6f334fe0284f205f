(** What comparing two objects reports: C30.
    [agree] and [seen] are defined in DiffExact, [change], [fair] and [at_path] in DiffEntries,
    [located] and [unmixed] in DiffOnce. *)
From Coq Require Import String List Arith NArith ZArith Bool Lia Permutation.
From Verif Require Import Prelude SelPathModel FSModel PySeq MFSModel MFSProofs ValModel EqModel EqProofs SeqDiffModel SeqDiffProofs
  FuzzyModel FuzzyProps DiffModel DiffProofs DiffSwap DiffTotal DiffExact DiffEntries DiffOnce DiffExample DiffProps.
Import ListNotations.

Section Props.
Context {A C : Type}.
Variable W : classes A C.
Variable ceqb : C -> C -> bool.
Notation val := (val A C).
Variable veqb : val -> val -> bool.
Variable hashable : val -> bool.
Variable repr : val -> str.
Variable a_hash a_falsy : A -> bool.
Variable a_items : A -> res (list (elem * val)).
Variable opt : options.
Variable record_id : rtype C -> option mfs -> val -> res val.
Notation orders := (list elem -> list elem -> dorders (A := A) (C := C)).
Notation diff_iter o := (diff_iter W ceqb veqb hashable repr a_hash a_falsy a_items opt record_id o).

(** == is an equivalence, types are compared by identity, dicts have distinct keys and
    collections of records hold records. *)
Definition sane (ord : orders) (a b : val) : Prop :=
  (forall fa fb, orders_ok (ord fa fb)) /\
  (forall v, veqb v v = true) /\ (forall u v, veqb u v = true -> veqb v u = true) /\
  (forall u v w, veqb u v = true -> veqb v w = true -> veqb u w = true) /\
  (forall c d, ceqb c d = true <-> c = d) /\
  keeps_wf W /\ wfv W a /\ wfv W b /\
  (same_type a b \/ (class_of a <> None /\ class_of b <> None)).

(** Nothing is reported iff the two agree.  With fuzzy matching on this takes that records
    which agree have the same identity (see C30_fuzzy_refuted). *)
Theorem C30_empty_iff_agree : forall (ord : orders) n a b l,
  sane ord a b -> default_options opt -> changes_only opt ->
  (o_fuzzy opt = true ->
     (forall u v, veqb u v = true -> v_falsy a_falsy u = v_falsy a_falsy v) /\
     (forall u v, class_of u <> None -> class_of v <> None -> agree W veqb repr a_hash opt record_id u v ->
        keqb veqb (identity record_id u) (identity record_id v) = true)) ->
  diff_iter ord n a b = Ok l ->
  l = [] <-> agree W veqb repr a_hash opt record_id a b.
Proof.
  intros ord n a b l (Ho&Hr&Hs&Ht&Hc&Hk&Wa&Wb&R) D Q F H.
  apply (diff_exact W ceqb veqb hashable repr a_hash a_falsy a_items opt record_id ord Ho Hr Hs Ht Hc Hk D Q (fun f => proj1 (F f)) (fun f => proj2 (F f)) n a b [] []); auto.
Qed.

(** Exactly the changes are reported, up to the choices of fuzzy matching, which are fair.
    Values compared have the same type. *)
Theorem C30_entries : forall (ord : orders) n a b l,
  sane ord a b -> default_options opt ->
  (o_fuzzy opt = true -> o_unchanged_ opt = false /\ forall u v, veqb u v = true -> v_falsy a_falsy u = v_falsy a_falsy v) ->
  diff_iter ord n a b = Ok l ->
  same_type a b /\
  exists near, fair W veqb opt record_id near (v_falsy a_falsy) /\
    forall t p q, In (t, p, q) l <-> change W veqb repr a_hash opt record_id near [] [] a b t p q.
Proof.
  intros ord n a b l (Ho&Hr&Hs&Ht&Hc&Hk&Wa&Wb&R) D F H.
  destruct (diff_entries W ceqb veqb hashable repr a_hash a_falsy a_items opt record_id ord Ho Hr Hs Ht Hc Hk D
    (fun f => proj1 (F f)) (fun f => proj2 (F f)) n a b [] [] l R Wa Wb H) as [T X].
  split; auto. exists (near veqb a_falsy opt record_id ord). split.
  - apply near_fair; auto. intros f. apply (F f).
  - intros t p q. rewrite (X (t, p, q)). split; [|intros Ch; exists t, p, q; auto].
    intros (t'&p'&q'&E&Ch). inversion E; subst. exact Ch.
Qed.

(** Every path reported exists: MODIFIED, MOVED and NO_CHANGE on both sides, REMOVED in the
    base and not in the other, ADDED in the other and not in the base. *)
Theorem C30_paths : forall (ord : orders) n a b l,
  sane ord a b -> default_options opt ->
  (o_fuzzy opt = true -> o_unchanged_ opt = false /\ forall u v, veqb u v = true -> v_falsy a_falsy u = v_falsy a_falsy v) ->
  diff_iter ord n a b = Ok l ->
  forall t p q, In (t, p, q) l -> located W opt a b t p q.
Proof.
  intros ord n a b l S D F H t p q I.
  destruct (C30_entries ord n a b l S D F H) as (_&near&_&X). apply X in I. eapply change_located; eauto.
Qed.

(** No pair of paths is reported twice, in whatever roles. *)
Theorem C30_no_path_twice : forall (ord : orders) n a b l,
  sane ord a b -> default_options opt ->
  (o_fuzzy opt = true -> o_unchanged_ opt = false /\ forall u v, veqb u v = true -> v_falsy a_falsy u = v_falsy a_falsy v) ->
  (forall c, NoDup (map (fun p => p_name p) (props W c))) ->
  unmixed W opt a ->
  diff_iter ord n a b = Ok l ->
  NoDup (map (fun e => (snd (fst e), snd e)) l).
Proof.
  intros ord n a b l (Ho&Hr&Hs&Ht&Hc&Hk&Wa&Wb&R) D F N U H.
  exact (diff_once W ceqb veqb hashable repr a_hash a_falsy a_items opt record_id ord Ho Hr Hs Ht Hc Hk D
    (fun f => proj1 (F f)) (fun f => proj2 (F f)) N n a b [] [] l R Wa Wb U H).
Qed.
End Props.

(** ** Cases *)

Lemma sane_o ord : (forall fa fb, orders_ok (ord fa fb)) -> sane W2 Nat.eqb vb ord o1 o2.
Proof.
  intros Ho. split; auto. split; [intros v; now apply vb_eq|]. split; [intros u v H; apply vb_eq in H; now apply vb_eq|].
  split; [intros u v w H1 H2; apply vb_eq in H1, H2; apply vb_eq; congruence|]. split; [intros c d; apply Nat.eqb_eq|].
  split; [apply keeps_W2|]. split; [apply wf_o1|]. split; [apply wf_o2|]. left. reflexivity.
Qed.

Lemma names_W2 c : NoDup (map (fun p => p_name p) (props W2 c)).
Proof.
  destruct c as [|[|[|[|[|[|[|c]]]]]]]; cbn; repeat constructor; cbn; intros H;
    repeat (destruct H as [H|H]; [discriminate H|]); exact H.
Qed.
Lemma slot_part (v u : V) n : slot v n = Some u -> part u v.
Proof.
  assert (G : forall sl : list (str * V), dict_get str_eqb sl n = Some u -> In u (map snd sl)).
  { induction sl as [|[k x] sl IH]; cbn; [discriminate|]. destruct (str_eqb _ _); [intros H; inversion H; auto|auto]. }
  destruct v; cbn [slot part]; try discriminate; auto.
Qed.
Lemma contents_part (v u : V) k : In (k, u) (contents v) -> part u v.
Proof.
  destruct v; cbn [contents part]; try (intros []); unfold number; intros H; try (right); try (apply in_combine_r in H; exact H);
    apply in_map_iff; exists (k, u); auto.
Qed.
Lemma path_part (v w : V) q : at_path W2 defaults v q w -> In w (parts v).
Proof.
  assert (G : forall v q w, at_path W2 defaults v q w -> forall x, In v (parts x) -> In w (parts x)).
  { clear. induction 1 as [v|v c p u q w Ec Ip Es H IH|v k u q w Ik H IH]; auto; intros x I; apply IH.
    - assert (Ep : p_compare_as p = None).
      { destruct c as [|[|[|[|[|[|[|c]]]]]]]; cbn in Ip; repeat (destruct Ip as [<-|Ip]; [reflexivity|]); destruct Ip. }
      unfold DiffExact.seen in Es. destruct (slot v (p_name p)) as [y|] eqn:Sy; [|discriminate]. rewrite Ep in Es.
      destruct (is_nothing y) eqn:Ny; [discriminate|]. unfold present in Es. rewrite Ny in Es.
      assert (u = y) as -> by (destruct y; cbn in Es; congruence). apply slot_part in Sy. eapply parts_closed; eauto.
    - apply contents_part in Ik. eapply parts_closed; eauto. }
  intros H. eapply G; eauto. apply parts_self.
Qed.
Lemma unmixed_o1 : unmixed W2 defaults o1.
Proof.
  intros q c sl l k u p H _ _. exfalso. apply path_part in H. vm_compute in H.
  repeat (destruct H as [H|H]; [discriminate H|]). exact H.
Qed.

(** an order, with the default options: a changed quantity is found through fuzzy matching *)
Example C30_case :
  sane W2 Nat.eqb vb in_order o1 o2 /\ default_options defaults /\ o_fuzzy defaults = true /\ o_unchanged_ defaults = false /\
  (forall u v, vb u v = true -> v_falsy (Nat.eqb 0) u = v_falsy (Nat.eqb 0) v) /\
  (forall c, NoDup (map (fun p => p_name p) (props W2 c))) /\ unmixed W2 defaults o1 /\
  diff2 in_order defaults o1 o2 = Ok
    [(Modified, [EStr (s2l "lines"); EInt 0; EStr (s2l "qty")], [EStr (s2l "lines"); EInt 1; EStr (s2l "qty")]);
     (Added, [EStr (s2l "lines")], [EStr (s2l "lines"); EInt 2]);
     (Removed, [EStr (s2l "tags"); EInt 0], [EStr (s2l "tags")]);
     (Added, [EStr (s2l "tags")], [EStr (s2l "tags"); EInt 1]);
     (Added, [EStr (s2l "tags")], [EStr (s2l "tags"); EInt 2])].
Proof.
  split; [apply sane_o, in_order_ok|]. split; [repeat split|]. split; [reflexivity|]. split; [reflexivity|].
  split; [apply falsy_vb|]. split; [apply names_W2|]. split; [apply unmixed_o1|]. vm_compute. reflexivity.
Qed.

(** Lines identified by their sku: those which agree have the same identity, so C30_empty_iff_agree
    applies with fuzzy matching. *)
Definition txt (o : option V) : V := match o with Some (VText s) => VText s | _ => VNone end.
Definition by_sku : rtype nat -> option mfs -> V -> res V := fun _ _ v =>
  Ok (VSeq true [match v with
                 | VRec 0 _ => txt (slot v (s2l "sku"))
                 | _ => VNone
                 end]).
Lemma by_sku_ok (u v : V) : class_of u <> None -> class_of v <> None ->
  agree W2 vb (fun _ => s2l "?") (fun _ => true) defaults by_sku u v ->
  keqb vb (identity by_sku u) (identity by_sku v) = true.
Proof.
  assert (R : forall x, keqb vb x x = true) by (apply (key_equalities vb); intros; repeat match goal with H : vb _ _ = true |- _ => apply vb_eq in H end; apply vb_eq; congruence).
  intros Cu Cv H. destruct H as [u v N E|u v T P S|u v c T Ec Hn Hv _ _ _].
  - apply vb_eq in E as ->. apply R.
  - destruct u; try (destruct P; fail); now destruct Cu.
  - destruct u as [| | | | | |c0 sl|c0 sl l|c0 sl l], v as [| | | | | |d0 sm|d0 sm m|d0 sm m]; try (destruct T; fail); cbn in T; try subst d0; cbn in Ec; try discriminate Ec; try apply R.
    injection Ec as ->. destruct c as [|c]; [|apply R].
    set (p := P "sku" None) in *.
    assert (G : forall sl : list (str * V), txt (slot (VRec 0 sl) (s2l "sku")) = txt (DiffExact.seen defaults p (VRec 0 sl))).
    { intros sl0. unfold DiffExact.seen, p. cbn [p_name P p_compare_as]. destruct (slot _ _) as [[]|]; reflexivity. }
    specialize (Hn p (or_introl eq_refl) (or_intror eq_refl)).
    unfold identity, by_sku. rewrite !G. clear G.
    destruct (DiffExact.seen defaults p (VRec 0 sl)) as [x|] eqn:Ex, (DiffExact.seen defaults p (VRec 0 sm)) as [y|] eqn:Ey; try apply R.
    + pose proof (Hv p x y (or_introl eq_refl) (or_intror eq_refl) Ex Ey) as Ag.
      destruct Ag as [x y _ E|x y T' P' _|x y c T' Ec _ _ _ _ _].
      * apply vb_eq in E as ->. apply R.
      * destruct x, y; try (destruct P'; fail); try (destruct T'; fail); apply R.
      * destruct x, y; try discriminate Ec; try (destruct T'; fail); apply R.
    + discriminate (proj2 Hn eq_refl).
    + discriminate (proj1 Hn eq_refl).
Qed.

Definition diff_sku x y := diff_iter W2 Nat.eqb vb (fun _ => true) (fun _ => s2l "?") (fun _ => true) (Nat.eqb 0) (fun _ => Err TypeErr) defaults by_sku in_order 9 x y.
(** The order of lines and of tags is no difference, nor is an extraneous slot; anything else is. *)
Definition o3 := VRec 2 [(s2l "no", VAtom 7); (s2l "lines", VLC 1 [] [line "ink" 1; line "pen" 2]); (s2l "tags", VSeq false [t "b"; t "a"]); (s2l "touched", VAtom 1)].
Example C30_agree_case : changes_only defaults /\
  diff_sku o1 o3 = Ok [] /\ (exists e l, diff_sku o1 o2 = Ok (e :: l)) /\
  agree W2 vb (fun _ => s2l "?") (fun _ => true) defaults by_sku o1 o3 /\
  ~ agree W2 vb (fun _ => s2l "?") (fun _ => true) defaults by_sku o1 o2.
Proof.
  assert (F : o_fuzzy defaults = true ->
     (forall u v, vb u v = true -> v_falsy (Nat.eqb 0) u = v_falsy (Nat.eqb 0) v) /\
     (forall u v, class_of u <> None -> class_of v <> None -> agree W2 vb (fun _ => s2l "?") (fun _ => true) defaults by_sku u v ->
        keqb vb (identity by_sku u) (identity by_sku v) = true)) by (intros _; split; [apply falsy_vb|apply by_sku_ok]).
  assert (Q : changes_only defaults) by (split; reflexivity).
  assert (D : default_options defaults) by (repeat split).
  assert (W3 : wfv W2 o3) by (unfold o3, line, t; wfv_tac).
  assert (S3 : sane W2 Nat.eqb vb in_order o1 o3).
  { destruct (sane_o in_order in_order_ok) as (S1&S2&S3&S4&S5&S6&S7&_). unfold sane. repeat (split; auto). left. reflexivity. }
  assert (E3 : diff_sku o1 o3 = Ok []) by (vm_compute; reflexivity).
  split; auto. split; auto. split; [eexists; eexists; vm_compute; reflexivity|]. split.
  - exact (proj1 (C30_empty_iff_agree W2 Nat.eqb vb (fun _ => true) (fun _ => s2l "?") (fun _ => true) (Nat.eqb 0) (fun _ => Err TypeErr) defaults by_sku
      in_order 9 o1 o3 [] S3 D Q F E3) eq_refl).
  - intros Ag. destruct (diff_sku o1 o2) as [l|] eqn:E; [|vm_compute in E; discriminate].
    rewrite (proj2 (C30_empty_iff_agree W2 Nat.eqb vb (fun _ => true) (fun _ => s2l "?") (fun _ => true) (Nat.eqb 0) (fun _ => Err TypeErr) defaults by_sku
      in_order 9 o1 o2 l (sane_o in_order in_order_ok) D Q F E) Ag) in E. vm_compute in E. discriminate.
Qed.

(** ** Findings *)

(** A world with: 0 a user, identified by an extraneous id and a name; 1 a list of users;
    3 a point; 4 a dict of points with a property "total", a point as well. *)
Definition W3 : classes nat nat := mkClasses
  (fun c => match c with 1 => KList | 4 => KDict | _ => KRec end)
  (fun c => match c with
            | 0 => [XP "id"; P "name" None]
            | 3 => [P "x" None; P "y" None]
            | 4 => [P "total" (Some [Some 3])]
            | _ => []
            end)
  (fun c => match c with 0 => [XP "id"; P "name" None] | _ => [] end)
  (fun c => match c with 1 => IRec 0 | 4 => IRec 3 | _ => IPlain end)
  (fun _ => None)
  (fun _ v => Ok v).
Definition id3 (opt : options) : rtype nat -> option mfs -> V -> res V :=
  rid (H := unit) W3 (fun l => l) (fun _ _ => Err TypeErr) (fun _ => true) (fun _ => Ok tt) tt tt (fun _ => tt) (fun _ => tt) 9 (nrm opt).
Definition diff3 (opt : options) (x y : V) : res (list dentry) :=
  diff_iter W3 Nat.eqb vb (fun _ => true) (fun _ => s2l "?") (fun _ => true) (Nat.eqb 0) (fun _ => Err TypeErr) opt (id3 opt) in_order 9 x y.
Definition exactly_matched : options := mkOptions (fun s => s) false false false false false false None false false.

(** Two users of the same name and different (extraneous) id: without fuzzy matching one is
    removed and the other one added; with it nothing is reported. *)
Definition user (id : nat) (name : string) : V := VRec 0 [(s2l "id", VAtom id); (s2l "name", t name)].
Theorem C30_fuzzy_refuted : exists x y l,
  diff3 exactly_matched x y = Ok l /\ length l = 2 /\ diff3 defaults x y = Ok [] /\
  ~ agree W3 vb (fun _ => s2l "?") (fun _ => true) defaults (id3 defaults) x y.
Proof.
  exists (VLC 1 [] [user 1 "ann"]), (VLC 1 [] [user 2 "ann"]). eexists.
  split; [vm_compute; reflexivity|]. split; [reflexivity|]. split; [vm_compute; reflexivity|].
  intros H. remember (VLC 1 [] [user 1 "ann"]) as x. remember (VLC 1 [] [user 2 "ann"]) as y.
  destruct H as [u v N _|u v _ P _|u v c _ Ec _ _ _ S _]; subst.
  - apply N. reflexivity.
  - destruct P.
  - cbn in Ec. injection Ec as <-. specialize (S I 0 eq_refl (identity (id3 defaults) (user 1 "ann"))). vm_compute in S. discriminate.
Qed.

(** A dict collection with a property "total" and an item of that name: the same paths twice. *)
Definition point (x : nat) : V := VRec 3 [(s2l "x", VAtom x); (s2l "y", VAtom 5)].
Definition dx (i p : nat) : V := VDC 4 [(s2l "total", point p)] [(EStr (s2l "total"), point i)].
Theorem C30_mixed_refuted : exists x y e, diff3 defaults x y = Ok [e; e].
Proof. exists (dx 1 2), (dx 3 4). eexists. vm_compute. reflexivity. Qed.

(** An item which differs inside is reported as unchanged as well, if items have a primary key. *)
Theorem C30_no_change_refuted : exists x y p k e, diff2 in_order every x y = Ok [(Modified, p ++ [k], p ++ [k]); e; (NoChange, p, p)].
Proof.
  exists (VLC 6 [] [kline "ink" 1]), (VLC 6 [] [kline "ink" 2]), [EInt 0], (EStr (s2l "qty")). eexists. vm_compute. reflexivity.
Qed.

(** Items of different types (say the item type and a subtype) with equal identities make it fail. *)
Theorem C30_subtype_refuted : exists x y : V, wfv W2 x /\ wfv W2 y /\ same_type x y /\ diff2 in_order defaults x y = Err TypeErr.
Proof.
  exists (VLC 1 [] [line "ink" 1]), (VLC 1 [] [VRec 3 [(s2l "x", VAtom 1); (s2l "y", t "ink")]]).
  split; [unfold line, t; wfv_tac|]. split; [unfold t; wfv_tac|]. split; [reflexivity|]. vm_compute. reflexivity.
Qed.

Print Assumptions C30_empty_iff_agree.
Print Assumptions C30_entries.
Print Assumptions C30_paths.
Print Assumptions C30_no_path_twice.
Print Assumptions C30_fuzzy_refuted.
Print Assumptions C30_mixed_refuted.
Print Assumptions C30_no_change_refuted.
Print Assumptions C30_subtype_refuted.
