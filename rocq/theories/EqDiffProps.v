(** Comparing two objects by == and by diff: C59.
    [same] (what == means) is defined in EqProofs, [change], [at_path] in DiffEntries, and
    [respectful], [all_orderly], [alike] in EqDiffSpec. *)
From Coq Require Import String List Arith NArith ZArith Bool Lia Permutation.
From Verif Require Import Prelude SelPathModel FSModel PySeq MFSModel MFSProofs ValModel EqModel EqProofs HashProofs SeqDiffModel SeqDiffProofs
  SeqDiffProps FuzzyModel FuzzyProps DiffModel DiffProofs DiffSwap DiffTotal DiffExact DiffEntries DiffOnce DiffExample DiffProps DiffExactProps
  TextModel EqDiffSpec EqDiffProofs EqDiffIds.
Import ListNotations.

Section Props.
Context {A C : Type}.
Variable W : classes A C.
Variable aeqb : A -> A -> bool.
Variable ceqb : C -> C -> bool.
Variable same_item : C -> C -> bool.
Notation val := (val A C).
Variable veqb : val -> val -> bool.
Variable hashable : val -> bool.
Variable repr : val -> str.
Variable a_hash a_falsy : A -> bool.
Variable a_items : A -> res (list (elem * val)).
Variable opt : options.
Variable record_id : rtype C -> option mfs -> val -> res val.
Notation orders := (list elem -> list elem -> dorders (A := A) (C := C)).
Notation diff_iter o := (diff_iter W ceqb veqb hashable repr a_hash a_falsy a_items opt record_id o).
Notation veq := (veq W aeqb ceqb same_item).

Lemma wfv_wf : forall v : val, wfv W v -> wf v.
Proof.
  induction v as [| |s|a|t l IH|l IH|c sl IH|c sl IH l IHl|c sl IH l IHl] using val_ind'; intros Wv; inversion Wv; subst; constructor; auto;
    rewrite Forall_forall in *; intros x Ix; try (destruct x as [k u]; cbn [snd] in * ); eauto;
    match goal with F : forall x, In x ?l -> _, I : In _ ?l |- _ => apply (F _ I); cbn [snd]; eauto end.
Qed.

(** Two objects which are ==: whatever is reported is a NO_CHANGE or MOVED entry, asked for by
    the options. *)
Theorem C59_no_change : forall (ord : orders) m n a b l,
  sane W ceqb veqb ord a b -> default_options opt -> o_extraneous opt = false ->
  (o_fuzzy opt = true -> o_unchanged_ opt = false /\ forall u v, veqb u v = true -> v_falsy a_falsy u = v_falsy a_falsy v) ->
  respectful W aeqb same_item veqb a_hash -> coerce_wf W ->
  all_orderly W veqb a_hash opt record_id a -> all_orderly W veqb a_hash opt record_id b ->
  alike W aeqb same_item veqb opt record_id a b ->
  veq m a b = Ok true -> diff_iter ord n a b = Ok l ->
  forall t p q, In (t, p, q) l -> t = NoChange /\ o_unchanged_ opt = true \/ t = Moved /\ o_moved opt = true.
Proof.
  intros ord m n a b l S D X F R Cw Oa Ob Al E H t p q I.
  destruct (C30_entries W ceqb veqb hashable repr a_hash a_falsy a_items opt record_id ord n a b l S D F H) as (T & near & Fr & Ch).
  apply Ch in I. destruct S as (_&Hr&Hs&Ht&Hc&Hk&Wa&Wb&_).
  pose proof (proj1 (veq_decides W aeqb ceqb same_item Hc Cw m a b true (wfv_wf _ Wa) (wfv_wf _ Wb) E) eq_refl) as Sm.
  exact (no_change W aeqb same_item veqb repr a_hash opt record_id Hr Hs Ht R X Hk near _ Fr _ _ _ _ _ _ _ I Sm Wa Wb Oa Ob Al).
Qed.

(** ... so with the default options nothing is. *)
Theorem C59_no_difference : forall (ord : orders) m n a b l,
  sane W ceqb veqb ord a b -> default_options opt -> changes_only opt -> o_extraneous opt = false ->
  (o_fuzzy opt = true -> forall u v, veqb u v = true -> v_falsy a_falsy u = v_falsy a_falsy v) ->
  respectful W aeqb same_item veqb a_hash -> coerce_wf W ->
  all_orderly W veqb a_hash opt record_id a -> all_orderly W veqb a_hash opt record_id b ->
  alike W aeqb same_item veqb opt record_id a b ->
  veq m a b = Ok true -> diff_iter ord n a b = Ok l -> l = [].
Proof.
  intros ord m n a b l S D (Qu&Qm) X F R Cw Oa Ob Al E H. destruct l as [|[[t p] q] l]; auto. exfalso.
  destruct (C59_no_change ord m n a b ((t, p, q) :: l)) with (t := t) (p := p) (q := q) as [[_ Y]|[_ Y]]; auto; try congruence.
  left. reflexivity.
Qed.
End Props.

Section Ids.
Context {A C H : Type}.
Variable W : classes A C.
Variable aeqb : A -> A -> bool.
Variable same_item : C -> C -> bool.
Variable sort_items : list (elem * val A C) -> list (elem * val A C).
Variable alien_atom : C -> A -> res (list (elem * val A C)).
Variable a_hash : A -> bool.
Variable ahash : A -> res H.
Variables hnothing hnone : H.
Variable htext : str -> H.
Variable htuple : list H -> H.
Notation val := (val A C).
Variable veqb : val -> val -> bool.
Variable opt : options.
Notation record_id n := (rid W sort_items alien_atom a_hash ahash hnothing hnone htext htuple n
  (Some (fun v p o => normalize_slot (A := A) (C := C) opt v p o))).

(** The record_id of identity.py, called by diff with its normalisation of slots, gives records
    which are == the same identity, provided they hold no dicts (see [plain] and [disc], as
    for C25) and the identity consists of text, None and opaque values ([flat]). *)
Theorem C59_alike : forall n a b slot_typed item_typed,
  (forall c x y l m, aeqb x y = true -> alien_atom c x = Ok l -> alien_atom c y = Ok m -> Forall2 (fun x y => samep W aeqb (snd x) (snd y)) l m) ->
  (forall T p f o o' u v, In p (pkey W T) \/ In p (props W T) -> p_compare_as p = Some f -> samep W aeqb o o' -> samep W aeqb u v -> samep W aeqb (f o u) (f o' v)) ->
  (forall c d, same_item c d = true -> ValModel.item W c = ValModel.item W d /\ item_typed c = item_typed d) ->
  (forall v, veqb v v = true) -> (forall x y, aeqb x y = true -> veqb (VAtom x) (VAtom y) = true) ->
  (forall w q w' i u, w = a \/ w = b -> at_path W opt w q w' -> strict W w' -> In (i, u) (contents w') ->
     disc slot_typed item_typed true u /\ HashProofs.plain W u /\ exists i, record_id n RAuto None u = Ok i /\ flat i) ->
  alike W aeqb same_item veqb opt (record_id n) a b.
Proof.
  intros n a b st it HA HF HI Vr Va HP q r a' b' k k' u v Pu Pv Ty St Iu Iv S.
  destruct (HP a q a' k u (or_introl eq_refl) Pu St Iu) as (Du & Lu & i & Ei & Fi).
  assert (St' : strict W b').
  { destruct St as (Cl & c & d & Ec & Ed). split; [clear - Ty Cl; destruct a', b'; cbn in *; tauto|]. exists c, d. rewrite <- (type_class _ _ Ty). auto. }
  destruct (HP b r b' k' v (or_intror eq_refl) Pv St' Iv) as (Dv & Lv & j & Ej & Fj).
  assert (Sp : samep W aeqb u v).
  { eapply same_samep; [| |exact S|exact Du|exact Dv|exact Lu|exact Lv]; intros c d I; apply HI in I; tauto. }
  assert (Si : samep W aeqb i j).
  { eapply (rid_norm W aeqb same_item sort_items alien_atom a_hash ahash hnothing hnone htext htuple HA); [|exact Sp|exact Ei|exact Ej].
    apply norm_ok. exact HF. }
  unfold identity. rewrite Ei, Ej. pose proof (key_rel W aeqb veqb Vr Va i j Si Fi) as K.
  unfold keqb, pkeqb. destruct (key_of i), (key_of j); auto; cbn in K; try discriminate.
Qed.
End Ids.

(** ** Cases *)

(** On text, None, opaque values and tuples of them this is ==; any two records of a class, any
    two non-empty lists and any two non-empty dicts count as equal.  (Comparing the orders below
    never comes to compare these as wholes.) *)
Fixpoint shape (v : V) : V :=
  match v with
  | VSeq true l => VSeq true (map shape l)
  | VSeq false l | VLC _ _ l => VSeq false (match l with [] => [] | _ => [VNone] end)
  | VMap l | VDC _ _ l => VMap (match l with [] => [] | _ => [(ENone, VNone)] end)
  | VRec c _ => VRec c []
  | _ => v
  end.
Definition leq (u v : V) : bool := vb (shape u) (shape v).

Lemma same_shape u v : same W2 Nat.eqb Nat.eqb u v -> shape u = shape v.
Proof.
  assert (Nil : forall (R : V -> V -> Prop) (l m : list (elem * V)),
    (forall k, opt2 R (dict_get elem_eqb l k) (dict_get elem_eqb m k)) ->
    match l with [] => [] | _ => [(ENone, VNone)] end = (match m with [] => [] | _ => [(ENone, VNone)] end : list (elem * V))).
  { intros R [|[k x] l] [|[j y] m] H; auto; exfalso; [specialize (H j)|specialize (H k)]; cbn in H; rewrite elem_eqb_refl in H; inversion H. }
  assert (Len : forall (R : V -> V -> Prop) l m, Forall2 R l m -> match l with [] => [] | _ => [VNone] end = (match m with [] => [] | _ => [VNone] end : list V)).
  { intros R l m []; auto. }
  revert u v. apply (same_ind' W2 Nat.eqb Nat.eqb (fun u v => shape u = shape v)); cbn [shape]; auto.
  - intros x y E. apply Nat.eqb_eq in E as ->. reflexivity.
  - intros [|] l m F; f_equal; [|now apply (Len _ _ _ F)]. induction F as [|x y l m [_ E] F IH]; cbn; congruence.
  - intros l m F. f_equal. eapply Nil; eauto.
  - intros c d sl sm l m _ F. f_equal. now apply (Len _ _ _ F).
  - intros c d sl sm l m _ F. f_equal. eapply Nil; eauto.
  - intros c sl l m m' G F. f_equal. destruct F; inversion G; auto.
  - intros c sl l m m' G F. f_equal. destruct F; inversion G; auto.
  - intros c sl l m m' G F. f_equal. rewrite (Nil _ _ _ F). destruct G; auto.
  - intros c sl l m m' G F. f_equal. rewrite (Nil _ _ _ F). destruct G; auto.
Qed.

Definition box (l : list (string * V)) : V := VDC 4 [] (map (fun kv => (EStr (s2l (fst kv)), snd kv)) l).
(** two orders, the slots and the entries of the dict put in in different orders, the second
    one touched at another time *)
Definition e1 : V := VRec 2 [(s2l "no", VAtom 7); (s2l "lines", VLC 1 [] [line "pen" 2; line "ink" 1]);
  (s2l "tags", VSeq false [t "a"; t "b"]); (s2l "extra", box [("x"%string, line "cap" 1); ("y"%string, line "nib" 2)]); (s2l "touched", VAtom 1)].
Definition e2 : V := VRec 2 [(s2l "touched", VAtom 2); (s2l "tags", VSeq false [t "a"; t "b"]);
  (s2l "extra", box [("y"%string, line "nib" 2); ("x"%string, line "cap" 1)]); (s2l "lines", VLC 1 [] [line "pen" 2; line "ink" 1]); (s2l "no", VAtom 7)].

Definition diff_leq (o : list elem -> list elem -> dorders) (opt : options) (x y : V) : res (list dentry) :=
  diff_iter W2 Nat.eqb leq (fun _ => true) (fun _ => s2l "?") (fun _ => true) (Nat.eqb 0) (fun _ => Err TypeErr) opt (id2 opt) o 9 x y.
Definition all_told : options := mkOptions (fun s => s) true true false false false false None false false.

Lemma coerce_W2 : coerce_wf W2.
Proof. intros c v v' Wv [= <-]. exact Wv. Qed.
Lemma sane_e ord : (forall fa fb, orders_ok (ord fa fb)) -> sane W2 Nat.eqb leq ord e1 e2.
Proof.
  intros Ho. split; auto. unfold leq. split; [intros v; now apply vb_eq|]. split; [intros u v H; apply vb_eq in H; now apply vb_eq|].
  split; [intros u v w H1 H2; apply vb_eq in H1, H2; apply vb_eq; congruence|]. split; [intros c d; apply Nat.eqb_eq|].
  split; [apply keeps_W2|].
  split; [unfold e1, box, line, t; cbn [map fst snd]; wfv_tac; cbn; intros Hi; repeat (destruct Hi as [Hi|Hi]; [discriminate Hi|]); destruct Hi|].
  split; [unfold e2, box, line, t; cbn [map fst snd]; wfv_tac; cbn; intros Hi; repeat (destruct Hi as [Hi|Hi]; [discriminate Hi|]); destruct Hi|]. left. reflexivity.
Qed.
Lemma respectful_e : respectful W2 Nat.eqb Nat.eqb leq (fun _ => true).
Proof.
  split; [intros u v S; apply same_shape in S; now apply vb_eq|]. split; [|split; [intros c f u v E; discriminate E|intros x y _; reflexivity]].
  intros c p f o o' u v I E. exfalso.
  destruct c as [|[|[|[|[|[|[|c]]]]]]]; cbn in I; repeat (destruct I as [<-|I]); try (destruct I); cbn in E; discriminate E.
Qed.
Lemma orderly_e w : w = e1 \/ w = e2 -> all_orderly W2 leq (fun _ => true) defaults (id2 defaults) w.
Proof.
  intros Hw q v H. apply path_part in H.
  destruct Hw as [-> | ->]; vm_compute in H;
  repeat (destruct H as [<-|H]; [split; [intros Cl c p; cbn in Cl; try (destruct Cl; fail); intros [= <-]; intros []|split;
    [intros L k u I; cbn in I; repeat (destruct I as [I|I]; [inversion I; subst; reflexivity|]); destruct I
    |intros D; cbn in D; try (destruct D; fail); intros i j x y Ix Iy K; vm_compute in Ix, Iy;
     repeat (destruct Ix as [Ix|Ix]; [inversion Ix; subst; clear Ix;
       repeat (destruct Iy as [Iy|Iy]; [inversion Iy; subst; clear Iy; first [reflexivity|vm_compute in K; discriminate K]|]); destruct Iy|]); destruct Ix]]|]); destruct H.
Qed.

Definition checks (u v : V) : bool :=
  match veq W2 Nat.eqb Nat.eqb Nat.eqb 9 u v with
  | Ok true => keqb leq (identity (id2 defaults) u) (identity (id2 defaults) v)
  | Ok false => true
  | Err _ => false
  end.
Lemma path_wfv (w : V) q x : wfv W2 w -> at_path W2 defaults w q x -> wfv W2 x.
Proof.
  intros Ww P. induction P as [v|v c p u q w Ec Ip Es H IH|v k u q w Ik H IH]; auto; apply IH.
  - exact (seen_wf W2 defaults keeps_W2 p c v u Ip Ww Es).
  - exact (contents_wf W2 v k u Ww Ik).
Qed.
Lemma path_item (w : V) q x i u : at_path W2 defaults w q x -> In (i, u) (contents x) -> at_path W2 defaults w (q ++ [i]) u.
Proof.
  intros P I. induction P as [v|v c p y q z Ec Ip Es H IH|v k y q z Ik H IH]; cbn [app].
  - eapply at_item; [exact I|constructor].
  - eapply at_slot; eauto.
  - eapply at_item; eauto.
Qed.
Definition items (w : V) : list V := flat_map (fun v =>
  match v with
  | VLC c _ _ | VDC c _ _ => match ValModel.item W2 c with IRec _ => map snd (contents v) | _ => [] end
  | _ => []
  end) (parts w).
Lemma in_items w q v i u : at_path W2 defaults w q v -> strict W2 v -> In (i, u) (contents v) -> In u (items w).
Proof.
  intros P (Cl & c & d & Ec & Ed) I. apply path_part in P. unfold items. apply in_flat_map. exists v. split; auto.
  destruct v; cbn in Cl; try tauto; cbn in Ec; injection Ec as ->; rewrite Ed; change u with (snd (i, u)); now apply in_map.
Qed.
Lemma checked_all : forallb (fun u => forallb (checks u) (items e2)) (items e1) = true.
Proof. vm_compute. reflexivity. Qed.
Lemma checked u v : In u (items e1) -> In v (items e2) -> checks u v = true.
Proof.
  pose proof checked_all as K. revert K. generalize (items e1) as l, (items e2) as m. intros l m K Iu Iv.
  rewrite forallb_forall in K. specialize (K u Iu). rewrite forallb_forall in K. exact (K v Iv).
Qed.
Lemma checks_ok u v : wf u -> wf v -> same W2 Nat.eqb Nat.eqb u v -> checks u v = true ->
  keqb leq (identity (id2 defaults) u) (identity (id2 defaults) v) = true.
Proof.
  unfold checks. intros Wu Wv S. pose proof (veq_decides W2 Nat.eqb Nat.eqb Nat.eqb Nat.eqb_eq coerce_W2 9 u v) as D. revert D.
  generalize (veq W2 Nat.eqb Nat.eqb Nat.eqb 9 u v) as r. intros [[|]|e] D K; [exact K| |discriminate K].
  apply (D false Wu Wv eq_refl) in S. discriminate S.
Qed.
Lemma alike_e : alike W2 Nat.eqb Nat.eqb leq defaults (id2 defaults) e1 e2.
Proof.
  intros q r a b i j u v Pa Pb Ty St Iu Iv S.
  assert (St' : strict W2 b).
  { destruct St as (Cl & c & d & Ec & Ed). split; [clear - Ty Cl; destruct a, b; cbn in *; tauto|]. exists c, d. rewrite <- (type_class _ _ Ty). auto. }
  assert (Pu : at_path W2 defaults e1 (q ++ [i]) u) by (eapply path_item; eauto).
  assert (Pv : at_path W2 defaults e2 (r ++ [j]) v) by (eapply path_item; eauto).
  destruct (sane_e in_order in_order_ok) as (_&_&_&_&_&_&W1&W2'&_).
  pose proof (wfv_wf W2 u (path_wfv _ _ _ W1 Pu)) as Wu. pose proof (wfv_wf W2 v (path_wfv _ _ _ W2' Pv)) as Wv.
  exact (checks_ok u v Wu Wv S (checked u v (in_items e1 q a i u Pa St Iu) (in_items e2 r b j v Pb St' Iv))).
Qed.

(** The orders are ==, and there is no difference; with all the options, only unchanged places
    are reported. *)
Example C59_case :
  sane W2 Nat.eqb leq in_order e1 e2 /\ default_options defaults /\ changes_only defaults /\ o_fuzzy defaults = true /\
  (forall u v, leq u v = true -> v_falsy (Nat.eqb 0) u = v_falsy (Nat.eqb 0) v) /\
  respectful W2 Nat.eqb Nat.eqb leq (fun _ => true) /\ coerce_wf W2 /\
  all_orderly W2 leq (fun _ => true) defaults (id2 defaults) e1 /\ all_orderly W2 leq (fun _ => true) defaults (id2 defaults) e2 /\
  alike W2 Nat.eqb Nat.eqb leq defaults (id2 defaults) e1 e2 /\
  e1 <> e2 /\ veq W2 Nat.eqb Nat.eqb Nat.eqb 9 e1 e2 = Ok true /\ diff_leq in_order defaults e1 e2 = Ok [] /\
  exists l, diff_leq in_order all_told e1 e2 = Ok l /\ length l = 15.
Proof.
  split; [apply sane_e, in_order_ok|]. split; [repeat split|]. split; [split; reflexivity|]. split; [reflexivity|].
  split.
  { intros u v H. apply vb_eq in H.
    assert (G : forall w, v_falsy (Nat.eqb 0) w = v_falsy (Nat.eqb 0) (shape w)).
    { intros [| |s|a|[|] [|? ?]|[|? ?]|c sl|c sl [|? ?]|c sl [|? ?]]; reflexivity. }
    rewrite (G u), (G v). congruence. }
  split; [apply respectful_e|]. split; [apply coerce_W2|]. split; [apply orderly_e; auto|]. split; [apply orderly_e; auto|].
  split; [apply alike_e|]. split; [discriminate|]. split; [vm_compute; reflexivity|].
  split; [vm_compute; reflexivity|].
  exists (match diff_leq in_order all_told e1 e2 with Ok l => l | Err _ => [] end). split; vm_compute; reflexivity.
Qed.

(** orders without dicts: the identities of == lines are the same *)
Definition l1 : V := VLC 1 [] [line "pen" 2; line "ink" 1].
Definition l2 : V := VLC 1 [] [VRec 0 [(s2l "qty", VAtom 2); (s2l "sku", t "pen"); (s2l "seen", VAtom 9)]; line "ink" 1].
Lemma key_name_line n : HashProofs.key_name W2 n -> n = s2l "sku" \/ n = s2l "qty" \/ n = s2l "no" \/ n = s2l "lines" \/ n = s2l "tags" \/
  n = s2l "extra" \/ n = s2l "x" \/ n = s2l "y".
Proof.
  intros (T & p & <- & H). destruct T as [|[|[|[|[|[|[|T]]]]]]]; cbn in H; intuition (subst; cbn; try discriminate; auto 10).
Qed.
Notation idx := (rid (H := unit) W2 (fun l => l) (fun _ _ => Err TypeErr) (fun _ => true) (fun _ => Ok tt) tt tt (fun _ => tt) (fun _ => tt) 9
  (Some (fun v p o => normalize_slot (A := nat) (C := nat) defaults v p o))).
Example C59_alike_case :
  (forall w q w' i u, w = l1 \/ w = l2 -> at_path W2 defaults w q w' -> strict W2 w' -> In (i, u) (contents w') ->
     disc (fun _ _ => true) (fun _ => false) true u /\ HashProofs.plain W2 u /\ exists i, idx RAuto None u = Ok i /\ flat i) /\
  alike W2 Nat.eqb Nat.eqb leq defaults (idx) l1 l2 /\ l1 <> l2 /\ veq W2 Nat.eqb Nat.eqb Nat.eqb 9 l1 l2 = Ok true.
Proof.
  assert (HP : forall w q w' i u, w = l1 \/ w = l2 -> at_path W2 defaults w q w' -> strict W2 w' -> In (i, u) (contents w') ->
     disc (fun _ _ => true) (fun _ => false) true u /\ HashProofs.plain W2 u /\ exists i, idx RAuto None u = Ok i /\ flat i).
  { intros w q w' i u Hw Pw (Cl & c & d & Ec & Ed) I. apply path_part in Pw.
    destruct Hw as [-> | ->]; vm_compute in Pw; repeat (destruct Pw as [<-|Pw]; [cbn in Cl; try (destruct Cl; fail)|]); try (destruct Pw; fail);
      cbn in I; repeat (destruct I as [I|I]; [inversion I; subst u|]); try (destruct I; fail);
      (split; [repeat (constructor; cbn [fst snd])|]; split;
       [constructor; [repeat (constructor; cbn [fst snd])|];
        intros n In K; cbn in In; repeat (destruct In as [<-|In]); try (destruct In; fail); 
        try (exists (P "sku" None); cbn; auto; fail); try (exists (P "qty" None); cbn; auto; fail);
        apply key_name_line in K; intuition discriminate
       |eexists; split; [reflexivity|repeat constructor]]). }
  split; auto. split; [|split; [discriminate|vm_compute; reflexivity]].
  assert (HF : forall T p f o o' u v, In p (pkey W2 T) \/ In p (props W2 T) -> p_compare_as p = Some f ->
     samep W2 Nat.eqb o o' -> samep W2 Nat.eqb u v -> samep W2 Nat.eqb (f o u) (f o' v)).
  { intros T p f o o' u v I E. exfalso.
    destruct T as [|[|[|[|[|[|[|T]]]]]]]; cbn in I; destruct I as [I|I]; repeat (destruct I as [<-|I]); try (destruct I); cbn in E; discriminate E. }
  refine (C59_alike (H := unit) W2 Nat.eqb Nat.eqb (fun l => l) (fun _ _ => Err TypeErr) (fun _ => true) (fun _ => Ok tt) tt tt (fun _ => tt) (fun _ => tt)
    leq defaults 9 l1 l2 (fun _ _ => true) (fun _ => false) _ HF _ _ _ HP).
  - intros c x y l m _ H. discriminate H.
  - intros c d E. apply Nat.eqb_eq in E as ->. auto.
  - intros v. now apply vb_eq.
  - intros x y E. apply Nat.eqb_eq in E as ->. now apply vb_eq.
Qed.

(** ** Findings *)

(** A world with: 0 a line with the primary key "sku"; 1 a list of lines with a property "note" of
    its own; 2 a dict of lines; 3 a record with any one slot.  Here [veqb] is == itself. *)
Definition W9 : classes nat nat := mkClasses
  (fun c => match c with 1 => KList | 2 => KDict | _ => KRec end)
  (fun c => match c with 0 => [P "sku" None; P "qty" None] | 1 => [P "note" None] | 3 => [P "x" None] | _ => [] end)
  (fun c => match c with 0 => [P "sku" None] | _ => [] end)
  (fun c => match c with 1 | 2 => IRec 0 | _ => IPlain end)
  (fun _ => None)
  (fun _ v => Ok v).
Definition eq9 (x y : V) : res bool := veq W9 Nat.eqb Nat.eqb Nat.eqb 9 x y.
Definition eqb9 (x y : V) : bool := match eq9 x y with Ok b => b | Err _ => false end.
Definition id9 (opt : options) : rtype nat -> option mfs -> V -> res V :=
  rid (H := unit) W9 (fun l => l) (fun _ _ => Err TypeErr) (fun _ => true) (fun _ => Ok tt) tt tt (fun _ => tt) (fun _ => tt) 9 (nrm opt).
(** repr() of a dict goes by its order *)
Definition repr9 (v : V) : str :=
  match v with VMap l => flat_map (fun kv => match fst kv with EStr s => s | _ => s2l "?" end) l | _ => s2l "?" end.
Definition diff9 (opt : options) (x y : V) : res (list dentry) :=
  diff_iter W9 Nat.eqb eqb9 (fun _ => true) repr9 (fun _ => true) (Nat.eqb 0) (fun _ => Err TypeErr) opt (id9 opt) in_order 9 x y.
(** the defaults, with white space normalised as in TextModel *)
Definition stripped : options := mkOptions (normalize_whitespace (fun c => N.eqb c 32)) false false false false false false None true false.
Definition item9 (sku : string) (q : nat) : V := VRec 0 [(s2l "sku", t sku); (s2l "qty", VAtom q)].

(** == but different.  The own properties of a collection take no part in ==: *)
Theorem C59_own_property_refuted : exists x y e, eq9 x y = Ok true /\ diff9 defaults x y = Ok [e] /\ fst (fst e) = Modified.
Proof.
  exists (VLC 1 [(s2l "note", t "a")] []), (VLC 1 [(s2l "note", t "b")] []), (Modified, [EStr (s2l "note")], [EStr (s2l "note")]).
  repeat split; vm_compute; reflexivity.
Qed.

(** dicts in a list are compared by their repr, which tells their order: *)
Theorem C59_dict_in_list_refuted : exists x y e, eq9 x y = Ok true /\ diff9 defaults x y = Ok [e] /\ fst (fst e) = Modified.
Proof.
  pose (d := fun a b => VRec 3 [(s2l "x", VSeq false [VMap [(EStr (s2l a), VNone); (EStr (s2l b), VNone)]])] : V).
  exists (d "a" "b")%string, (d "b" "a")%string, (Modified, [EStr (s2l "x"); EInt 0], [EStr (s2l "x"); EInt 0]).
  repeat split; vm_compute; reflexivity.
Qed.

(** two records of the same primary key in a dict are paired by the order of the dict: *)
Theorem C59_same_key_refuted : exists x y l, eq9 x y = Ok true /\ diff9 defaults x y = Ok l /\ l <> [].
Proof.
  exists (VDC 2 [] [(EStr (s2l "a"), item9 "pen" 1); (EStr (s2l "b"), item9 "pen" 2)]),
         (VDC 2 [] [(EStr (s2l "b"), item9 "pen" 2); (EStr (s2l "a"), item9 "pen" 1)]).
  eexists. split; [vm_compute; reflexivity|]. split; [vm_compute; reflexivity|]. discriminate.
Qed.

(** and a primary key may be extraneous (here without fuzzy matching): *)
Theorem C59_extraneous_key_refuted : exists x y l,
  veq W3 Nat.eqb Nat.eqb Nat.eqb 9 x y = Ok true /\ diff3 exactly_matched x y = Ok l /\ length l = 2.
Proof.
  exists (VLC 1 [] [user 1 "ann"]), (VLC 1 [] [user 2 "ann"]). eexists.
  split; [vm_compute; reflexivity|]. split; [vm_compute; reflexivity|]. reflexivity.
Qed.

(** Not different, but not ==.  The order of a list does not count, *)
Theorem C59_order_refuted : exists x y, eq9 x y = Ok false /\ diff9 defaults x y = Ok [].
Proof.
  exists (VLC 1 [] [item9 "pen" 1; item9 "ink" 2]), (VLC 1 [] [item9 "ink" 2; item9 "pen" 1]). split; vm_compute; reflexivity.
Qed.
(** nor do the keys of a dict, *)
Theorem C59_keys_refuted : exists x y, eq9 x y = Ok false /\ diff9 defaults x y = Ok [].
Proof.
  exists (VDC 2 [] [(EStr (s2l "a"), item9 "pen" 1)]), (VDC 2 [] [(EStr (s2l "b"), item9 "pen" 1)]). split; vm_compute; reflexivity.
Qed.
(** not even the keys of a plain dict, *)
Theorem C59_plain_keys_refuted : exists x y, eq9 x y = Ok false /\ diff9 defaults x y = Ok [].
Proof.
  exists (VRec 3 [(s2l "x", VMap [(EStr (s2l "a"), VAtom 1)])]), (VRec 3 [(s2l "x", VMap [(EStr (s2l "b"), VAtom 1)])]). split; vm_compute; reflexivity.
Qed.
(** nor white space. *)
Theorem C59_space_refuted : exists x y, eq9 x y = Ok false /\ diff9 stripped x y = Ok [].
Proof.
  exists (item9 "red  pen " 1), (item9 "red pen" 1). split; vm_compute; reflexivity.
Qed.

Print Assumptions C59_no_change.
Print Assumptions C59_no_difference.
Print Assumptions C59_alike.
Print Assumptions C59_own_property_refuted.
Print Assumptions C59_dict_in_list_refuted.
Print Assumptions C59_same_key_refuted.
Print Assumptions C59_extraneous_key_refuted.
Print Assumptions C59_order_refuted.
Print Assumptions C59_keys_refuted.
Print Assumptions C59_plain_keys_refuted.
Print Assumptions C59_space_refuted.
