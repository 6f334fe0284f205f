(** Proofs about equality and identity: [veq] decides [same], which is an equivalence;
    equal values have equal identities and hashes. *)
From Coq Require Import List Arith NArith ZArith Bool Lia.
From Verif Require Import Prelude SelPathModel FSModel FSProofs PySeq MFSModel MFSProofs ValModel EqModel.
Import ListNotations.

Inductive opt2 {X Y} (R : X -> Y -> Prop) : option X -> option Y -> Prop :=
| opt2_none : opt2 R None None
| opt2_some x y : R x y -> opt2 R (Some x) (Some y).

Lemma elem_eqb_iff a b : elem_eqb a b = true <-> a = b.
Proof. apply elem_eqb_eq. Qed.

Lemma Forall2_impl_in {X Y} (R S : X -> Y -> Prop) l m :
  Forall2 R l m -> (forall x y, In x l -> In y m -> R x y -> S x y) -> Forall2 S l m.
Proof.
  induction 1; intros I; constructor.
  - apply I; cbn; auto.
  - apply IHForall2. intros; apply I; cbn; auto.
Qed.

Lemma Forall2_flip_in {X Y} (R : X -> Y -> Prop) l m : Forall2 R l m -> Forall2 (fun y x => R x y) m l.
Proof. induction 1; constructor; auto. Qed.

Lemma Forall2_len {X Y} (R : X -> Y -> Prop) l m : Forall2 R l m -> length l = length m.
Proof. induction 1; cbn; auto. Qed.

Section Dict.
Context {V : Type}.
Implicit Types l m : list (elem * V).
Lemma eget_in l k v : dict_get elem_eqb l k = Some v -> In (k, v) l.
Proof.
  induction l as [|[k' v'] t IH]; cbn [dict_get]; [discriminate|].
  destruct (elem_eqb k' k) eqn:E.
  - apply elem_eqb_iff in E as ->. intros [= ->]. left; auto.
  - right; auto.
Qed.
Lemma in_eget l k v : NoDup (map fst l) -> In (k, v) l -> dict_get elem_eqb l k = Some v.
Proof.
  induction l as [|[k' v'] t IH]; cbn [dict_get map fst]; [intros _ []|].
  intros N [E|I]; inversion N; subst.
  - injection E as -> ->. now rewrite (proj2 (elem_eqb_iff k k) eq_refl).
  - destruct (elem_eqb k' k) eqn:E; auto. apply elem_eqb_iff in E as ->.
    exfalso. apply H1. now apply (in_map fst) in I.
Qed.
Lemma eget_none l k : dict_get elem_eqb l k = None <-> ~ In k (map fst l).
Proof.
  induction l as [|[k' v'] t IH]; cbn [dict_get map fst]; [tauto|].
  destruct (elem_eqb k' k) eqn:E.
  - apply elem_eqb_iff in E as ->. split; [discriminate|]. intros N; exfalso; apply N; left; auto.
  - rewrite IH. split; [|intros N I; apply N; right; auto].
    intros N [->|I]; auto. now rewrite (proj2 (elem_eqb_iff k k) eq_refl) in E.
Qed.
Lemma eget_key l k : In k (map fst l) -> exists v, dict_get elem_eqb l k = Some v.
Proof.
  intros I. destruct (dict_get elem_eqb l k) as [v|] eqn:E; [eauto|]. now apply eget_none in E.
Qed.
End Dict.

Lemma sget_in {V} (l : list (str * V)) k v : dict_get str_eqb l k = Some v -> In (k, v) l.
Proof.
  induction l as [|[k' v'] t IH]; cbn [dict_get]; [discriminate|].
  destruct (str_eqb k' k) eqn:E.
  - apply str_eqb_eq in E as ->. intros [= ->]. left; auto.
  - right; auto.
Qed.

Section Eq.
Context {A C H : Type}.
Variable W : classes A C.
Variable aeqb : A -> A -> bool.
Variable ceqb : C -> C -> bool.
Variable same_item : C -> C -> bool.
Notation val := (val A C).
Notation prop := (prop A C).
Notation veq := (veq W aeqb ceqb same_item).

(** What == means: without evaluation order, fuel, or loops. *)
Inductive same : val -> val -> Prop :=
| same_nothing : same VNothing VNothing
| same_none : same VNone VNone
| same_text s : same (VText s) (VText s)
| same_atom a b : aeqb a b = true -> same (VAtom a) (VAtom b)
| same_seq t l m : Forall2 same l m -> same (VSeq t l) (VSeq t m)
| same_map l m : (forall k, opt2 same (dict_get elem_eqb l k) (dict_get elem_eqb m k)) -> same (VMap l) (VMap m)
| same_rec c sl sm :
    (forall p, In p (props W c) -> p_extraneous p = false ->
       opt2 same (dict_get str_eqb sl (p_name p)) (dict_get str_eqb sm (p_name p))) ->
    same (VRec c sl) (VRec c sm)
| same_lc c d sl sm l m : same_item c d = true -> Forall2 same l m -> same (VLC c sl l) (VLC d sm m)
| same_dc c d sl sm l m : same_item c d = true ->
    (forall k, opt2 same (dict_get elem_eqb l k) (dict_get elem_eqb m k)) -> same (VDC c sl l) (VDC d sm m)
| same_lc_seq c sl l m m' : Forall2 (fun u v => coerce W c u = Ok v) m m' -> Forall2 same l m' ->
    same (VLC c sl l) (VSeq false m)
| same_seq_lc c sl l m m' : Forall2 (fun u v => coerce W c u = Ok v) m m' -> Forall2 same l m' ->
    same (VSeq false m) (VLC c sl l)
| same_dc_map c sl l m m' : Forall2 (fun u v => fst u = fst v /\ coerce W c (snd u) = Ok (snd v)) m m' ->
    (forall k, opt2 same (dict_get elem_eqb l k) (dict_get elem_eqb m' k)) -> same (VDC c sl l) (VMap m)
| same_map_dc c sl l m m' : Forall2 (fun u v => fst u = fst v /\ coerce W c (snd u) = Ok (snd v)) m m' ->
    (forall k, opt2 same (dict_get elem_eqb l k) (dict_get elem_eqb m' k)) -> same (VMap m) (VDC c sl l).

(** Dicts have every key once. *)
Inductive wf : val -> Prop :=
| wf_nothing : wf VNothing
| wf_none : wf VNone
| wf_text s : wf (VText s)
| wf_atom a : wf (VAtom a)
| wf_seq t l : Forall wf l -> wf (VSeq t l)
| wf_map l : NoDup (map fst l) -> Forall (fun kv => wf (snd kv)) l -> wf (VMap l)
| wf_rec c sl : Forall (fun kv => wf (snd kv)) sl -> wf (VRec c sl)
| wf_lc c sl l : Forall wf l -> wf (VLC c sl l)
| wf_dc c sl l : NoDup (map fst l) -> Forall (fun kv => wf (snd kv)) l -> wf (VDC c sl l).

Section Ind.
Variable P : val -> val -> Prop.
Let Q x y := same x y /\ P x y.
Hypothesis P_nothing : P VNothing VNothing.
Hypothesis P_none : P VNone VNone.
Hypothesis P_text : forall s, P (VText s) (VText s).
Hypothesis P_atom : forall a b, aeqb a b = true -> P (VAtom a) (VAtom b).
Hypothesis P_seq : forall t l m, Forall2 Q l m -> P (VSeq t l) (VSeq t m).
Hypothesis P_map : forall l m, (forall k, opt2 Q (dict_get elem_eqb l k) (dict_get elem_eqb m k)) -> P (VMap l) (VMap m).
Hypothesis P_rec : forall c sl sm,
  (forall p, In p (props W c) -> p_extraneous p = false ->
     opt2 Q (dict_get str_eqb sl (p_name p)) (dict_get str_eqb sm (p_name p))) -> P (VRec c sl) (VRec c sm).
Hypothesis P_lc : forall c d sl sm l m, same_item c d = true -> Forall2 Q l m -> P (VLC c sl l) (VLC d sm m).
Hypothesis P_dc : forall c d sl sm l m, same_item c d = true ->
  (forall k, opt2 Q (dict_get elem_eqb l k) (dict_get elem_eqb m k)) -> P (VDC c sl l) (VDC d sm m).
Hypothesis P_lc_seq : forall c sl l m m', Forall2 (fun u v => coerce W c u = Ok v) m m' -> Forall2 Q l m' ->
  P (VLC c sl l) (VSeq false m).
Hypothesis P_seq_lc : forall c sl l m m', Forall2 (fun u v => coerce W c u = Ok v) m m' -> Forall2 Q l m' ->
  P (VSeq false m) (VLC c sl l).
Hypothesis P_dc_map : forall c sl l m m',
  Forall2 (fun u v => fst u = fst v /\ coerce W c (snd u) = Ok (snd v)) m m' ->
  (forall k, opt2 Q (dict_get elem_eqb l k) (dict_get elem_eqb m' k)) -> P (VDC c sl l) (VMap m).
Hypothesis P_map_dc : forall c sl l m m',
  Forall2 (fun u v => fst u = fst v /\ coerce W c (snd u) = Ok (snd v)) m m' ->
  (forall k, opt2 Q (dict_get elem_eqb l k) (dict_get elem_eqb m' k)) -> P (VMap m) (VDC c sl l).

Fixpoint same_ind' x y (S : same x y) {struct S} : P x y :=
  let many := fix many l m (F : Forall2 same l m) : Forall2 Q l m :=
    match F with
    | Forall2_nil _ => Forall2_nil _
    | Forall2_cons _ _ s F => Forall2_cons _ _ (conj s (same_ind' _ _ s)) (many _ _ F)
    end in
  let opt := fun o q (F : opt2 same o q) =>
    match F in opt2 _ o q return opt2 Q o q with
    | opt2_none _ => opt2_none _
    | opt2_some _ _ _ s => opt2_some _ _ _ (conj s (same_ind' _ _ s))
    end in
  match S with
  | same_nothing => P_nothing
  | same_none => P_none
  | same_text s => P_text s
  | same_atom a b e => P_atom a b e
  | same_seq t l m F => P_seq t l m (many _ _ F)
  | same_map l m F => P_map l m (fun k => opt _ _ (F k))
  | same_rec c sl sm F => P_rec c sl sm (fun p i e => opt _ _ (F p i e))
  | same_lc c d sl sm l m e F => P_lc c d sl sm l m e (many _ _ F)
  | same_dc c d sl sm l m e F => P_dc c d sl sm l m e (fun k => opt _ _ (F k))
  | same_lc_seq c sl l m m' G F => P_lc_seq c sl l m m' G (many _ _ F)
  | same_seq_lc c sl l m m' G F => P_seq_lc c sl l m m' G (many _ _ F)
  | same_dc_map c sl l m m' G F => P_dc_map c sl l m m' G (fun k => opt _ _ (F k))
  | same_map_dc c sl l m m' G F => P_map_dc c sl l m m' G (fun k => opt _ _ (F k))
  end.
End Ind.

(** ** The loops *)

Section Loops.
Variable eq : val -> val -> res bool.

Lemma eq_items_spec l m : (forall x y b, In x l -> In y m -> eq x y = Ok b -> (b = true <-> same x y)) ->
  forall b, eq_items eq l m = Ok b -> (b = true <-> Forall2 same l m).
Proof.
  revert m; induction l as [|x l IH]; intros [|y m] D b; cbn [eq_items].
  - intros [= <-]. split; auto.
  - intros [= <-]. split; [discriminate|]. intros F; inversion F.
  - intros [= <-]. split; [discriminate|]. intros F; inversion F.
  - destruct (eq x y) as [[|]|e] eqn:E; cbn [bind]; try discriminate.
    + intros H0. apply IH in H0; [|intros; eapply D; eauto; cbn; auto].
      rewrite H0. apply D in E; cbn; auto. split.
      * intros F; constructor; auto. now apply E.
      * intros F; now inversion F.
    + intros [= <-]. split; [discriminate|]. intros F; inversion F; subst.
      apply D in E; cbn; auto. now apply E.
Qed.

Lemma eq_list_spec l m : (forall x y b, In x l -> In y m -> eq x y = Ok b -> (b = true <-> same x y)) ->
  forall b, eq_list eq l m = Ok b -> (b = true <-> Forall2 same l m).
Proof.
  intros D b; unfold eq_list. destruct (Nat.eqb (length l) (length m)) eqn:E.
  - now apply eq_items_spec.
  - intros [= <-]. split; [discriminate|]. intros F. apply Forall2_len in F. now apply Nat.eqb_neq in E.
Qed.

Lemma eq_entries_spec l m :
  (forall k x y b, In (k, x) l -> In (k, y) m -> eq x y = Ok b -> (b = true <-> same x y)) ->
  forall b, eq_entries eq l m = Ok b ->
    (b = true <-> forall k x, In (k, x) l -> exists y, dict_get elem_eqb m k = Some y /\ same x y).
Proof.
  induction l as [|[k x] l IH]; intros D b; cbn [eq_entries].
  - intros [= <-]. split; auto. intros _ k x [].
  - destruct (dict_get elem_eqb m k) as [y|] eqn:G.
    + destruct (eq x y) as [[|]|e] eqn:E; cbn [bind]; try discriminate.
      * intros H0. apply IH in H0; [|intros; eapply D; eauto; cbn; auto].
        rewrite H0. apply (D k) in E; cbn; auto; [|now apply eget_in]. split.
        -- intros F k' x' [[= <- <-]|I]; auto. exists y; split; auto. now apply E.
        -- intros F k' x' I; apply F; cbn; auto.
      * intros [= <-]. split; [discriminate|]. intros F.
        destruct (F k x) as (y' & G' & S); [cbn; auto|]. rewrite G in G'; injection G' as <-.
        apply (D k) in E; cbn; auto; [now apply E|now apply eget_in].
    + intros [= <-]. split; [discriminate|]. intros F.
      destruct (F k x) as (y' & G' & S); [cbn; auto|]. congruence.
Qed.

Lemma eq_dict_spec l m :
  NoDup (map fst l) -> NoDup (map fst m) ->
  (forall k x y b, In (k, x) l -> In (k, y) m -> eq x y = Ok b -> (b = true <-> same x y)) ->
  forall b, eq_dict eq l m = Ok b ->
    (b = true <-> forall k, opt2 same (dict_get elem_eqb l k) (dict_get elem_eqb m k)).
Proof.
  intros Nl Nm D b; unfold eq_dict. destruct (Nat.eqb (length l) (length m)) eqn:E.
  - intros E0. apply (eq_entries_spec l m D) in E0. rewrite E0. apply Nat.eqb_eq in E. split.
    + intros F k. destruct (dict_get elem_eqb l k) as [x|] eqn:G.
      * apply eget_in in G. destruct (F _ _ G) as (y & -> & S). now constructor.
      * destruct (dict_get elem_eqb m k) as [y|] eqn:G'; [|constructor]. exfalso.
        apply eget_none in G. apply eget_in in G'. apply G. apply (in_map fst) in G'; cbn in G'.
        assert (I : incl (map fst l) (map fst m)).
        { intros k' I'. apply in_map_iff in I' as ([k2 x2] & <- & I'). destruct (F _ _ I') as (y2 & G2 & _).
          apply eget_in in G2. now apply (in_map fst) in G2. }
        apply (NoDup_length_incl Nl) in I; [now apply I|]. rewrite !map_length. lia.
    + intros F k x I. apply in_eget in I; auto. specialize (F k). rewrite I in F. inversion F; subst. eauto.
  - intros [= <-]. split; [discriminate|]. intros F. apply Nat.eqb_neq in E. exfalso. apply E.
    assert (K : forall k, In k (map fst l) <-> In k (map fst m)).
    { intros k. specialize (F k). pose proof (eget_none l k) as N1. pose proof (eget_none m k) as N2.
      destruct (dict_get elem_eqb l k) as [u|] eqn:G1, (dict_get elem_eqb m k) as [v|] eqn:G2; try (inversion F; fail).
      - apply eget_in, (in_map fst) in G1, G2. cbn in G1, G2. tauto.
      - destruct N1 as [N1 _], N2 as [N2 _]. split; intros I; exfalso; [apply N1|apply N2]; auto. }
    rewrite <- (map_length fst l), <- (map_length fst m). apply Nat.le_antisymm.
    + apply NoDup_incl_length; auto. intros k I; now apply K.
    + apply NoDup_incl_length; auto. intros k I; now apply K.
Qed.

Lemma eq_slots_spec ps x y :
  (forall n u v b, slot x n = Some u -> slot y n = Some v -> eq u v = Ok b -> (b = true <-> same u v)) ->
  forall b, eq_slots eq ps x y = Ok b ->
    (b = true <-> forall p, In p ps -> p_extraneous p = false -> opt2 same (slot x (p_name p)) (slot y (p_name p))).
Proof.
  intros D; induction ps as [|p ps IH]; intros b; cbn [eq_slots].
  - intros [= <-]. split; auto. intros _ p [].
  - destruct (p_extraneous p) eqn:Ex.
    + intros H0. rewrite (IH _ H0). split.
      * intros F q [<-|I] N; [congruence|]. now apply F.
      * intros F q I; apply F; cbn; auto.
    + assert (St : forall r, match slot x (p_name p), slot y (p_name p) with
                   | None, None => Ok true
                   | Some u, Some v => eq u v
                   | _, _ => Ok false
                   end = Ok r -> (r = true <-> opt2 same (slot x (p_name p)) (slot y (p_name p)))).
      { intros r. destruct (slot x (p_name p)) as [u|] eqn:Gx, (slot y (p_name p)) as [v|] eqn:Gy.
        - intros E. rewrite (D _ _ _ _ Gx Gy E). split; [now constructor|]. intros F; now inversion F.
        - intros [= <-]. split; [discriminate|]. intros F; inversion F.
        - intros [= <-]. split; [discriminate|]. intros F; inversion F.
        - intros [= <-]. split; auto. constructor. }
      destruct (match slot x (p_name p), slot y (p_name p) with
                | None, None => Ok true | Some u, Some v => eq u v | _, _ => Ok false end) as [[|]|e] eqn:E;
        cbn [bind]; try discriminate.
      * intros H0. rewrite (IH _ H0). pose proof (proj1 (St true eq_refl) eq_refl). split.
        -- intros F q [<-|I] N; auto.
        -- intros F q I; apply F; cbn; auto.
      * intros [= <-]. split; [discriminate|]. intros F. apply St; auto. apply F; cbn; auto.
Qed.
End Loops.

Lemma coerce_list_spec c l m : coerce_list W c l = Ok m <-> Forall2 (fun u v => coerce W c u = Ok v) l m.
Proof. unfold coerce_list. apply mapM_ok. Qed.
Lemma coerce_dict_spec c (l m : list (elem * val)) : coerce_dict W c l = Ok m <->
  Forall2 (fun u v => fst u = fst v /\ coerce W c (snd u) = Ok (snd v)) l m.
Proof.
  unfold coerce_dict. rewrite mapM_ok. split; intros F; eapply Forall2_impl_in; eauto; cbn.
  - intros [k u] [k' v] _ _. cbn. destruct (coerce W c u); cbn; [|discriminate]. intros [= <- <-]; auto.
  - intros [k u] [k' v] _ _ [E1 E2]. cbn [fst snd] in *. subst k'. rewrite E2. reflexivity.
Qed.

(** [coerce_value] keeps to well formed values *)
Definition coerce_wf : Prop := forall c v v', wf v -> coerce W c v = Ok v' -> wf v'.

Lemma coerce_list_wf c l m : coerce_wf -> Forall wf l ->
  Forall2 (fun u v => coerce W c u = Ok v) l m -> Forall wf m.
Proof. intros CW Fl F. induction F; constructor; inversion Fl; subst; auto. eapply CW; eauto. Qed.
Lemma coerce_dict_wf c (l m : list (elem * val)) : coerce_wf -> Forall (fun kv => wf (snd kv)) l ->
  Forall2 (fun u v => fst u = fst v /\ coerce W c (snd u) = Ok (snd v)) l m ->
  map fst m = map fst l /\ Forall (fun kv => wf (snd kv)) m.
Proof.
  intros CW Fl F. induction F as [|u v l m [E D] F IH]; [split; auto|].
  inversion Fl; subst. destruct IH; auto. cbn [map]. rewrite H0, E. split; auto. constructor; auto. eapply CW; eauto.
Qed.

Lemma F_in {X} (P : X -> Prop) l x : Forall P l -> In x l -> P x.
Proof. intros F; now apply Forall_forall. Qed.

Lemma slot_wf x n u : wf x -> slot x n = Some u -> match x with VRec _ _ => True | _ => False end -> wf u.
Proof.
  intros Wx S. destruct x; try contradiction. intros _. cbn in S. apply sget_in in S.
  inversion Wx; subst. apply (F_in _ _ _ H1 S).
Qed.

Definition wf_parts (x : val) : Prop :=
  match x with
  | VSeq _ l | VLC _ _ l => Forall wf l
  | VMap l | VDC _ _ l => NoDup (map fst l) /\ Forall (fun kv => wf (snd kv)) l
  | VRec _ sl => Forall (fun kv => wf (snd kv)) sl
  | _ => True
  end.
Lemma wf_body x : wf x -> wf_parts x.
Proof. intros Wx; inversion Wx; cbn; auto. Qed.

Theorem veq_decides : (forall c d, ceqb c d = true <-> c = d) -> coerce_wf ->
  forall n x y b, wf x -> wf y -> veq n x y = Ok b -> (b = true <-> same x y).
Proof.
  intros CE CW. induction n as [|n IH]; intros x y b Wx Wy; cbn [EqModel.veq]; [discriminate|].
  assert (NO : forall b0, Ok false = Ok b0 -> ~ same x y -> (b0 = true <-> same x y)).
  { intros b0 [= <-] N; split; [discriminate|tauto]. }
  assert (LI : forall l m b0, Forall wf l -> Forall wf m -> eq_list (veq n) l m = Ok b0 -> (b0 = true <-> Forall2 same l m)).
  { intros l m b0 Fl Fm. apply eq_list_spec. intros u v b1 Iu Iv. apply IH; [apply (F_in _ _ _ Fl Iu)|apply (F_in _ _ _ Fm Iv)]. }
  assert (IT : forall l m b0, Forall wf l -> Forall wf m -> eq_items (veq n) l m = Ok b0 -> (b0 = true <-> Forall2 same l m)).
  { intros l m b0 Fl Fm. apply eq_items_spec. intros u v b1 Iu Iv. apply IH; [apply (F_in _ _ _ Fl Iu)|apply (F_in _ _ _ Fm Iv)]. }
  assert (DI : forall l m b0, NoDup (map fst l) -> NoDup (map fst m) ->
             Forall (fun kv => wf (snd kv)) l -> Forall (fun kv => wf (snd kv)) m -> eq_dict (veq n) l m = Ok b0 ->
             (b0 = true <-> forall k, opt2 same (dict_get elem_eqb l k) (dict_get elem_eqb m k))).
  { intros l m b0 Nl Nm Fl Fm. apply eq_dict_spec; auto. intros k u v b1 Iu Iv.
    apply IH; [apply (F_in _ _ _ Fl Iu)|apply (F_in _ _ _ Fm Iv)]. }
  assert (FL : forall l m, ~ Forall2 same l m -> Forall2 same l m -> False) by tauto.
  destruct x as [| |s|a|t l|l|c sl|c sl l|c sl l], y as [| |s'|a'|t' m|m|d sm|d sm m|d sm m];
    try (destruct t); try (destruct t');
    try (intros E; apply NO; [exact E|intros S; inversion S; fail]);
    pose proof (wf_body _ Wx) as Bx; pose proof (wf_body _ Wy) as By; cbn [wf_parts] in Bx, By.
  - intros [= <-]; split; auto; constructor.
  - intros [= <-]; split; auto; constructor.
  - intros [= <-]. rewrite str_eqb_eq. split; [intros ->; constructor|]. intros S; now inversion S.
  - intros [= <-]. split; [now constructor|]. intros S; now inversion S.
  - intros E. rewrite (IT _ _ _ Bx By E). split; [now constructor|]. intros S; now inversion S.
  - intros E. rewrite (LI _ _ _ Bx By E). split; [now constructor|]. intros S; now inversion S.
  - destruct (coerce_list W d l) as [l'|e] eqn:E; cbn [bind]; [|discriminate]. apply coerce_list_spec in E.
    intros E'. rewrite (LI _ _ _ By (coerce_list_wf _ _ _ CW Bx E) E'). split; [intros F'; eapply same_seq_lc; eauto|].
    intros S; inversion S; subst. assert (m' = l') as ->; auto.
    match goal with G : Forall2 _ l m' |- _ => apply coerce_list_spec in E, G end. congruence.
  - destruct Bx as [Nx Bx], By as [Ny By].
    intros E. rewrite (DI _ _ _ Nx Ny Bx By E). split; [now constructor|]. intros S; now inversion S.
  - destruct Bx as [Nx Bx], By as [Ny By].
    destruct (coerce_dict W d l) as [l'|e] eqn:E; cbn [bind]; [|discriminate]. apply coerce_dict_spec in E.
    destruct (coerce_dict_wf _ _ _ CW Bx E) as [K F]. rewrite <- K in Nx.
    intros E'. rewrite (DI _ _ _ Ny Nx By F E'). split; [intros F'; eapply same_map_dc; eauto|].
    intros S; inversion S; subst. assert (m' = l') as ->; auto.
    match goal with G : Forall2 _ l m' |- _ => apply coerce_dict_spec in E, G end. congruence.
  - destruct (ceqb c d) eqn:Ec.
    + apply CE in Ec as <-. intros E.
      assert (SL : forall n0 u v b0, slot (VRec c sl) n0 = Some u -> slot (VRec c sm) n0 = Some v -> veq n u v = Ok b0 ->
                   (b0 = true <-> same u v)).
      { intros n0 u v b0 Hu Hv. apply IH; [eapply (slot_wf (VRec c sl)); eauto; exact I|eapply (slot_wf (VRec c sm)); eauto; exact I]. }
      rewrite (eq_slots_spec _ _ _ _ SL _ E). cbn [slot]. split; [now constructor|]. intros S; now inversion S.
    + intros E. apply NO; auto. intros S; inversion S; subst. now rewrite (proj2 (CE d d) eq_refl) in Ec.
  - destruct (coerce_list W c m) as [l'|e] eqn:E; cbn [bind]; [|discriminate]. apply coerce_list_spec in E.
    intros E'. rewrite (LI _ _ _ Bx (coerce_list_wf _ _ _ CW By E) E'). split; [intros F'; eapply same_lc_seq; eauto|].
    intros S; inversion S; subst. assert (m' = l') as ->; auto.
    match goal with G : Forall2 _ m m' |- _ => apply coerce_list_spec in E, G end. congruence.
  - destruct (same_item c d) eqn:Ec.
    + intros E. rewrite (LI _ _ _ Bx By E). split; [now constructor|]. intros S; now inversion S.
    + intros E. apply NO; auto. intros S; inversion S; congruence.
  - destruct Bx as [Nx Bx], By as [Ny By].
    destruct (coerce_dict W c m) as [l'|e] eqn:E; cbn [bind]; [|discriminate]. apply coerce_dict_spec in E.
    destruct (coerce_dict_wf _ _ _ CW By E) as [K F]. rewrite <- K in Ny.
    intros E'. rewrite (DI _ _ _ Nx Ny Bx F E'). split; [intros F'; eapply same_dc_map; eauto|].
    intros S; inversion S; subst. assert (m' = l') as ->; auto.
    match goal with G : Forall2 _ m m' |- _ => apply coerce_dict_spec in E, G end. congruence.
  - destruct Bx as [Nx Bx], By as [Ny By]. destruct (same_item c d) eqn:Ec.
    + intros E. rewrite (DI _ _ _ Nx Ny Bx By E). split; [now constructor|]. intros S; now inversion S.
    + intros E. apply NO; auto. intros S; inversion S; congruence.
Qed.

(** ** An equivalence *)

Section Equiv.
Hypothesis aeqb_refl : forall a, aeqb a a = true.
Hypothesis aeqb_sym : forall a b, aeqb a b = aeqb b a.
Hypothesis aeqb_trans : forall a b c, aeqb a b = true -> aeqb b c = true -> aeqb a c = true.
Hypothesis item_refl : forall c, same_item c c = true.
Hypothesis item_sym : forall c d, same_item c d = same_item d c.
Hypothesis item_trans : forall c d e, same_item c d = true -> same_item d e = true -> same_item c e = true.

Lemma same_refl x : same x x.
Proof.
  induction x using val_ind'; try (constructor; auto; fail).
  - constructor. induction H0; constructor; auto.
  - constructor. intros k. destruct (dict_get elem_eqb l k) as [v|] eqn:E; constructor.
    apply eget_in in E. apply (F_in _ _ _ H0 E).
  - constructor. intros p _ _. destruct (dict_get str_eqb sl (p_name p)) as [v|] eqn:E; constructor.
    apply sget_in in E. apply (F_in _ _ _ H0 E).
  - constructor; auto. induction H1; constructor; auto.
  - constructor; auto. intros k. destruct (dict_get elem_eqb l k) as [v|] eqn:E; constructor.
    apply eget_in in E. apply (F_in _ _ _ H1 E).
Qed.

Lemma Q_flip l m : Forall2 (fun x y => same x y /\ same y x) l m -> Forall2 same m l.
Proof. induction 1 as [|x y l m [_ S] F IH]; constructor; auto. Qed.
Lemma Q_fst l m : Forall2 (fun x y => same x y /\ same y x) l m -> Forall2 same l m.
Proof. induction 1 as [|x y l m [S _] F IH]; constructor; auto. Qed.
Lemma o_flip o q : opt2 (fun x y => same x y /\ same y x) o q -> opt2 same q o.
Proof. intros [|x y [_ S]]; constructor; auto. Qed.
Lemma o_fst o q : opt2 (fun x y => same x y /\ same y x) o q -> opt2 same o q.
Proof. intros [|x y [S _]]; constructor; auto. Qed.

Lemma same_sym x y : same x y -> same y x.
Proof.
  apply (same_ind' (fun x y => same y x)); try (constructor; fail).
  - intros a b E. constructor. now rewrite aeqb_sym.
  - intros t l m F. constructor. now apply Q_flip.
  - intros l m F. constructor. intros k; now apply o_flip.
  - intros c sl sm F. constructor. intros p I E; apply o_flip; auto.
  - intros c d sl sm l m E F. constructor; [now rewrite item_sym|now apply Q_flip].
  - intros c d sl sm l m E F. constructor; [now rewrite item_sym|intros k; now apply o_flip].
  - intros c sl l m m' G F. apply same_seq_lc with m'; auto. now apply Q_fst.
  - intros c sl l m m' G F. apply same_lc_seq with m'; auto. now apply Q_fst.
  - intros c sl l m m' G F. apply same_map_dc with m'; auto. intros k; now apply o_fst.
  - intros c sl l m m' G F. apply same_dc_map with m'; auto. intros k; now apply o_fst.
Qed.

(** Each place holds typed collections, or plain lists and dicts, but not now one and now
    the other: [true] for the places of typed collections. *)
Variable slot_typed : C -> str -> bool.
Variable item_typed : C -> bool.
Hypothesis item_typed_same : forall c d, same_item c d = true -> item_typed c = item_typed d.

Inductive disc : bool -> val -> Prop :=
| disc_nothing b : disc b VNothing
| disc_none b : disc b VNone
| disc_text b s : disc b (VText s)
| disc_atom b a : disc b (VAtom a)
| disc_tuple b l : Forall (disc false) l -> disc b (VSeq true l)
| disc_list l : Forall (disc false) l -> disc false (VSeq false l)
| disc_map l : Forall (fun kv => disc false (snd kv)) l -> disc false (VMap l)
| disc_rec b c sl : Forall (fun kv => disc (slot_typed c (fst kv)) (snd kv)) sl -> disc b (VRec c sl)
| disc_lc c sl l : Forall (disc (item_typed c)) l -> disc true (VLC c sl l)
| disc_dc c sl l : Forall (fun kv => disc (item_typed c) (snd kv)) l -> disc true (VDC c sl l).

Definition T x y := same x y /\ forall b z, disc b x -> disc b y -> disc b z -> same y z -> same x z.

Lemma T_many b l m : Forall2 T l m -> forall k, Forall (disc b) l -> Forall (disc b) m -> Forall (disc b) k ->
  Forall2 same m k -> Forall2 same l k.
Proof.
  induction 1 as [|x y l m [S Tr] F IH]; intros k Dl Dm Dk G; inversion G; subst; constructor;
    inversion Dl; inversion Dm; inversion Dk; subst.
  - eapply Tr; eauto.
  - eapply IH; eauto.
Qed.
Lemma T_opt o q r (b : bool) : opt2 T o q -> (forall x, o = Some x -> disc b x) -> (forall x, q = Some x -> disc b x) ->
  (forall x, r = Some x -> disc b x) -> opt2 same q r -> opt2 same o r.
Proof.
  intros F Do Dq Dr G. destruct F as [|x y [S Tr]]; auto. inversion G; subst. constructor.
  eapply Tr; eauto.
Qed.
Lemma disc_get b (l : list (elem * val)) k : Forall (fun kv => disc b (snd kv)) l ->
  forall x, dict_get elem_eqb l k = Some x -> disc b x.
Proof. intros F x E. apply eget_in in E. apply (F_in _ _ _ F E). Qed.
Lemma disc_sget c (l : list (str * val)) k : Forall (fun kv => disc (slot_typed c (fst kv)) (snd kv)) l ->
  forall x, dict_get str_eqb l k = Some x -> disc (slot_typed c k) x.
Proof. intros F x E. apply sget_in in E. apply (F_in _ _ _ F E). Qed.

Lemma same_trans x y : same x y -> forall b z, disc b x -> disc b y -> disc b z -> same y z -> same x z.
Proof.
  apply (same_ind' (fun x y => forall b z, disc b x -> disc b y -> disc b z -> same y z -> same x z));
    try (intros; assumption).
  - intros a b E b0 z _ _ _ S; inversion S; subst. constructor. eapply aeqb_trans; eauto.
  - intros t l m F b0 z D1 D2 D3 S; inversion S; subst.
    + constructor. inversion D1; inversion D2; inversion D3; subst; try discriminate; eapply T_many; eauto.
    + inversion D2; inversion D3; subst; discriminate.
  - intros l m F b0 z D1 D2 D3 S; inversion S; subst.
    + inversion D1; inversion D2; inversion D3; subst. constructor. intros k.
      eapply (T_opt _ _ _ false); [apply F|eapply disc_get; eauto..|auto].
    + inversion D2; inversion D3; subst; discriminate.
  - intros c sl sm F b0 z D1 D2 D3 S; inversion S; subst.
    inversion D1; inversion D2; inversion D3; subst. constructor. intros p I E.
    eapply (T_opt _ _ _ (slot_typed c (p_name p))); [apply F; auto|eapply disc_sget; eauto..|auto].
  - intros c d sl sm l m E F b0 z D1 D2 D3 S; inversion S; subst.
    + match goal with G : same_item d ?e = true |- _ => pose proof (item_trans _ _ _ E G) as E2;
        apply item_typed_same in G end.
      pose proof (item_typed_same _ _ E). constructor; auto.
      inversion D1; inversion D2; inversion D3; subst. eapply (T_many (item_typed d)); eauto; congruence.
    + inversion D2; inversion D3; subst; discriminate.
  - intros c d sl sm l m E F b0 z D1 D2 D3 S; inversion S; subst.
    + match goal with G : same_item d ?e = true |- _ => pose proof (item_trans _ _ _ E G) as E2;
        apply item_typed_same in G; rename G into Gi end.
      pose proof (item_typed_same _ _ E) as Ei. constructor; auto. intros k.
      inversion D1; inversion D2; inversion D3; subst. rewrite <- Gi in *. rewrite Ei in *.
      eapply (T_opt _ _ _ (item_typed d)); [apply F|eapply disc_get; eauto..|auto].
    + inversion D2; inversion D3; subst; discriminate.
  - intros c sl l m m' G F b0 z D1 D2. inversion D1; inversion D2; subst; discriminate.
  - intros c sl l m m' G F b0 z D1 D2. inversion D1; inversion D2; subst; discriminate.
  - intros c sl l m m' G F b0 z D1 D2. inversion D1; inversion D2; subst; discriminate.
  - intros c sl l m m' G F b0 z D1 D2. inversion D1; inversion D2; subst; discriminate.
Qed.
End Equiv.

(** ** Fuel *)

Definition maxl (l : list nat) : nat := fold_right max 0 l.
Fixpoint depth (v : val) : nat :=
  match v with
  | VSeq _ l | VLC _ _ l => S (maxl (map depth l))
  | VMap l | VDC _ _ l => S (maxl (map (fun kv => depth (snd kv)) l))
  | VRec _ sl => S (maxl (map (fun kv => depth (snd kv)) sl))
  | _ => 0
  end.
Lemma maxl_in l x : In x l -> x <= maxl l.
Proof. unfold maxl. induction l; cbn; [intros []|]. intros [->|I]; [lia|]. apply IHl in I. lia. Qed.
Lemma depth_in l (x : val) : In x l -> depth x <= maxl (map depth l).
Proof. intros I. apply maxl_in. now apply in_map. Qed.
Lemma depth_in2 {K} (l : list (K * val)) k x : In (k, x) l -> depth x <= maxl (map (fun kv => depth (snd kv)) l).
Proof. intros I. apply maxl_in. apply (in_map (fun kv => depth (snd kv)) _ _ I). Qed.

Lemma eq_items_total eq l m : (forall x y, In x l -> In y m -> exists b, eq x y = Ok b) -> exists b, @eq_items A C eq l m = Ok b.
Proof.
  revert m; induction l as [|x l IH]; intros [|y m] D; cbn [eq_items]; eauto.
  destruct (D x y) as [[|] ->]; cbn [bind]; eauto; cbn; auto. apply IH. intros; apply D; cbn; auto.
Qed.
Lemma eq_list_total eq l m : (forall x y, In x l -> In y m -> exists b, eq x y = Ok b) -> exists b, @eq_list A C eq l m = Ok b.
Proof. unfold eq_list. destruct (Nat.eqb _ _); eauto. apply eq_items_total. Qed.
Lemma eq_dict_total eq (l m : list (elem * val)) :
  (forall k x y, In (k, x) l -> In (k, y) m -> exists b, eq x y = Ok b) -> exists b, @eq_dict A C eq l m = Ok b.
Proof.
  unfold eq_dict. destruct (Nat.eqb _ _); eauto. induction l as [|[k x] l IH]; intros D; cbn [eq_entries]; eauto.
  destruct (dict_get elem_eqb m k) as [y|] eqn:E; eauto. apply eget_in in E.
  destruct (D k x y) as [[|] ->]; cbn [bind]; eauto; cbn; auto. apply IH. intros; eapply D; eauto; cbn; auto.
Qed.
Lemma eq_slots_total eq ps (x y : val) :
  (forall n u v, slot x n = Some u -> slot y n = Some v -> exists b, eq u v = Ok b) -> exists b, @eq_slots A C eq ps x y = Ok b.
Proof.
  intros D. induction ps as [|p ps [b IH]]; cbn [eq_slots]; eauto. destruct (p_extraneous p); eauto.
  destruct (slot x (p_name p)) eqn:E1, (slot y (p_name p)) eqn:E2; cbn [bind]; eauto.
  destruct (D _ _ _ E1 E2) as [[|] ->]; cbn [bind]; eauto.
Qed.

Lemma veq_total st it : (forall c d, same_item c d = true -> it c = it d) -> (forall c d, ceqb c d = true <-> c = d) ->
  forall n b x y, depth x < n -> disc st it b x -> disc st it b y -> exists r, veq n x y = Ok r.
Proof.
  intros IS CE. induction n as [|n IH]; intros b x y Dx; [lia|]. cbn [EqModel.veq].
  destruct x as [| |s|a|t l|l|c sl|c sl l|c sl l], y as [| |s'|a'|t' m|m|d sm|d sm m|d sm m];
    try (destruct t); try (destruct t'); eauto; intros D1 D2;
    try (inversion D1; inversion D2; subst; discriminate); cbn [depth] in Dx.
  - inversion D1; inversion D2; subst; try discriminate. apply eq_items_total. intros u v Iu Iv. apply (IH false).
    + apply depth_in in Iu; lia.
    + apply (F_in (disc st it false) l); auto.
    + apply (F_in (disc st it false) m); auto.
  - inversion D1; inversion D2; subst; try discriminate. apply eq_list_total. intros u v Iu Iv. apply (IH false).
    + apply depth_in in Iu; lia.
    + apply (F_in (disc st it false) l); auto.
    + apply (F_in (disc st it false) m); auto.
  - inversion D1; inversion D2; subst. apply eq_dict_total. intros k u v Iu Iv. apply (IH false).
    + apply depth_in2 in Iu; lia.
    + apply (F_in (fun kv => disc st it false (snd kv)) l (k, u)); auto.
    + apply (F_in (fun kv => disc st it false (snd kv)) m (k, v)); auto.
  - destruct (ceqb c d) eqn:E; eauto. apply CE in E as <-. inversion D1; inversion D2; subst.
    apply eq_slots_total. cbn [slot]. intros n0 u v Iu Iv. apply sget_in in Iu, Iv. apply (IH (st c n0)).
    + apply depth_in2 in Iu; lia.
    + apply (F_in (fun kv => disc st it (st c (fst kv)) (snd kv)) sl (n0, u)); auto.
    + apply (F_in (fun kv => disc st it (st c (fst kv)) (snd kv)) sm (n0, v)); auto.
  - destruct (same_item c d) eqn:E; eauto. apply IS in E. inversion D1; inversion D2; subst.
    apply eq_list_total. intros u v Iu Iv. apply (IH (it c)).
    + apply depth_in in Iu; lia.
    + apply (F_in (disc st it (it c)) l); auto.
    + apply (F_in (disc st it (it c)) m); auto. congruence.
  - destruct (same_item c d) eqn:E; eauto. apply IS in E. inversion D1; inversion D2; subst.
    apply eq_dict_total. intros k u v Iu Iv. apply (IH (it c)).
    + apply depth_in2 in Iu; lia.
    + apply (F_in (fun kv => disc st it (it c) (snd kv)) l (k, u)); auto.
    + apply (F_in (fun kv => disc st it (it c) (snd kv)) m (k, v)); auto. rewrite E; auto.
Qed.

Lemma eq_items_refl eq l : (forall x, In x l -> eq x x = Ok true) -> @eq_items A C eq l l = Ok true.
Proof.
  induction l as [|x l IH]; intros D; cbn [eq_items]; auto. rewrite D; cbn [bind]; [|cbn; auto].
  apply IH. intros; apply D; cbn; auto.
Qed.
Lemma eq_list_refl eq l : (forall x, In x l -> eq x x = Ok true) -> @eq_list A C eq l l = Ok true.
Proof. unfold eq_list. rewrite Nat.eqb_refl. apply eq_items_refl. Qed.
Lemma eq_dict_refl eq (l : list (elem * val)) : NoDup (map fst l) ->
  (forall k x, In (k, x) l -> eq x x = Ok true) -> @eq_dict A C eq l l = Ok true.
Proof.
  intros N D. unfold eq_dict. rewrite Nat.eqb_refl.
  assert (G : forall m, (forall k x, In (k, x) m -> dict_get elem_eqb l k = Some x) ->
                (forall k x, In (k, x) m -> eq x x = Ok true) -> eq_entries eq m l = Ok true).
  { induction m as [|[k x] m IH]; intros G Dm; cbn [eq_entries]; auto.
    rewrite (G k x) by (cbn; auto). rewrite (Dm k x) by (cbn; auto). cbn [bind]. apply IH; intros; [apply G|eapply Dm]; cbn; eauto. }
  apply G; auto. intros k x. now apply in_eget.
Qed.
Lemma eq_slots_refl eq ps (x : val) : (forall n u, slot x n = Some u -> eq u u = Ok true) -> @eq_slots A C eq ps x x = Ok true.
Proof.
  intros D. induction ps as [|p ps IH]; cbn [eq_slots]; auto. destruct (p_extraneous p); auto.
  destruct (slot x (p_name p)) eqn:E; cbn [bind]; auto. rewrite (D _ _ E); cbn [bind]; auto.
Qed.

Lemma veq_refl : (forall a, aeqb a a = true) -> (forall c, same_item c c = true) -> (forall c, ceqb c c = true) ->
  forall n x, wf x -> depth x < n -> veq n x x = Ok true.
Proof.
  intros AR IR CR. induction n as [|n IH]; intros x Wx Dx; [lia|]. cbn [EqModel.veq].
  apply wf_body in Wx.
  destruct x as [| |s|a|t l|l|c sl|c sl l|c sl l]; cbn [wf_parts depth] in *; auto.
  - now rewrite str_eqb_refl.
  - now rewrite AR.
  - assert (G : forall x, In x l -> veq n x x = Ok true).
    { intros x I. apply IH; [apply (F_in _ _ _ Wx I)|]. apply depth_in in I; lia. }
    destruct t; [now apply eq_items_refl|now apply eq_list_refl].
  - destruct Wx as [N Wx]. apply eq_dict_refl; auto. intros k x I. apply IH; [apply (F_in _ _ _ Wx I)|]. apply depth_in2 in I; lia.
  - rewrite CR. apply eq_slots_refl. cbn [slot]. intros m u I. apply sget_in in I. apply IH; [apply (F_in _ _ _ Wx I)|]. apply depth_in2 in I; lia.
  - rewrite IR. apply eq_list_refl. intros x I. apply IH; [apply (F_in _ _ _ Wx I)|]. apply depth_in in I; lia.
  - rewrite IR. destruct Wx as [N Wx]. apply eq_dict_refl; auto. intros k x I. apply IH; [apply (F_in _ _ _ Wx I)|]. apply depth_in2 in I; lia.
Qed.

End Eq.
