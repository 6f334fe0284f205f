(** Patching by the paths of a comparison. *)
From Coq Require Import List Arith NArith ZArith Bool Lia Permutation.
From Verif Require Import Prelude SelPathModel FSModel PySeq MFSModel MFSProofs MFSProps TreeModel TreeProofs MFSTreeModel MFSTreeDel ValModel EqModel EqProofs
  SeqDiffModel SeqDiffProofs DiffModel DiffSwap DiffExact DiffEntries SelReprProofs SyncModel SyncSpec.
Import ListNotations.

(** ** Records inside records *)
Section Look.
Context {A C : Type}.
Notation obj := (obj A C).

Fixpoint look (r : list str) (t : obj) : option obj :=
  match r with
  | [] => Some t
  | n :: r => match t with
              | ORec c sl => match dict_get str_eqb sl n with Some x => look r x | None => None end
              | _ => None
              end
  end.
(** [t] with [o] in place of what is at [r] *)
Fixpoint graft (r : list str) (o t : obj) : obj :=
  match r with
  | [] => o
  | n :: r => match t with
              | ORec c sl => match dict_get str_eqb sl n with
                             | Some x => ORec c (dict_set str_eqb sl n (graft r o x))
                             | None => t
                             end
              | _ => t
              end
  end.

Lemma look_app r : forall q t, look (r ++ q) t = match look r t with Some x => look q x | None => None end.
Proof.
  induction r as [|n r IH]; intros q t; cbn [app look]; [reflexivity|]. destruct t as [|c sl| |]; try reflexivity.
  destruct (dict_get _ _ _); auto.
Qed.
Lemma look_cons n r t x : look (n :: r) t = Some x ->
  exists c sl y, t = ORec c sl /\ dict_get str_eqb sl n = Some y /\ look r y = Some x.
Proof.
  cbn [look]. destruct t as [|c sl| |]; try discriminate. destruct (dict_get _ _ _) as [y|] eqn:E; [|discriminate]. eauto 6.
Qed.
Lemma graft_cons n r o c sl y : dict_get str_eqb sl n = Some y ->
  graft (n :: r) o (ORec c sl) = ORec c (dict_set str_eqb sl n (graft r o y)).
Proof. intros E. cbn [graft]. now rewrite E. Qed.

Lemma look_graft r : forall q o t x, look r t = Some x -> look (r ++ q) (graft r o t) = look q o.
Proof.
  induction r as [|n r IH]; intros q o t x H; [reflexivity|].
  apply look_cons in H as (c & sl & y & -> & E & H). rewrite (graft_cons _ _ _ _ _ _ E). cbn [app look].
  rewrite (dict_set_this str_eqb str_eqb_eq). eapply IH; eauto.
Qed.
Lemma look_graft_apart d : forall m q m' q' o t x, m <> m' -> look (d ++ m :: q) t = Some x ->
  look (d ++ m' :: q') (graft (d ++ m :: q) o t) = look (d ++ m' :: q') t.
Proof.
  induction d as [|n d IH]; intros m q m' q' o t x N H; cbn [app] in *.
  - apply look_cons in H as (c & sl & y & -> & E & H). rewrite (graft_cons _ _ _ _ _ _ E). cbn [look].
    now rewrite (dict_set_other str_eqb str_eqb_eq).
  - apply look_cons in H as (c & sl & y & -> & E & H). rewrite (graft_cons _ _ _ _ _ _ E). cbn [look].
    rewrite (dict_set_this str_eqb str_eqb_eq), E. eapply IH; eauto.
Qed.
Lemma look_graft_above d : forall m q o t c st x, look d t = Some (ORec c st) -> look (d ++ m :: q) t = Some x ->
  exists y, look d (graft (d ++ m :: q) o t) = Some (ORec c (dict_set str_eqb st m y)).
Proof.
  induction d as [|n d IH]; intros m q o t c st x H1 H2; cbn [app] in *.
  - injection H1 as ->. apply look_cons in H2 as (c' & sl & y & Q & E & H). injection Q as <- <-.
    rewrite (graft_cons _ _ _ _ _ _ E). cbn [look]. eauto.
  - apply look_cons in H2 as (c' & sl & y & -> & E & H). rewrite (graft_cons _ _ _ _ _ _ E). cbn [look] in *.
    rewrite E in H1. rewrite (dict_set_this str_eqb str_eqb_eq). eapply IH; eauto.
Qed.

Lemma dict_set_in {X} (sl : list (str * X)) n x k v : In (k, v) (dict_set str_eqb sl n x) -> v = x \/ In (k, v) sl.
Proof.
  induction sl as [|[a b] sl IH]; cbn [dict_set]; [intros [H|[]]; left; congruence|].
  destruct (str_eqb a n); intros [H|H].
  - left. congruence.
  - right. now right.
  - right. now left.
  - destruct (IH H); auto. right. now right.
Qed.
Lemma dict_del_in {X} (sl : list (str * X)) n k v : In (k, v) (dict_del str_eqb sl n) -> In (k, v) sl.
Proof.
  induction sl as [|[a b] sl IH]; cbn [dict_del]; [auto|]. destruct (str_eqb a n); [now right|].
  intros [H|H]; [now left|right; auto].
Qed.
Lemma dict_set_keys {X} (sl : list (str * X)) n x : NoDup (map fst sl) -> NoDup (map fst (dict_set str_eqb sl n x)).
Proof.
  induction sl as [|[a b] sl IH]; cbn [dict_set map fst]; [repeat constructor; intros []|]. intros H. inversion H as [|? ? H1 H2]; subst.
  destruct (str_eqb a n) eqn:E; cbn [map fst]; [auto|]. constructor; auto. intros I. apply in_map_iff in I as ([k v] & Ek & I).
  cbn in Ek. subst k. assert (K : a = n \/ In a (map fst sl)).
  { clear -I. induction sl as [|[k w] sl IH]; cbn [dict_set] in I; [destruct I as [I|[]]; left; congruence|].
    destruct (str_eqb k n).
    - right. destruct I as [I|I]; [left; cbn; congruence|right; apply in_map_iff; exists (a, v); auto].
    - destruct I as [I|I]; [right; left; cbn; congruence|]. destruct (IH I); auto. right. now right. }
  destruct K as [->|K]; [|contradiction]. rewrite str_eqb_refl in E. discriminate.
Qed.
Lemma dict_del_keys {X} (sl : list (str * X)) n : NoDup (map fst sl) -> NoDup (map fst (dict_del str_eqb sl n)).
Proof.
  induction sl as [|[a b] sl IH]; cbn [dict_del map fst]; [constructor|]. intros H. inversion H as [|? ? H1 H2]; subst.
  destruct (str_eqb a n) eqn:E; cbn [map fst]; [auto|]. constructor; auto. intros I. apply in_map_iff in I as ([k v] & Ek & I).
  cbn in Ek. subst k. apply dict_del_in in I. apply H1. apply in_map_iff. exists (a, v). auto.
Qed.
Lemma dict_get_in {X} (sl : list (str * X)) n x : dict_get str_eqb sl n = Some x -> In (n, x) sl.
Proof.
  induction sl as [|[a b] sl IH]; cbn [dict_get]; [discriminate|]. destruct (str_eqb a n) eqn:E; intros H.
  - left. apply str_eqb_eq in E. congruence.
  - right. auto.
Qed.
Lemma dict_del_this {X} (sl : list (str * X)) n : NoDup (map fst sl) -> dict_get str_eqb (dict_del str_eqb sl n) n = None.
Proof.
  induction sl as [|[a b] sl IH]; cbn [dict_del map fst]; [reflexivity|]. intros H. inversion H as [|? ? H1 H2]; subst.
  destruct (str_eqb a n) eqn:E.
  - apply str_eqb_eq in E. subst a. destruct (dict_get str_eqb sl n) as [x|] eqn:G; [|reflexivity].
    exfalso. apply H1. apply dict_get_in in G. apply in_map_iff. exists (n, x). auto.
  - cbn [dict_get]. rewrite E. auto.
Qed.
Lemma dict_get_map {X Y} (f : X -> Y) (sl : list (str * X)) n :
  dict_get str_eqb (map (fun kv => (fst kv, f (snd kv))) sl) n = option_map f (dict_get str_eqb sl n).
Proof. induction sl as [|[a b] sl IH]; cbn; [reflexivity|]. destruct (str_eqb a n); auto. Qed.

(** Two lists of names: equal, one inside the other, or apart. *)
Lemma places (r : list str) : forall r', r' = r \/ (exists m q, r' = r ++ m :: q) \/ (exists m q, r = r' ++ m :: q) \/
  exists d m q m' q', r = d ++ m :: q /\ r' = d ++ m' :: q' /\ m <> m'.
Proof.
  induction r as [|n r IH]; intros [|n' r'].
  - now left.
  - right. left. exists n', r'. reflexivity.
  - right. right. left. exists n, r. reflexivity.
  - destruct (str_eqb n n') eqn:E.
    + apply str_eqb_eq in E. subst n'. destruct (IH r') as [->|[(m & q & ->)|[(m & q & ->)|(d & m & q & m' & q' & -> & -> & N)]]].
      * now left.
      * right. left. exists m, q. reflexivity.
      * right. right. left. exists m, q. reflexivity.
      * right. right. right. exists (n :: d), m, q, m', q'. auto.
    + right. right. right. exists [], n, r, n', r'. repeat split; auto. intros ->. rewrite str_eqb_refl in E. discriminate.
Qed.
End Look.

(** ** Selectors on records inside records *)
Section Ops.
Context {A C T : Type}.
Variable a_none : A.
Variable a_key : elem -> A.
Variable a_str : A -> bool.
Variable a_indexable : A -> bool.
Variable a_item : A -> elem -> res A.
Variable a_attr : A -> str -> option A.
Variable a_iter : A -> res (list A).
Variable a_len : A -> Z.
Variable unset : C -> str -> option A.
Variable store : C -> str -> obj A C -> res (obj A C).
Variable erase : C -> str -> bool -> option exn.
Variable istore : C -> obj A C -> res (obj A C).
Variable itemtype : C -> res T.
Variable valuetype : C -> str -> res T.
Variable call : T -> option (str * obj A C) -> res (obj A C).
Notation get := (get a_none a_key a_str a_indexable a_item a_attr a_iter unset).
Notation delete := (delete a_key a_str a_indexable a_item a_attr a_iter unset erase).
Notation post := (post a_key a_str a_indexable a_item a_attr a_iter a_len unset store istore itemtype valuetype call).
Notation step := (step a_str a_indexable a_item a_attr unset).
Notation step_rec := (step_rec a_str a_indexable a_item a_attr unset).
Notation obj := (obj A C).

Lemma get_look r : forall (t x : obj) q, look r t = Some x -> get (map EStr r ++ q) t = get q x.
Proof.
  induction r as [|n r IH]; intros t x q H; [cbn in H; now injection H as ->|].
  apply look_cons in H as (c & sl & y & -> & E & H). cbn [map app]. rewrite get_cons by discriminate.
  rewrite step_rec, E. cbn [bind]. apply IH. exact H.
Qed.
Lemma get_slot n c (sl : list (str * obj)) : unset c n = None ->
  get [EStr n] (ORec c sl) = match dict_get str_eqb sl n with Some x => Ok x | None => Err FSAttrErr end.
Proof.
  intros U. rewrite get_cons by discriminate. rewrite step_rec, U. destruct (dict_get _ _ _); reflexivity.
Qed.
Lemma post_look r : forall t c st n v v', look r t = Some (ORec c st) -> store c n v = Ok v' ->
  post (map EStr r ++ [EStr n]) v t = (Ok 1, graft r (ORec c (dict_set str_eqb st n v')) t).
Proof.
  induction r as [|m r IH]; intros t c st n v v' H S.
  - cbn in H. injection H as ->. cbn. now rewrite S.
  - apply look_cons in H as (c' & sl & y & -> & E & H). cbn [map app].
    rewrite (post_there _ _ _ _ _ _ _ _ _ _ _ _ _ (EStr m) (map EStr r ++ [EStr n]) v (ORec c' sl) y);
      [|discriminate|now destruct r|rewrite step_rec, E; reflexivity].
    rewrite (IH _ _ _ _ _ _ H S). cbn [replace]. rewrite E. rewrite (graft_cons _ _ _ _ _ _ E). reflexivity.
Qed.
Lemma delete_look r : forall t c st n x, look r t = Some (ORec c st) -> dict_get str_eqb st n = Some x -> erase c n true = None ->
  delete (map EStr r ++ [EStr n]) t = (None, graft r (ORec c (dict_del str_eqb st n)) t).
Proof.
  induction r as [|m r IH]; intros t c st n x H G S.
  - cbn in H. injection H as ->. cbn. unfold del_last, try_index. cbn. rewrite G, S. reflexivity.
  - apply look_cons in H as (c' & sl & y & -> & E & H). cbn [map app].
    assert (Q : exists s u, map EStr r ++ [EStr n] = s :: u) by (destruct r; cbn; eauto).
    destruct Q as (s & u & Q). rewrite Q, delete_cons by discriminate. rewrite <- Q, step_rec, E.
    rewrite (IH _ _ _ _ _ H G S). cbn [replace]. rewrite E. rewrite (graft_cons _ _ _ _ _ _ E). reflexivity.
Qed.
End Ops.

(** ** Values as objects *)
Section Enc.
Context {A C : Type}.
Notation val := (val A C).

Lemma dec_enc (v : val) : dec (enc v) = v.
Proof.
  induction v as [| | | | | |c sl IH| |] using val_ind'; try reflexivity.
  cbn. f_equal. rewrite map_map. cbn. induction IH as [|[k v] sl H IH IH2]; cbn in *; [reflexivity|]. now rewrite H, IH2.
Qed.

Variable W : classes A C.
Lemma wf_graft r : forall o t, wfv W (dec o) -> wfv W (dec t) -> wfv W (dec (graft r o t)).
Proof.
  induction r as [|n r IH]; intros o t Ho Ht; [exact Ho|]. cbn [graft]. destruct t as [|c sl| |]; auto.
  destruct (dict_get str_eqb sl n) as [x|] eqn:E; auto. cbn [dec] in *. inversion Ht as [| | | | | |? ? H| |]; subst.
  constructor. intros k v Hv. apply in_map_iff in Hv as ([k' v'] & Q & Hv). cbn in Q. injection Q as <- <-.
  apply dict_set_in in Hv as [->|Hv].
  - apply IH; auto. apply (H n). apply in_map_iff. exists (n, x). split; auto. apply dict_get_in. exact E.
  - apply (H k'). apply in_map_iff. exists (k', v'). auto.
Qed.
Lemma wf_look r : forall t x, wfv W (dec t) -> look r t = Some x -> wfv W (dec x).
Proof.
  induction r as [|n r IH]; intros t x Ht H; [cbn in H; now injection H as <-|].
  apply look_cons in H as (c & sl & y & -> & E & H). eapply IH; [|exact H]. cbn [dec] in Ht. inversion Ht as [| | | | | |? ? Q| |]; subst.
  apply (Q n). apply in_map_iff. exists (n, y). split; auto. apply dict_get_in. exact E.
Qed.
End Enc.

(** ** Corresponding records *)
Section Shared.
Context {A C : Type}.
Notation val := (val A C).
Notation prop := (prop A C).
Variable W : classes A C.
Variable counts : prop -> Prop.
Notation shared := (shared W counts).

Lemma shared_rec (a b : val) r x y : shared a b r x y -> exists c sl sl', x = VRec c sl /\ y = VRec c sl'.
Proof. induction 1; eauto. Qed.
Lemma shared_root (a b : val) r x y : shared a b r x y -> exists c sl sl', a = VRec c sl /\ b = VRec c sl'.
Proof. inversion 1; subst; eauto. Qed.
Lemma shared_fun (a b : val) r x y : shared a b r x y -> forall x' y', shared a b r x' y' -> x' = x /\ y' = y.
Proof.
  induction 1 as [c sl sl'|c sl sl' p d s s' r x y Hp Hc E E' H IH]; intros x' y' H'; inversion H' as [|? ? ? p' d' t t' r' ? ? Hp' Hc' Q Q' H2 U1 U2 U3]; subst; auto.
  rewrite U3, E in Q. rewrite U3, E' in Q'. injection Q as <- <-. injection Q' as <-. auto.
Qed.
Lemma shared_app (a b : val) r x y : shared a b r x y -> forall q u v, shared x y q u v -> shared a b (r ++ q) u v.
Proof. induction 1; intros q u v H'; cbn [app]; [exact H'|]. econstructor; eauto. Qed.
Lemma shared_split r : forall (a b : val) q u v, shared a b (r ++ q) u v -> exists x y, shared a b r x y /\ shared x y q u v.
Proof.
  induction r as [|n r IH]; intros a b q u v H; cbn [app] in H.
  - exists a, b. split; [|exact H]. destruct (shared_root _ _ _ _ _ H) as (c & sl & sl' & -> & ->). constructor.
  - inversion H as [|c sl sl' p d s s' r' ? ? Hp Hc E E' H2 U1 U2]; subst. destruct (IH _ _ _ _ _ H2) as (x & y & S1 & S2).
    exists x, y. split; auto. econstructor; eauto.
Qed.
Lemma shared_look (a b : val) r x y : shared a b r x y -> look r (enc a) = Some (enc x) /\ look r (enc b) = Some (enc y).
Proof.
  induction 1 as [c sl sl'|c sl sl' p d s s' r x y Hp Hc E E' H IH]; [split; reflexivity|].
  cbn [look enc]. rewrite !dict_get_map, E, E'. cbn [option_map]. exact IH.
Qed.
(** one more name *)
Lemma shared_snoc (a b : val) r c sl sl' n : shared a b r (VRec c sl) (VRec c sl') ->
  corresponding W counts a b (r ++ [n]) ->
  exists p d s s', In p (props W c) /\ counts p /\ p_name p = n /\
    dict_get str_eqb sl n = Some (VRec d s) /\ dict_get str_eqb sl' n = Some (VRec d s').
Proof.
  intros H (x & y & S). apply shared_split in S as (x1 & y1 & S1 & S2).
  destruct (shared_fun _ _ _ _ _ H _ _ S1) as [-> ->]. inversion S2 as [|? ? ? p d s s' r' ? ? Hp Hc E E' H2 U1 U2]; subst.
  exists p, d, s, s'. auto.
Qed.
End Shared.

Section Diff.
Context {A C T : Type}.
Variable W : classes A C.
Notation val := (val A C).
Notation prop := (prop A C).
Variable veqb : val -> val -> bool.
Variable repr : val -> str.
Variable a_hash : A -> bool.
Variable opt : options.
Variable record_id : rtype C -> option mfs -> val -> res val.
Hypothesis vrefl : forall v, veqb v v = true.
Hypothesis vsym : forall u v, veqb u v = true -> veqb v u = true.
Hypothesis vtrans : forall u v w, veqb u v = true -> veqb v w = true -> veqb u w = true.
Hypothesis quiet : changes_only opt.
(** no property compared is compared as something else *)
Hypothesis as_is : forall c p, In p (props W c) -> compared (A := A) (C := C) opt p -> p_compare_as p = None.
Notation agree := (agree W veqb repr a_hash opt record_id).
Notation seen := (seen (A := A) (C := C) opt).
Notation as_text := (as_text (A := A) (C := C) opt).
Notation compared := (compared (A := A) (C := C) opt).
Notation shared := (shared W compared).
Notation wfv := (wfv W).

Lemma seen_rec p c (sl : list (str * val)) : p_compare_as p = None -> dict_get str_eqb sl (p_name p) <> Some VNothing ->
  seen p (VRec c sl) = option_map as_text (dict_get str_eqb sl (p_name p)).
Proof.
  intros Ha N. unfold DiffExact.seen. cbn [slot]. rewrite Ha. destruct (dict_get _ _ _) as [u|]; [|reflexivity]. cbn [option_map].
  unfold present. destruct u; try reflexivity. congruence.
Qed.
Lemma as_text_type (u v : val) : same_type (as_text u) (as_text v) <-> same_type u v.
Proof. destruct u, v; cbn; tauto. Qed.
Lemma as_text_idem v : (match v with VText _ => False | _ => True end) -> as_text v = v.
Proof. destruct v; intros []; reflexivity. Qed.
Lemma same_type_text (u v : val) : same_type u v -> as_text u = u /\ as_text v = v.
Proof. destruct u, v; cbn; intros []; auto. Qed.

Lemma seen_same p v x y : seen p v = Some x -> seen p v = Some y -> x = y.
Proof. congruence. Qed.

Lemma agree_refl v : wfv v -> agree v v.
Proof.
  assert (K : forall u, agree u u -> agree (as_text u) (as_text u)).
  { intros u H. destruct u; try exact H. apply agree_equal; auto. }
  assert (S : forall c u, class_of u = Some c -> (forall n x, slot u n = Some x -> wfv x -> agree x x) -> wfv u ->
     forall p x y, In p (props W c) -> compared p -> seen p u = Some x -> seen p u = Some y -> agree x y).
  { intros c u Hc H Hw p x y Hp Hcp E E'. rewrite (seen_same _ _ _ _ E' E). clear y E'.
    unfold DiffExact.seen in E. destruct (slot u (p_name p)) as [z|] eqn:Es; [|discriminate]. destruct (is_nothing z); [discriminate|].
    rewrite (as_is c p Hp Hcp) in E. unfold present in E. destruct (is_nothing z); [discriminate|]. injection E as <-. apply K.
    eapply H; eauto. exact (wf_slot W _ _ _ Hw Es). }
  assert (P : forall (u : val) i j, wfv u -> paired (keqb veqb) (identified record_id u) (identified record_id u) i j -> i = j).
  { intros u i j Hu (k & k' & l1 & l2 & m1 & m2 & E1 & E2 & E3 & E4). rewrite E1 in E2.
    destruct (key_equalities veqb vrefl vsym vtrans) as (R1 & _).
    exact (proj1 (proj2 (same_occurrence (keqb veqb) R1 k k' l1 i m1 j l2 m2 E2 E3 E4))). }
  induction v as [| |s|x|t l IH|l IH|c sl IH|c sl l IHs IH|c sl l IHs IH] using val_ind'; intros Hw.
  - apply agree_equal; auto.
  - apply agree_equal; auto.
  - apply agree_equal; auto.
  - apply agree_equal; auto.
  - apply agree_plain; cbn; auto. intros k. reflexivity.
  - apply agree_plain; cbn; auto. intros k. reflexivity.
  - apply agree_record with (c := c); cbn [collection]; try reflexivity; try (intros []).
    apply (S c); auto. cbn [slot]. intros n x E. apply dict_get_in in E. rewrite Forall_forall in IH. apply (IH _ E).
  - apply agree_record with (c := c); try reflexivity.
    + apply (S c); auto. cbn [slot]. intros n x E. apply dict_get_in in E. rewrite Forall_forall in IHs. apply (IHs _ E).
    + intros _ _ k. reflexivity.
    + intros _ d _ k. reflexivity.
    + intros _ d i j x y Hd Hp Hx Hy. apply P in Hp; auto. subst j.
      pose proof (contents_nodup W _ Hw) as ND.
      assert (x = y) by (eapply (nodup_fst); eauto). subst y.
      cbn [contents] in Hx. apply number_in in Hx. rewrite Forall_forall in IH. apply IH; auto.
      inversion Hw; subst; auto.
  - apply agree_record with (c := c); try reflexivity.
    + apply (S c); auto. cbn [slot]. intros n x E. apply dict_get_in in E. rewrite Forall_forall in IHs. apply (IHs _ E).
    + intros _ _ k. reflexivity.
    + intros _ d _ k. reflexivity.
    + intros _ d i j x y Hd Hp Hx Hy. apply P in Hp; auto. subst j.
      pose proof (contents_nodup W _ Hw) as ND.
      assert (x = y) by (eapply (nodup_fst); eauto). subst y.
      cbn [contents] in Hx. rewrite Forall_forall in IH. apply (IH _ Hx).
      inversion Hw; subst; eauto.
Qed.

Lemma plain_quiet near (u v : val) : plain u -> same_type u v -> agree u v ->
  forall fa fb t q r, ~ change W veqb repr a_hash opt record_id near fa fb u v t q r.
Proof.
  intros Hp Ht Ha fa fb t q r H.
  assert (S : same_counts veqb (counted W repr a_hash opt u) (counted W repr a_hash opt v)).
  { destruct Ha as [? ? N _|? ? _ _ S|? ? c _ Hc]; [contradiction|exact S|]. destruct u; cbn in *; try contradiction; discriminate. }
  pose proof (SeqDiffProps.no_surplus veqb elem_eqb (veq_equalities veqb vrefl vsym vtrans)) as NS.
  assert (N1 : forall i, ~ surplus veqb (counted W repr a_hash opt u) (counted W repr a_hash opt v) i).
  { apply NS. intros k. rewrite (S k). apply le_n. }
  assert (N2 : forall i, ~ surplus veqb (counted W repr a_hash opt v) (counted W repr a_hash opt u) i).
  { apply NS. intros k. rewrite (S k). apply le_n. }
  assert (NC : class_of u = None) by (destruct u; cbn in *; try contradiction; reflexivity).
  assert (NL : ~ collection u) by (destruct u; cbn in *; tauto).
  assert (Q1 : o_unchanged_ opt = false) by apply quiet. assert (Q2 : o_moved opt = false) by apply quiet.
  destruct H;
    try match goal with K : slots _ _ _ _ _ |- _ => destruct K as (_ & c & Hc & _); congruence end;
    try match goal with K : strict _ _ |- _ => destruct K as [K _]; contradiction end;
    try match goal with K : surplus _ _ _ _ |- _ => first [eapply N1; eassumption|eapply N2; eassumption] end.
  match goal with K : matching _ _ _ _ |- _ => destruct K as [(_ & K & _)|(_ & K & _)]; congruence end.
Qed.

Lemma agree_text u : agree u u -> agree (as_text u) (as_text u).
Proof. intros H. destruct u; try exact H. apply agree_equal; auto. Qed.
Variable ceqb : C -> C -> bool.
Hypothesis ceq : forall c d, ceqb c d = true <-> c = d.
Lemma class_dec (c d : C) : {c = d} + {c <> d}.
Proof. destruct (ceqb c d) eqn:E; [left; now apply ceq|right; intros X; apply ceq in X; congruence]. Qed.
Lemma same_type_dec (u v : val) : same_type u v \/ ~ same_type u v.
Proof.
  destruct u, v; cbn; try tauto.
  - destruct tup, tup0; intuition discriminate.
  - destruct (class_dec c c0); auto.
  - destruct (class_dec c c0); auto.
  - destruct (class_dec c c0); auto.
Qed.
Lemma elem_dec (x y : elem) : {x = y} + {x <> y}.
Proof. destruct (elem_eqb x y) eqn:E; [left; now apply elem_eqb_iff|right; intros X; apply elem_eqb_iff in X; congruence]. Qed.

(** *** Two records *)
Section Two.
Variables a b : val.
Hypothesis wfa : wfv a.
Hypothesis wfb : wfv b.
Hypothesis no_nothing : forall r c sl sl' n, shared a b r (VRec c sl) (VRec c sl') ->
  dict_get str_eqb sl n <> Some VNothing /\ dict_get str_eqb sl' n <> Some VNothing.
Hypothesis lists_agree : forall r c sl sl' p u v, shared a b r (VRec c sl) (VRec c sl') -> In p (props W c) -> compared p ->
  dict_get str_eqb sl (p_name p) = Some u -> dict_get str_eqb sl' (p_name p) = Some v -> same_type u v ->
  (exists d s s', u = VRec d s /\ v = VRec d s') \/ (plain u /\ agree u v).
Hypothesis distinct : forall r c sl sl', shared a b r (VRec c sl) (VRec c sl') -> NoDup (map fst sl).
Variable near : pairing (A := A) (C := C).
Notation change := (change W veqb repr a_hash opt record_id near).
Notation corresponding := (corresponding W compared a b).

Definition path (r : list str) (n : str) : list elem := map EStr r ++ [EStr n].
Lemma path_inj r n r' n' : path r n = path r' n' -> r = r' /\ n = n'.
Proof.
  unfold path. intros H. apply app_inj_tail in H as [H1 H2]. split; [|congruence].
  revert r' H1. induction r as [|x r IH]; intros [|x' r'] H; try discriminate; [reflexivity|].
  cbn in H. injection H as -> H. f_equal. auto.
Qed.

(** what is reported *)
Definition place (p : list elem) : Prop := exists r c sl sl' pr, p = path r (p_name pr) /\
  shared a b r (VRec c sl) (VRec c sl') /\ In pr (props W c) /\ compared pr /\ ~ corresponding (r ++ [p_name pr]) /\
  (dict_get str_eqb sl' (p_name pr) = None -> dict_get str_eqb sl (p_name pr) <> None).

Lemma slot_seen r c sl sl' p : shared a b r (VRec c sl) (VRec c sl') -> In p (props W c) -> compared p ->
  seen p (VRec c sl) = option_map as_text (dict_get str_eqb sl (p_name p)) /\
  seen p (VRec c sl') = option_map as_text (dict_get str_eqb sl' (p_name p)).
Proof.
  intros S Hp Hc. split; apply seen_rec; try (apply (as_is c); auto); apply (no_nothing r c sl sl'); exact S.
Qed.
Lemma corresponding_seen r c sl sl' (p : prop) : shared a b r (VRec c sl) (VRec c sl') -> corresponding (r ++ [p_name p]) ->
  exists d s s', dict_get str_eqb sl (p_name p) = Some (VRec d s) /\ dict_get str_eqb sl' (p_name p) = Some (VRec d s').
Proof. intros S K. destruct (shared_snoc _ _ _ _ _ _ _ _ _ S K) as (p' & d & s & s' & _ & _ & _ & E & E'). eauto. Qed.
Lemma corresponding_dec r c sl sl' p : shared a b r (VRec c sl) (VRec c sl') -> In p (props W c) -> compared p ->
  (exists d s s', dict_get str_eqb sl (p_name p) = Some (VRec d s) /\ dict_get str_eqb sl' (p_name p) = Some (VRec d s')) \/
  ~ corresponding (r ++ [p_name p]).
Proof.
  intros S Hp Hc. assert (X : forall P : Prop, (P \/ ~ P) -> (corresponding (r ++ [p_name p]) -> P) -> P \/ ~ corresponding (r ++ [p_name p])) by tauto.
  apply X; [|apply (corresponding_seen _ _ _ _ _ S)].
  destruct (dict_get str_eqb sl (p_name p)) as [[| | | | | |c0 s0| |]|]; try (right; intros (? & ? & ? & E & _); discriminate).
  destruct (dict_get str_eqb sl' (p_name p)) as [[| | | | | |c1 s1| |]|]; try (right; intros (? & ? & ? & _ & E); discriminate).
  destruct (class_dec c0 c1) as [->|N]; [left; eauto|right]. intros (d & s & s' & E & E'). congruence.
Qed.

Lemma change_place fa fb x y t q q' : change fa fb x y t q q' -> forall r, shared a b r x y -> place (map EStr r ++ q) /\ q' = q.
Proof.
  assert (Q1 : o_unchanged_ opt = false) by apply quiet.
  induction 1 as [fa fb x y p u Hs E1 E2|fa fb x y p v Hs E1 E2|fa fb x y p u v Hs E1 E2 Ht He|fa fb x y p u v Hs E1 E2 Ht He Hu
    |fa fb x y p u v t q q' Hs E1 E2 Ht Hc IH|fa fb x y i Ht Hl|fa fb x y i Ht Hl|fa fb x y i Ht Hl|fa fb x y t i j Ht Hl
    |fa fb x y i Ht Hl|fa fb x y i Ht Hl|fa fb x y t i j Ht Hl|fa fb x y i j u v t q q' Ht Hl|fa fb x y i j u v t q q' Ht Hl|fa fb x y i j u v Ht Hl];
    intros r S; destruct (shared_rec _ _ _ _ _ _ _ S) as (c & sl & sl' & -> & ->);
    try (exfalso; destruct Hl as [[]|[[] _]]); try (exfalso; destruct Hl as [[] _]);
    try (destruct Hs as (_ & c' & Q & Hp & Hcp); injection Q as <-; destruct (slot_seen _ _ _ _ _ S Hp Hcp) as [S1 S2]; rewrite S1 in E1; rewrite S2 in E2).
  - split; [|reflexivity]. exists r, c, sl, sl', p. repeat split; auto.
    + intros K. destruct (corresponding_seen _ _ _ _ _ S K) as (d & s & s' & F1 & F2). rewrite F2 in E2. discriminate.
    + intros _ F. rewrite F in E1. discriminate.
  - split; [|reflexivity]. exists r, c, sl, sl', p. repeat split; auto.
    + intros K. destruct (corresponding_seen _ _ _ _ _ S K) as (d & s & s' & F1 & F2). rewrite F1 in E1. discriminate.
    + intros F. rewrite F in E2. discriminate.
  - split; [|reflexivity]. exists r, c, sl, sl', p. repeat split; auto.
    + intros K. destruct (corresponding_seen _ _ _ _ _ S K) as (d & s & s' & F1 & F2). rewrite F1 in E1. rewrite F2 in E2.
      cbn in E1, E2. injection E1 as <-. injection E2 as <-. apply Ht. reflexivity.
    + intros F. rewrite F in E2. discriminate.
  - congruence.
  - destruct (dict_get str_eqb sl (p_name p)) as [u0|] eqn:F1; [|discriminate]. destruct (dict_get str_eqb sl' (p_name p)) as [v0|] eqn:F2; [|discriminate].
    cbn in E1, E2. injection E1 as <-. injection E2 as <-. apply (proj1 (as_text_type _ _)) in Ht.
    destruct (same_type_text _ _ Ht) as [T1 T2]. rewrite T1, T2 in *.
    destruct (lists_agree _ _ _ _ _ _ _ S Hp Hcp F1 F2 Ht) as [(d & s & s' & -> & ->)|[Hpl Hag]].
    + destruct (IH (r ++ [p_name p])) as [I1 ->].
      { eapply shared_app; [exact S|]. econstructor; eauto. constructor. }
      split; [|reflexivity]. rewrite map_app, <- app_assoc in I1. exact I1.
    + exfalso. eapply plain_quiet; eauto.
Qed.

Lemma change_down (a' b' : val) r x y t q q' : shared a' b' r x y ->
  (exists r0, shared a b r0 a' b') ->
  (forall fa fb, change fa fb x y t q q') -> forall fa fb, change fa fb a' b' t (map EStr r ++ q) (map EStr r ++ q').
Proof.
  induction 1 as [c sl sl'|c sl sl' p d s s' r x y Hp Hc E E' H IH]; intros (r0 & S0) K fa fb; [apply K|].
  cbn [map app]. destruct (slot_seen _ _ _ _ _ S0 Hp Hc) as [S1 S2]. rewrite E in S1. rewrite E' in S2.
  apply (slot_inside W veqb repr a_hash opt record_id near fa fb (VRec c sl) (VRec c sl') p (VRec d s) (VRec d s')); auto.
  - split; [reflexivity|]. exists c. auto.
  - reflexivity.
  - apply IH; auto. exists (r0 ++ [p_name p]). eapply shared_app; [exact S0|]. econstructor; eauto. constructor.
Qed.

(** what is not reported *)
Lemma silent r c sl sl' p : shared a b r (VRec c sl) (VRec c sl') -> In p (props W c) -> compared p ->
  ~ corresponding (r ++ [p_name p]) -> (forall t, ~ change [] [] a b t (path r (p_name p)) (path r (p_name p))) ->
  match dict_get str_eqb sl (p_name p), dict_get str_eqb sl' (p_name p) with
  | None, None => True
  | Some u, Some v => agree (as_text u) (as_text v)
  | _, _ => False
  end.
Proof.
  intros S Hp Hc N Q. destruct (slot_seen _ _ _ _ _ S Hp Hc) as [S1 S2].
  assert (Sl : slots W opt (VRec c sl) (VRec c sl') p) by (split; [reflexivity|exists c; auto]).
  assert (K : forall t, (forall fa fb, change fa fb (VRec c sl) (VRec c sl') t [EStr (p_name p)] [EStr (p_name p)]) -> False).
  { intros t X. apply (Q t). unfold path. apply (change_down a b r (VRec c sl) (VRec c sl')); auto.
    exists []. destruct (shared_root _ _ _ _ _ _ _ S) as (c0 & s0 & s0' & -> & ->). constructor. }
  destruct (dict_get str_eqb sl (p_name p)) as [u|] eqn:E, (dict_get str_eqb sl' (p_name p)) as [v|] eqn:E'; cbn in S1, S2; auto.
  - destruct (same_type_dec u v) as [Ty|Ty].
    + destruct (lists_agree _ _ _ _ _ _ _ S Hp Hc E E' Ty) as [(d & s & s' & -> & ->)|[_ Ag]].
      * exfalso. apply N. exists (VRec d s), (VRec d s'). eapply shared_app; [exact S|]. econstructor; eauto. constructor.
      * destruct (same_type_text _ _ Ty) as [-> ->]. exact Ag.
    + assert (Ty' : ~ same_type (as_text u) (as_text v)) by (rewrite as_text_type; exact Ty).
      destruct (veqb (as_text u) (as_text v)) eqn:Ev; [apply agree_equal; auto|]. exfalso.
      apply (K Modified). intros fa fb. eapply slot_modified; eauto.
  - apply (K Removed). intros fa fb. eapply slot_removed; eauto.
  - apply (K Added). intros fa fb. eapply slot_added; eauto.
Qed.

(** *** While patching *)
Notation obj := (obj val C).
(** At every pair of corresponding records the slots patched so far are as in [b], the others as in [a]. *)
Definition halfway (D : list (list elem)) (t : obj) : Prop := forall r c sl sl', shared a b r (VRec c sl) (VRec c sl') ->
  exists st, look r t = Some (ORec c st) /\ NoDup (map fst st) /\ forall n, ~ corresponding (r ++ [n]) ->
    (In (path r n) D -> dict_get str_eqb st n = option_map enc (dict_get str_eqb sl' n)) /\
    (~ In (path r n) D -> dict_get str_eqb st n = option_map enc (dict_get str_eqb sl n)).

Lemma halfway_start : halfway [] (enc a).
Proof.
  intros r c sl sl' S. destruct (shared_look _ _ _ _ _ _ _ S) as [L _]. eexists. split; [exact L|]. split.
  - rewrite map_map. cbn [fst]. rewrite (map_ext _ fst); [eapply distinct; eauto|reflexivity].
  - intros n _. split; [intros []|]. intros _. apply dict_get_map.
Qed.

Lemma corresponding_prefix r m q x y : shared a b (r ++ m :: q) x y -> corresponding (r ++ [m]).
Proof.
  intros S. change (m :: q) with ([m] ++ q) in S. rewrite app_assoc in S. apply shared_split in S as (u & v & S & _). exists u, v. exact S.
Qed.

Lemma halfway_step D t r c sl sl' n st st' : halfway D t -> shared a b r (VRec c sl) (VRec c sl') -> ~ corresponding (r ++ [n]) ->
  look r t = Some (ORec c st) -> dict_get str_eqb st' n = option_map enc (dict_get str_eqb sl' n) ->
  (forall m, m <> n -> dict_get str_eqb st' m = dict_get str_eqb st m) -> NoDup (map fst st') ->
  halfway (path r n :: D) (graft r (ORec c st') t).
Proof.
  intros H S N L Hn Ho Nd r' c1 s1 s1' S1. destruct (H _ _ _ _ S1) as (st1 & L1 & Nd1 & K1).
  assert (Other : forall k, path r' k <> path r n -> In (path r' k) (path r n :: D) <-> In (path r' k) D).
  { intros k Nk. cbn [In]. intuition congruence. }
  destruct (places r r') as [->|[(m & q & ->)|[(m & q & ->)|(d & m & q & m' & q' & -> & -> & Nm)]]].
  - destruct (shared_fun _ _ _ _ _ _ _ S _ _ S1) as [E1 E2]. injection E1 as -> ->. injection E2 as ->.
    exists st'. split; [pose proof (look_graft r [] (ORec c st') _ _ L) as G; rewrite app_nil_r in G; exact G|].
    split; [exact Nd|]. intros k Hk. destruct (str_eqb k n) eqn:E.
    + apply str_eqb_eq in E. subst k. split; [intros _; exact Hn|]. intros X. exfalso. apply X. now left.
    + assert (k <> n) by (intros ->; rewrite str_eqb_refl in E; discriminate). rewrite Ho by assumption.
      rewrite L in L1. injection L1 as <-. rewrite Other by (intros X; apply path_inj in X as [_ X]; contradiction). apply K1. exact Hk.
  - exists st1. split; [|split; [exact Nd1|]].
    + rewrite (look_graft r _ _ _ _ L). rewrite look_app, L in L1. cbn [look] in *.
      rewrite Ho; [exact L1|]. intros ->. apply N. eapply corresponding_prefix; eauto.
    + intros k Hk. rewrite Other; [apply K1; exact Hk|]. intros X. apply path_inj in X as [X _].
      apply (f_equal (@length str)) in X. rewrite app_length in X. cbn in X. lia.
  - destruct (look_graft_above r' m q (ORec c st') t c1 st1 _ L1 L) as (y & Ly). eexists. split; [exact Ly|]. split; [apply dict_set_keys; exact Nd1|].
    intros k Hk. rewrite (dict_set_other str_eqb str_eqb_eq).
    + rewrite Other; [apply K1; exact Hk|]. intros X. apply path_inj in X as [X _].
      apply (f_equal (@length str)) in X. rewrite app_length in X. cbn in X. lia.
    + intros ->. apply Hk. eapply corresponding_prefix; eauto.
  - exists st1. split; [rewrite (look_graft_apart d m q m' q' _ t _ Nm L); exact L1|]. split; [exact Nd1|].
    intros k Hk. rewrite Other; [apply K1; exact Hk|]. intros X. apply path_inj in X as [X _].
    apply app_inv_head in X. congruence.
Qed.

(** afterwards *)
Lemma halfway_agree D t : (forall p, In p D <-> exists t q, change [] [] a b t p q) -> halfway D t ->
  forall y r x z, shared a b r x y -> look r t = Some z -> agree (dec z) y.
Proof.
  intros HD H. induction y as [| | | | | |c sl' IH| |] using val_ind'; intros r x z S L;
    destruct (shared_rec _ _ _ _ _ _ _ S) as (c0 & s9 & sl0 & -> & Q); try discriminate.
  rename s9 into sl. injection Q as -> <-. destruct (H _ _ _ _ S) as (st & L1 & _ & K). rewrite L in L1. injection L1 as ->.
  cbn [dec].
  assert (Root : shared a b [] a b) by (destruct (shared_root _ _ _ _ _ _ _ S) as (e & s0 & s1 & -> & ->); constructor).
  assert (M : forall p, In p (props W c0) -> compared p ->
    match dict_get str_eqb (map (fun kv => (fst kv, dec (snd kv))) st) (p_name p), dict_get str_eqb sl' (p_name p) with
    | None, None => True
    | Some u, Some v => u <> VNothing /\ agree (as_text u) (as_text v)
    | _, _ => False
    end).
  { intros p Hp Hc. rewrite dict_get_map. destruct (no_nothing _ _ _ _ (p_name p) S) as [Z1 Z2].
    destruct (corresponding_dec _ _ _ _ _ S Hp Hc) as [(d & s & s' & E & E')|N].
    - assert (S' : shared a b (r ++ [p_name p]) (VRec d s) (VRec d s')) by (eapply shared_app; [exact S|]; econstructor; eauto; constructor).
      destruct (H _ _ _ _ S') as (st2 & L2 & _). rewrite E'. rewrite look_app, L in L2. cbn [look] in L2.
      destruct (dict_get str_eqb st (p_name p)) as [z|] eqn:Ez; [|discriminate]. injection L2 as ->. cbn [option_map].
      split; [discriminate|]. apply dict_get_in in E'. rewrite Forall_forall in IH.
      apply (IH _ E' (r ++ [p_name p]) (VRec d s) (ORec d st2)); auto.
      rewrite look_app, L. cbn [look]. now rewrite Ez.
    - destruct (K _ N) as [K1 K2]. destruct (in_dec (list_eq_dec elem_dec) (path r (p_name p)) D) as [I|I].
      + rewrite (K1 I). destruct (dict_get str_eqb sl' (p_name p)) as [v|] eqn:E; cbn [option_map]; [|exact Logic.I].
        rewrite dec_enc. split; [congruence|]. apply agree_text. apply agree_refl.
        apply (wf_slot W (VRec c0 sl') (p_name p)); [|exact E].
        destruct (shared_look _ _ _ _ _ _ _ S) as [_ Lb]. rewrite <- (dec_enc (VRec c0 sl')). eapply wf_look; [|exact Lb]. rewrite dec_enc. exact wfb.
      + rewrite (K2 I). pose proof (silent _ _ _ _ _ S Hp Hc N) as Q.
        assert (X : forall t0, ~ change [] [] a b t0 (path r (p_name p)) (path r (p_name p))) by (intros t0 X; apply I, HD; eauto).
        specialize (Q X). destruct (dict_get str_eqb sl (p_name p)) as [u|], (dict_get str_eqb sl' (p_name p)) as [v|]; cbn [option_map]; auto.
        rewrite dec_enc. split; [congruence|exact Q]. }
  assert (Se : forall p, In p (props W c0) -> compared p ->
     seen p (VRec c0 (map (fun kv => (fst kv, dec (snd kv))) st)) = option_map as_text (dict_get str_eqb (map (fun kv => (fst kv, dec (snd kv))) st) (p_name p))
     /\ seen p (VRec c0 sl') = option_map as_text (dict_get str_eqb sl' (p_name p))).
  { intros p Hp Hc. pose proof (as_is c0 p Hp Hc) as Ai. split; apply seen_rec; [exact Ai| |exact Ai|exact (proj2 (no_nothing _ _ _ _ (p_name p) S))].
    intros E. specialize (M p Hp Hc). rewrite E in M. destruct (dict_get str_eqb sl' (p_name p)); tauto. }
  apply agree_record with (c := c0); [reflexivity|reflexivity| | |intros []|intros []|intros []].
  - intros p Hp Hc. destruct (Se p Hp Hc) as [-> ->]. specialize (M p Hp Hc).
    destruct (dict_get str_eqb _ (p_name p)), (dict_get str_eqb sl' (p_name p)); cbn; try tauto. split; discriminate.
  - intros p u v Hp Hc. destruct (Se p Hp Hc) as [-> ->]. specialize (M p Hp Hc).
    destruct (dict_get str_eqb _ (p_name p)), (dict_get str_eqb sl' (p_name p)); cbn; try discriminate.
    intros E1 E2. injection E1 as <-. injection E2 as <-. apply M.
Qed.

(** *** Patching *)
Section Patch.
Variable a_none : val.
Variable a_key : elem -> val.
Variable a_str : val -> bool.
Variable a_indexable : val -> bool.
Variable a_item : val -> elem -> res val.
Variable a_attr : val -> str -> option val.
Variable a_iter : val -> res (list val).
Variable a_len : val -> Z.
Variable unset : C -> str -> option val.
Variable store : C -> str -> obj -> res obj.
Variable erase : C -> str -> bool -> option exn.
Variable istore : C -> obj -> res obj.
Variable itemtype : C -> res T.
Variable valuetype : C -> str -> res T.
Variable call : T -> option (str * obj) -> res obj.
Variable ord : list arg -> list arg.
Hypothesis ord_ok : set_order ord.
Notation patch := (patch a_none a_key a_str a_indexable a_item a_attr a_iter a_len unset store erase istore itemtype valuetype call).
Notation lift := (lift a_none a_key a_str a_indexable a_item a_attr a_iter unset).
Notation apply_all := (apply_all a_key a_str a_indexable a_item a_attr a_iter a_len unset store erase istore itemtype valuetype call).
Notation update := (update a_none a_key a_str a_indexable a_item a_attr a_iter a_len unset store erase istore itemtype valuetype call ord).

Hypothesis store_ok : forall r c sl sl' p v, shared a b r (VRec c sl) (VRec c sl') -> In p (props W c) -> compared p ->
  dict_get str_eqb sl' (p_name p) = Some v -> store c (p_name p) (enc v) = Ok (enc v).
Hypothesis erase_ok : forall r c sl sl' p, shared a b r (VRec c sl) (VRec c sl') -> In p (props W c) -> compared p ->
  dict_get str_eqb sl' (p_name p) = None -> erase c (p_name p) true = None.
Hypothesis unset_ok : forall r c sl sl' p, shared a b r (VRec c sl) (VRec c sl') -> In p (props W c) -> compared p -> unset c (p_name p) = None.

(** the source has it *)
Definition due (po : list elem * option obj) : Prop := exists r c sl sl' pr, fst po = path r (p_name pr) /\
  shared a b r (VRec c sl) (VRec c sl') /\ In pr (props W c) /\ compared pr /\ ~ corresponding (r ++ [p_name pr]) /\
  (dict_get str_eqb sl' (p_name pr) = None -> dict_get str_eqb sl (p_name pr) <> None) /\
  snd po = option_map enc (dict_get str_eqb sl' (p_name pr)).

Lemma lift_due ps : (forall p, In p ps -> place p) -> exists l, lift ps (enc b) = Ok l /\ map fst l = ps /\ Forall due l.
Proof.
  induction ps as [|p ps IH]; intros H; [exists []; auto|]. destruct IH as (l & E & M & F); [auto using in_cons|].
  destruct (H p (or_introl eq_refl)) as (r & c & sl & sl' & pr & -> & S & Hp & Hc & N & Q).
  cbn [MFSTreeModel.lift]. destruct (shared_look _ _ _ _ _ _ _ S) as [_ L].
  unfold path at 1. rewrite (get_look a_none a_key a_str a_indexable a_item a_attr a_iter unset _ _ _ _ L). cbn [enc].
  rewrite (get_slot a_none a_key a_str a_indexable a_item a_attr a_iter unset _ _ _ (unset_ok _ _ _ _ _ S Hp Hc)). rewrite dict_get_map.
  destruct (dict_get str_eqb sl' (p_name pr)) as [v|] eqn:Ev; cbn [option_map is_attr_err]; rewrite E; cbn [bind];
    eexists; (split; [reflexivity|]); (split; [cbn; now rewrite M|]); constructor; auto;
    exists r, c, sl, sl', pr; rewrite Ev; repeat split; auto.
Qed.

Lemma apply_due l : forall D t, Forall due l -> NoDup (map fst l) -> (forall p, In p (map fst l) -> ~ In p D) ->
  halfway D t -> wfv (dec t) ->
  exists t', apply_all l t = (None, t') /\ wfv (dec t') /\ halfway (rev (map fst l) ++ D) t'.
Proof.
  induction l as [|[p o] l IH]; intros D t F Nd Dis H Hw; [exists t; auto|].
  inversion F as [|? ? F1 F2]; subst. cbn [map fst] in Nd. inversion Nd as [|? ? N1 N2]; subst.
  destruct F1 as (r & c & sl & sl' & pr & E & S & Hp & Hc & N & Q & Eo). cbn [fst snd] in E, Eo. subst p o.
  destruct (H _ _ _ _ S) as (st & L & Ns & K). destruct (K _ N) as [_ K2].
  specialize (K2 (Dis _ (or_introl eq_refl))).
  assert (Wst : wfv (dec (ORec c st))) by (eapply wf_look; eauto).
  assert (Wb : wfv (VRec c sl')).
  { destruct (shared_look _ _ _ _ _ _ _ S) as [_ Lb]. rewrite <- (dec_enc (VRec c sl')). eapply wf_look; [|exact Lb]. rewrite dec_enc. exact wfb. }
  assert (Go : forall st', dict_get str_eqb st' (p_name pr) = option_map enc (dict_get str_eqb sl' (p_name pr)) ->
     (forall m, m <> p_name pr -> dict_get str_eqb st' m = dict_get str_eqb st m) -> NoDup (map fst st') -> wfv (dec (ORec c st')) ->
     exists t', apply_all l (graft r (ORec c st') t) = (None, t') /\ wfv (dec t') /\ halfway (rev (map fst ((path r (p_name pr), option_map enc (dict_get str_eqb sl' (p_name pr))) :: l)) ++ D) t').
  { intros st' G1 G2 G3 G4. destruct (IH (path r (p_name pr) :: D) (graft r (ORec c st') t)) as (t' & A1 & A2 & A3); auto.
    - intros p Ip [<-|Id]; [contradiction|]. apply (Dis p); [now right|exact Id].
    - eapply halfway_step; eauto.
    - apply wf_graft; auto.
    - exists t'. split; [exact A1|]. split; [exact A2|]. cbn [map fst rev]. rewrite <- app_assoc. exact A3. }
  cbn [MFSTreeModel.apply_all]. destruct (dict_get str_eqb sl' (p_name pr)) as [v|] eqn:Ev; cbn [option_map].
  - unfold path at 1. rewrite (post_look a_key a_str a_indexable a_item a_attr a_iter a_len unset store istore itemtype valuetype call
      r t c st (p_name pr) (enc v) (enc v) L (store_ok _ _ _ _ _ _ S Hp Hc Ev)).
    apply Go.
    + apply (dict_set_this str_eqb str_eqb_eq).
    + intros m Hm. apply (dict_set_other str_eqb str_eqb_eq). congruence.
    + apply dict_set_keys. exact Ns.
    + cbn [dec] in *. constructor. intros k x Hx. apply in_map_iff in Hx as ([k' o] & X & Hx). cbn in X. injection X as <- <-.
      apply dict_set_in in Hx as [->|Hx].
      * rewrite dec_enc. apply (wf_slot W (VRec c sl') (p_name pr)); auto.
      * inversion Wst as [| | | | | |? ? Y| |]; subst. apply (Y k'). apply in_map_iff. exists (k', o). auto.
  - unfold path at 1. destruct (dict_get str_eqb sl (p_name pr)) as [u|] eqn:Eu; [|exfalso; apply Q; auto]. cbn [option_map] in K2.
    rewrite (delete_look a_key a_str a_indexable a_item a_attr a_iter unset erase r t c st (p_name pr) (enc u) L K2 (erase_ok _ _ _ _ _ S Hp Hc Ev)).
    apply Go.
    + apply dict_del_this. exact Ns.
    + intros m Hm. apply (dict_del_other str_eqb str_eqb_eq). congruence.
    + apply dict_del_keys. exact Ns.
    + cbn [dec] in *. constructor. intros k x Hx. apply in_map_iff in Hx as ([k' o] & X & Hx). cbn in X. injection X as <- <-.
      apply dict_del_in in Hx. inversion Wst as [| | | | | |? ? Y| |]; subst. apply (Y k'). apply in_map_iff. exists (k', o). auto.
Qed.

(** the selector made of the paths *)
Lemma places_selector ps : (forall p, In p ps -> place p) ->
  exists m, MFSModel.make ord (map AFS ps) = Ok m /\ NoDup (MFSModel.iter m) /\ forall p, In p (MFSModel.iter m) <-> In p ps.
Proof.
  intros H. assert (Ha : args_ok (map AFS ps)).
  { intros x Hx. apply in_map_iff in Hx as (p & Ep & _). discriminate. }
  assert (Hpaths : forall p, In p (paths (map AFS ps)) <-> In p ps).
  { intros p. unfold paths. rewrite in_map_iff. split.
    - intros (q & <- & Hq). apply in_flat_map in Hq as (x & Hx & Hq). apply in_map_iff in Hx as (q' & <- & Hq'). destruct Hq as [<-|[]].
      destruct (H _ Hq') as (r & c & sl & sl' & pr & -> & _). unfold path in *. destruct (map EStr r); exact Hq'.
    - intros Hp. exists p. split.
      + destruct (H _ Hp) as (r & c & sl & sl' & pr & -> & _). unfold path. destruct (map EStr r); reflexivity.
      + apply in_flat_map. exists (AFS p). split; [apply in_map; exact Hp|now left]. }
  destruct (C08_value_error_exactly_on_mixed_level ord (map AFS ps) ord_ok Ha) as [_ Hm].
  destruct Hm as (m & Em).
  { intros (pre & u & x & v & X & _). apply Hpaths in X. destruct (H _ X) as (r & c & sl & sl' & pr & E & _).
    assert (Y : In ENone (path r (p_name pr))) by (rewrite <- E; apply in_or_app; right; now left).
    unfold path in Y. apply in_app_or in Y as [Y|[Y|[]]]; [|discriminate]. apply in_map_iff in Y as (z & Y & _). discriminate. }
  exists m. split; [exact Em|]. split.
  - pose proof (iter_antichain m (constructible_wf m (constructed ord _ m ord_ok Ha Em))) as An.
    induction An as [|p l Hp An IH]; constructor; auto. intros I. rewrite Forall_forall in Hp. destruct (Hp _ I) as [X _]. apply X.
    exists []. now rewrite app_nil_r.
  - intros p. rewrite (build_iter ord ord_ok _ _ _ (args_ok_good _ Ha) Em p). rewrite Hpaths. split; [intros [X _]; exact X|].
    intros X. split; [exact X|]. intros p' X' [u Pre]. apply Hpaths in X'.
    destruct (H _ X) as (r & c & sl & sl' & pr & -> & S & _). destruct (H _ X') as (r' & c' & s1 & s1' & pr' & -> & S' & Hp' & Hc' & N' & _).
    destruct u as [|e u]; [now rewrite app_nil_r in Pre|]. exfalso. apply N'.
    assert (Z : exists q, r = r' ++ p_name pr' :: q).
    { unfold path in Pre. clear -Pre. revert r' Pre. induction r as [|n r IH]; intros [|n' r'] Pre; cbn [map app] in Pre.
      - injection Pre as _ Pre. discriminate.
      - injection Pre as _ Pre. destruct r'; discriminate.
      - injection Pre as -> _. exists r. reflexivity.
      - injection Pre as -> Pre. destruct (IH _ Pre) as (q & ->). exists q. reflexivity. }
    destruct Z as (q & ->). eapply corresponding_prefix; eauto.
Qed.

Lemma updated (l : list dentry) : (forall t p q, In (t, p, q) l <-> change [] [] a b t p q) -> shared a b [] a b ->
  exists t', update l (enc a) (enc b) = (None, t') /\ wfv (dec t') /\ agree (dec t') b /\ halfway (base_paths l) t'.
Proof.
  intros HL Root.
  assert (Hpl : forall p, In p (base_paths l) -> place p).
  { intros p Hp. unfold base_paths in Hp. apply in_map_iff in Hp as ([[t p'] q] & E & I). cbn in E. subst p'.
    apply HL in I. exact (proj1 (change_place _ _ _ _ _ _ _ I [] Root)). }
  destruct (places_selector _ Hpl) as (m & Em & Nd & Im).
  unfold SyncModel.update. rewrite Em. unfold MFSTreeModel.patch.
  destruct (lift_due (MFSModel.iter m)) as (ops & El & Mo & Du); [intros p Hp; apply Hpl, Im, Hp|]. rewrite El.
  destruct (apply_due ops [] (enc a) Du) as (t' & Et & Wt & Ht).
  - rewrite Mo. exact Nd.
  - intros p _ [].
  - exact halfway_start.
  - rewrite dec_enc. exact wfa.
  - exists t'. split; [exact Et|]. split; [exact Wt|]. rewrite Mo, app_nil_r in Ht.
    assert (Id : forall p, In p (rev (MFSModel.iter m)) <-> In p (base_paths l)) by (intros p; rewrite <- in_rev; apply Im).
    split.
    + apply (halfway_agree (rev (MFSModel.iter m)) t') with (r := []) (x := a); auto. intros p. rewrite Id. unfold base_paths. rewrite in_map_iff. split.
      * intros ([[t p'] q] & E & I). cbn in E. subst p'. exists t, q. apply HL. exact I.
      * intros (t & q & I). apply HL in I. exists (t, p, q). auto.
    + intros r c sl sl' S. destruct (Ht _ _ _ _ S) as (st & L & Ns & K). exists st. repeat split; auto; intros; apply K; auto; now rewrite Id.
Qed.
End Patch.
End Two.
End Diff.
