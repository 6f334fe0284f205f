(** Comparisons of lists of records depend on positions in paths only. *)
From Coq Require Import String List Arith NArith ZArith Bool Lia Permutation.
From Verif Require Import Prelude SelPathModel FSModel PySeq MFSModel MFSProofs ValModel EqModel EqProofs SeqDiffModel SeqDiffProofs SeqDiffProps
  FuzzyModel FuzzyProps DiffModel DiffProofs DiffSwap DiffTotal DiffExact DiffEntries DiffOnce DuckSpec DuckProofs BlankProofs ItemsSpec ItemsProofs RenumSpec.
Import ListNotations.

Definition mp (h : dentry -> dentry) (r : res (list dentry)) : res (list dentry) := match r with Ok l => Ok (map h l) | Err e => Err e end.
Definition pre (fa fb : list elem) (e : dentry) : dentry := (fst (fst e), fa ++ snd (fst e), fb ++ snd e).
Definition typed (h : dentry -> dentry) : Prop := forall e, dt_of (h e) = dt_of e.

Lemma mp_bind {X} h (r : res X) f g : (forall x, r = Ok x -> g x = mp h (f x)) -> bind r g = mp h (bind r f).
Proof. destruct r; cbn; auto. Qed.
Lemma mp_concat {X} h (f g : X -> res (list dentry)) l : (forall x, In x l -> g x = mp h (f x)) -> concatM g l = mp h (concatM f l).
Proof.
  induction l as [|x l IH]; cbn [concatM]; intros H; [reflexivity|]. rewrite (H x (or_introl eq_refl)). destruct (f x) as [u|]; cbn [bind mp]; [|reflexivity].
  rewrite IH by (intros y I; apply H; now right). destruct (concatM f l) as [v|]; cbn [bind mp]; [|reflexivity]. now rewrite map_app.
Qed.
Lemma changes_map h l : typed h -> changes (map h l) = changes l.
Proof. intros T. unfold changes. rewrite map_map. f_equal. apply map_ext, T. Qed.
Lemma mp_mp h g r : mp h (mp g r) = mp (fun e => h (g e)) r.
Proof. destruct r; cbn; auto. now rewrite map_map. Qed.
Lemma mp_ext h g r : (forall e, h e = g e) -> mp h r = mp g r.
Proof. intros H. destruct r; cbn; auto. f_equal. now apply map_ext. Qed.
Lemma pre_pre fa fb ga gb r : mp (pre fa fb) (mp (pre ga gb) r) = mp (pre (fa ++ ga) (fb ++ gb)) r.
Proof. rewrite mp_mp. apply mp_ext. intros [[t p] q]. unfold pre. cbn [fst snd]. now rewrite !app_assoc. Qed.
Lemma pre_typed fa fb : typed (pre fa fb).
Proof. intros [[t p] q]. reflexivity. Qed.

Definition rekey {X} (f : elem -> elem) (l : list (elem * X)) : list (elem * X) := map (fun kv => (f (fst kv), snd kv)) l.
Lemma rekey_id {X} (l : list (elem * X)) : rekey (fun k => k) l = l.
Proof. unfold rekey. induction l as [|[k v] l IH]; cbn; [reflexivity|]. now rewrite IH. Qed.
Lemma tag_rekey {K} (keqb : K -> K -> bool) f (l : list (elem * K)) : forall seen, tag keqb seen (rekey f l) = map (fun e => (fst e, f (snd e))) (tag keqb seen l).
Proof. induction l as [|[k v] l IH]; intros seen; cbn [rekey map tag fst snd]; [reflexivity|]. f_equal. apply IH. Qed.

Section Renum.
Context {A C : Type}.
Variable W : classes A C.
Variable ceqb : C -> C -> bool.
Notation val := (val A C).
Variable veqb : val -> val -> bool.
Variable hashable : val -> bool.
Variable repr : val -> str.
Variable a_hash a_falsy : A -> bool.
Variable a_items : A -> res (list (elem * val)).
Variable opt : options.
Variable record_id : rtype C -> option mfs -> val -> res val.
Variable so : dorders (A := A) (C := C).
Hypothesis unfiltered : o_filter opt = None.
Hypothesis flat : o_recurse opt = false.
Notation ord := (fun _ _ : list elem => so).
Notation id_keys := (id_keys hashable opt record_id).
Notation records_iter := (records_iter veqb hashable a_falsy a_items opt record_id ord).
Notation list_iter := (list_iter W veqb hashable repr a_hash a_items opt ord).
Notation collection_iter := (collection_iter W veqb hashable repr a_hash a_falsy a_items opt record_id ord).
Notation record_iter := (record_iter W ceqb veqb opt).
Notation slot_diff := (slot_diff ceqb veqb opt).
Notation dispatch := (dispatch W ceqb veqb hashable repr a_hash a_falsy a_items opt record_id ord).
Notation diff := (diff W ceqb veqb hashable repr a_hash a_falsy a_items opt record_id ord).
Notation key_at := (key_at veqb).
Notation tag0 := (tag (keqb veqb) []).

Lemma ids_rekey d f fa fa' l : id_keys d None fa (rekey f l) = match id_keys d None fa' l with Ok r => Ok (rekey f r) | Err e => Err e end.
Proof.
  induction l as [|[k v] l IH]; cbn [rekey map fst snd DiffModel.id_keys]; [reflexivity|]. destruct (record_id _ None v) as [i|]; cbn [bind]; [|reflexivity].
  destruct (_ && _); [exact IH|]. destruct (negb _); [reflexivity|]. destruct (key_of i) as [|kl]; [reflexivity|]. unfold rekey in IH. rewrite IH. destruct (id_keys d None fa' l); reflexivity.
Qed.
Lemma key_at_rekey f (i : list (elem * pk val)) x : key_at (tag0 (rekey f i)) x = match key_at (tag0 i) x with Ok k => Ok (f k) | Err e => Err e end.
Proof.
  rewrite tag_rekey. unfold DiffModel.key_at. induction (tag0 i) as [|[y k] l IH]; cbn [map lookup fst snd]; [reflexivity|]. destruct (teqb _ x y); [reflexivity|exact IH].
Qed.

(** The comparison of records in collections, with other keys, other prefixes *)
Lemma records_map rec rec' d a b a' b' ga gb ga' gb' fa fb fa' fb' f g h :
  generator a_items a = Ok ga -> generator a_items b = Ok gb -> generator a_items a' = Ok ga' -> generator a_items b' = Ok gb' ->
  is_nothing a = is_nothing a' -> is_nothing b = is_nothing b' ->
  id_keys d None fa ga = (match id_keys d None fa' ga' with Ok r => Ok (rekey f r) | Err e => Err e end) ->
  id_keys d None fa gb = (match id_keys d None fa' gb' with Ok r => Ok (rekey g r) | Err e => Err e end) ->
  (forall k, In k (map fst ga') -> val_at ga (f k) = val_at ga' k) -> (forall k, In k (map fst gb') -> val_at gb (g k) = val_at gb' k) ->
  (forall u v k j, rec u v (fa ++ [f k]) (fb ++ [g j]) = mp h (rec' u v (fa' ++ [k]) (fb' ++ [j]))) ->
  (forall t k j, h (t, fa' ++ [k], fb' ++ [j]) = (t, fa ++ [f k], fb ++ [g j])) ->
  (forall t k, h (t, fa' ++ [k], fb') = (t, fa ++ [f k], fb)) -> (forall t j, h (t, fa', fb' ++ [j]) = (t, fa, fb ++ [g j])) -> typed h ->
  (is_nothing a || is_nothing b = true -> forall k, f k = g k) ->
  o_moved opt = false \/ (forall k j, elem_eqb (f k) (g j) = elem_eqb k j) ->
  records_iter rec d a b fa fb = mp h (records_iter rec' d a' b' fa' fb').
Proof.
  intros Ga Gb Ga' Gb' Na Nb Ia Ib Va Vb Hr Hkj Hk Hj Ty Fg Mv. unfold DiffModel.records_iter, id_selector. rewrite unfiltered, flat, Ga, Gb, Ga', Gb', <- Na, <- Nb. cbn [bind].
  rewrite Ia. destruct (id_keys d None fa' ga') as [ia|] eqn:Ja; cbn [bind]; [|reflexivity].
  rewrite Ib. destruct (id_keys d None fa' gb') as [ib|] eqn:Jb; cbn [bind]; [|reflexivity]. cbv zeta.
  assert (Ta : map fst (tag0 (rekey f ia)) = map fst (tag0 ia)) by (rewrite tag_rekey, map_map; apply map_ext; reflexivity).
  assert (Tb : map fst (tag0 (rekey g ib)) = map fst (tag0 ib)) by (rewrite tag_rekey, map_map; apply map_ext; reflexivity).
  rewrite Ta, Tb.
  assert (Any : forall l r, id_keys d None fa' l = Ok r -> forall k, In k (map fst r) -> In k (map fst l)).
  { clear. induction l as [|[k v] l IH]; cbn [DiffModel.id_keys]; intros r H k0 I; [injection H as <-; destruct I|].
    apply bind_ok in H as (i & Hi & H). destruct (_ && _); [right; eapply IH; eauto|].
    destruct (negb _); [discriminate|]. destruct (key_of i); [discriminate|]. apply bind_ok in H as (r' & Hr & H). injection H as <-.
    destruct I as [<-|I]; [now left|right; eapply IH; eauto]. }
  assert (Ka : forall (F G : elem -> val -> res (list dentry)) x, (forall k y, F (f k) y = mp h (G k y)) ->
    (do k <- key_at (tag0 (rekey f ia)) x; do y <- val_at ga k; F k y) = mp h (do k <- key_at (tag0 ia) x; do y <- val_at ga' k; G k y)).
  { intros F G x E. rewrite key_at_rekey. destruct (key_at (tag0 ia) x) as [k|] eqn:K; cbn [bind]; [|reflexivity]. apply key_at_in in K. rewrite (Va k) by (eapply Any; eauto).
    destruct (val_at ga' k); cbn [bind]; auto. }
  assert (Kb : forall (F G : elem -> val -> res (list dentry)) x, (forall k y, F (g k) y = mp h (G k y)) ->
    (do k <- key_at (tag0 (rekey g ib)) x; do y <- val_at gb k; F k y) = mp h (do k <- key_at (tag0 ib) x; do y <- val_at gb' k; G k y)).
  { intros F G x E. rewrite key_at_rekey. destruct (key_at (tag0 ib) x) as [k|] eqn:K; cbn [bind]; [|reflexivity]. apply key_at_in in K. rewrite (Vb k) by (eapply Any; eauto).
    destruct (val_at gb' k); cbn [bind]; auto. }
  assert (Five : forall r1 r2 r3 r4 r5 s1 s2 s3 s4 s5 : res (list dentry), r1 = mp h s1 -> r2 = mp h s2 -> r3 = mp h s3 -> r4 = mp h s4 -> r5 = mp h s5 ->
    (do l1 <- r1; do l2 <- r2; do l3 <- r3; do l4 <- r4; do l5 <- r5; Ok (l1 ++ l2 ++ l3 ++ l4 ++ l5)) =
    mp h (do l1 <- s1; do l2 <- s2; do l3 <- s3; do l4 <- s4; do l5 <- s5; Ok (l1 ++ l2 ++ l3 ++ l4 ++ l5))).
  { intros r1 r2 r3 r4 r5 s1 s2 s3 s4 s5 -> -> -> -> ->. destruct s1; cbn [mp bind]; [|reflexivity]. destruct s2; cbn [mp bind]; [|reflexivity]. destruct s3; cbn [mp bind]; [|reflexivity].
    destruct s4; cbn [mp bind]; [|reflexivity]. destruct s5; cbn [mp bind]; [|reflexivity]. now rewrite !map_app. }
  assert (Mo : forall k j, o_moved opt && negb (elem_eqb (f k) (g j)) = o_moved opt && negb (elem_eqb k j)).
  { intros k j. destruct Mv as [->|E]; [reflexivity|]. now rewrite E. }
  apply Five.
  - destruct (is_nothing a || is_nothing b) eqn:Fo.
    + specialize (Fg eq_refl). apply mp_concat. intros x _. destruct (is_nothing a); [apply Kb|apply Ka]; intros k y; [rewrite <- (Fg k) at 1|rewrite (Fg k) at 2]; apply Hr.
    + apply mp_concat. intros x _. apply (Ka (fun k u => do j <- key_at (tag0 (rekey g ib)) x; do v <- val_at gb j; rec u v (fa ++ [k]) (fb ++ [j]))). intros k u. apply Kb. intros j v. apply Hr.
  - apply mp_concat. intros x _. apply (Ka (fun k u => do j <- key_at (tag0 (rekey g ib)) (snd x); do v <- val_at gb j; do l <- rec u v (fa ++ [k]) (fb ++ [j]); _)). intros k u. apply Kb. intros j v.
    rewrite Hr. destruct (rec' u v (fa' ++ [k]) (fb' ++ [j])) as [l|]; cbn [mp bind]; [|reflexivity]. rewrite map_app, Mo, (changes_map h l Ty).
    do 2 f_equal. destruct (_ && _); cbn [map]; [now rewrite Hkj|]. destruct (_ && _); cbn [map]; [now rewrite Hkj|reflexivity].
  - destruct (o_unchanged_ opt || o_moved opt); [|reflexivity]. apply mp_concat. intros x _. rewrite !key_at_rekey.
    destruct (key_at (tag0 ia) x) as [k|]; cbn [bind]; [|reflexivity]. destruct (key_at (tag0 ib) x) as [j|]; cbn [bind mp]; [|reflexivity]. rewrite Mo.
    f_equal. destruct (_ && _); cbn [map]; [now rewrite Hkj|]. destruct (o_unchanged_ opt); cbn [map]; [now rewrite Hkj|reflexivity].
  - destruct (_ || _); [reflexivity|]. apply mp_concat. intros x _. rewrite key_at_rekey. destruct (key_at (tag0 ia) x) as [k|]; cbn [bind mp map]; [|reflexivity]. now rewrite Hk.
  - destruct (_ || _); [reflexivity|]. apply mp_concat. intros x _. rewrite key_at_rekey. destruct (key_at (tag0 ib) x) as [k|]; cbn [bind mp map]; [|reflexivity]. now rewrite Hj.
Qed.

Lemma place_app (fs : list elem) k : place fs k = fs ++ place [] k.
Proof. destruct k; cbn; [reflexivity|now rewrite app_nil_r]. Qed.
Lemma list_prefix a b fa fb : list_iter a b fa fb = mp (pre fa fb) (list_iter a b [] []).
Proof.
  unfold DiffModel.list_iter. destruct (generator a_items a) as [ga|]; cbn [bind]; [|reflexivity]. match goal with |- bind ?x _ = _ => destruct x as [ka|] end; cbn [bind]; [|reflexivity].
  destruct (generator a_items b) as [gb|]; cbn [bind]; [|reflexivity]. match goal with |- bind ?x _ = _ => destruct x as [kb|] end; cbn [bind mp]; [|reflexivity].
  rewrite map_map. apply f_equal, map_ext. intros [[t k] j]. unfold pre. cbn [fst snd]. now rewrite (place_app fa), (place_app fb).
Qed.
Section Prefix.
Variable rec : val -> val -> list elem -> list elem -> res (list dentry).
Hypothesis Hrec : forall u v fa fb, rec u v fa fb = mp (pre fa fb) (rec u v [] []).
Lemma ids_prefix d fa l : id_keys d None fa l = match id_keys d None [] l with Ok r => Ok (rekey (fun k => k) r) | Err e => Err e end.
Proof. rewrite <- (rekey_id l) at 1. apply ids_rekey. Qed.
Lemma records_prefix d a b fa fb : records_iter rec d a b fa fb = mp (pre fa fb) (records_iter rec d a b [] []).
Proof.
  destruct (generator a_items a) as [ga|] eqn:Ga; [destruct (generator a_items b) as [gb|] eqn:Gb|].
  - apply (records_map rec rec d a b a b ga gb ga gb fa fb [] [] (fun k => k) (fun k => k) (pre fa fb)); auto using ids_prefix, pre_typed.
    + intros u v k j. rewrite Hrec. cbn [app]. rewrite (Hrec u v [k] [j]), pre_pre. reflexivity.
    + intros t k. unfold pre. cbn [fst snd app]. now rewrite app_nil_r.
    + intros t k. unfold pre. cbn [fst snd app]. now rewrite app_nil_r.
  - unfold DiffModel.records_iter, id_selector. rewrite unfiltered, Ga, Gb. cbn [bind]. rewrite (ids_prefix d fa). destruct (id_keys d None [] ga); reflexivity.
  - unfold DiffModel.records_iter, id_selector. rewrite unfiltered, Ga. reflexivity.
Qed.
Lemma slot_prefix a b fa fb p : slot_diff rec a b fa fb p = mp (pre fa fb) (slot_diff rec a b [] [] p).
Proof.
  unfold DiffModel.slot_diff. cbv zeta. unfold is_filtered. rewrite unfiltered. cbn [app]. destruct (_ || false); [reflexivity|].
  set (u := normalize_slot _ _ _ a). set (v := normalize_slot _ _ _ b). destruct (is_nothing u && is_nothing v); [reflexivity|].
  destruct ((comparable u || comparable v) && _).
  - rewrite Hrec, (Hrec u v [_] [_]). destruct (rec u v [] []) as [l|]; cbn [mp bind]; [|reflexivity]. destruct (xorb _ _).
    + rewrite !changes_map by apply pre_typed. destruct (changes l) as [|d t]; [destruct (o_unchanged_ opt); reflexivity|]. destruct (forallb _ t); reflexivity.
    + cbn [mp]. rewrite map_map. apply f_equal, map_ext. intros [[t k] j]. unfold pre. cbn [fst snd]. now rewrite <- !app_assoc.
  - destruct (xorb _ _); [destruct (is_nothing u); reflexivity|]. destruct (negb _); [reflexivity|]. destruct (o_unchanged_ opt); reflexivity.
Qed.
Lemma record_prefix a b fa fb : record_iter rec a b fa fb = mp (pre fa fb) (record_iter rec a b [] []).
Proof.
  unfold DiffModel.record_iter. destruct (_ && _ && _); [reflexivity|]. destruct (class_of _); [|reflexivity]. apply mp_concat. intros p _. apply slot_prefix.
Qed.
Lemma dispatch_prefix a b fa fb : dispatch rec a b fa fb = mp (pre fa fb) (dispatch rec a b [] []).
Proof.
  assert (Cl : forall a b, collection_iter rec a b fa fb = mp (pre fa fb) (collection_iter rec a b [] [])).
  { intros x y. unfold DiffModel.collection_iter. destruct (class_of _) as [c|]; [|reflexivity]. destruct (ValModel.item W c); auto using list_prefix, records_prefix. }
  assert (Two : (do l <- collection_iter rec a b fa fb; do m <- record_iter rec a b fa fb; Ok (l ++ m)) =
    mp (pre fa fb) (do l <- collection_iter rec a b [] []; do m <- record_iter rec a b [] []; Ok (l ++ m))).
  { rewrite Cl, record_prefix. destruct (collection_iter rec a b [] []); cbn [mp bind]; [|reflexivity]. destruct (record_iter rec a b [] []); cbn [mp bind]; [|reflexivity]. now rewrite map_app. }
  unfold DiffModel.dispatch. destruct (if is_nothing a then b else a); try reflexivity; auto using list_prefix, record_prefix.
Qed.
End Prefix.
(** What is found does not depend on where the objects are. *)
Lemma diff_prefix n : forall a b fa fb, diff n a b fa fb = mp (pre fa fb) (diff n a b [] []).
Proof. induction n as [|n IH]; intros a b fa fb; [reflexivity|]. cbn [DiffModel.diff]. now apply dispatch_prefix. Qed.

(** ** Positions of those kept *)
Variable keep : val -> bool.
Notation at_pos := (fun n : nat => EInt (Z.of_nat n)).
Lemma kept_at_length l : forall s, length (kept_at keep s l) = length (filter keep l).
Proof. induction l as [|x l IH]; intros s; cbn; [reflexivity|]. destruct (keep x); cbn; now rewrite IH. Qed.
Lemma filter_at l : forall s, filter (fun kv => keep (snd kv)) (combine (map at_pos (seq s (length l))) l) = combine (map at_pos (kept_at keep s l)) (filter keep l).
Proof. induction l as [|x l IH]; intros s; cbn [length seq map combine filter snd kept_at]; [reflexivity|]. destruct (keep x); cbn [map combine]; now rewrite IH. Qed.
Lemma nth_seq {X} (d : X) L : map (fun i => nth i L d) (seq 0 (length L)) = L.
Proof. induction L as [|x L IH]; cbn [length seq map nth]; [reflexivity|]. f_equal. rewrite <- seq_shift, map_map. exact IH. Qed.
Lemma rekey_combine {X} f ks (l : list X) : rekey f (combine ks l) = combine (map f ks) l.
Proof. revert l. induction ks as [|k ks IH]; intros [|x l]; cbn; auto. now rewrite <- IH. Qed.
Lemma number_kept (l : list val) : filter (fun kv => keep (snd kv)) (number l) = rekey (origin keep l) (number (filter keep l)).
Proof.
  unfold number. rewrite filter_at, rekey_combine. f_equal. rewrite map_map, <- (kept_at_length l 0). cbn [origin]. rewrite <- (nth_seq 0 (kept_at keep 0 l)) at 1. rewrite map_map.
  apply map_ext. intros i. now rewrite Nat2Z.id.
Qed.
Lemma val_at_in (l : list (elem * val)) k v : NoDup (map fst l) -> In (k, v) l -> val_at l k = Ok v.
Proof.
  unfold val_at. induction l as [|[j w] l IH]; cbn [map fst dict_get]; intros N I; [destruct I|]. apply NoDup_cons_iff in N as [Nj N]. destruct I as [E|I].
  - injection E as -> ->. now rewrite (proj2 (elem_eqb_iff k k) eq_refl).
  - destruct (elem_eqb j k) eqn:Z; [|now apply IH]. apply elem_eqb_iff in Z. subst j. exfalso. apply Nj. apply in_map_iff. now exists (k, v).
Qed.
Lemma number_nodup (l : list val) : NoDup (map fst (number l)).
Proof. rewrite number_fst. apply FinFun.Injective_map_NoDup; [|apply seq_NoDup]. intros i j E. injection E. lia. Qed.
Lemma val_origin (l : list val) k : In k (map fst (number (filter keep l))) -> val_at (number l) (origin keep l k) = val_at (number (filter keep l)) k.
Proof.
  intros I. apply in_map_iff in I as ([k' v] & <- & I). cbn [fst]. rewrite (val_at_in _ k' v (number_nodup _) I). apply val_at_in; [apply number_nodup|].
  assert (J : In (origin keep l k', v) (rekey (origin keep l) (number (filter keep l)))) by (unfold rekey; apply in_map_iff; now exists (k', v)).
  rewrite <- number_kept in J. now apply filter_In in J.
Qed.

Hypothesis empty : o_empty_items opt = true.
Hypothesis unmoved : o_moved opt = false.
Notation kept := (kept opt record_id).
Lemma ids_origin d l : kept d (number l) = filter (fun kv => keep (snd kv)) (number l) ->
  id_keys d None [] (number l) = match id_keys d None [] (number (filter keep l)) with Ok r => Ok (rekey (origin keep l) r) | Err e => Err e end.
Proof.
  intros K. rewrite <- (ids_kept hashable opt record_id empty d [] (number l)), K, number_kept. apply ids_rekey.
Qed.
Lemma lists_renumbered n c d sa sb la lb : ValModel.item W c = IRec d -> (forall p, In p (props W c) -> p_compare_as p = None) ->
  kept d (number la) = filter (fun kv => keep (snd kv)) (number la) -> kept d (number lb) = filter (fun kv => keep (snd kv)) (number lb) ->
  diff n (VLC c sa la) (VLC c sb lb) [] [] = mp (entry_origin keep la lb) (diff n (VLC c sa (filter keep la)) (VLC c sb (filter keep lb)) [] []).
Proof.
  intros Ei Nc Ka Kb. destruct n as [|n]; [reflexivity|]. cbn [DiffModel.diff]. unfold DiffModel.dispatch, DiffModel.collection_iter. cbn [is_nothing class_of]. rewrite Ei.
  rewrite (records_map (diff n) (diff n) d (VLC c sa la) (VLC c sb lb) (VLC c sa (filter keep la)) (VLC c sb (filter keep lb))
    (number la) (number lb) (number (filter keep la)) (number (filter keep lb)) [] [] [] [] (origin keep la) (origin keep lb) (entry_origin keep la lb));
    auto using ids_origin, val_origin; try reflexivity; try (intros E; discriminate E).
  2: { intros u v k j. cbn [app]. rewrite (diff_prefix n u v [_] [_]), (diff_prefix n u v [k] [j]), mp_mp. apply mp_ext. intros [[t p] q]. reflexivity. }
  destruct (records_iter (diff n) d (VLC c sa (filter keep la)) (VLC c sb (filter keep lb)) [] []) as [l|]; cbn [mp bind]; [|reflexivity].
  assert (R : record_iter (diff n) (VLC c sa la) (VLC c sb lb) [] [] = mp (entry_origin keep la lb) (record_iter (diff n) (VLC c sa (filter keep la)) (VLC c sb (filter keep lb)) [] [])).
  { unfold DiffModel.record_iter. cbn [is_nothing types_match class_of]. destruct (_ && _ && _); [reflexivity|]. apply mp_concat. intros p Ip.
    apply (Permutation_in _ (all_properties_perm W c)) in Ip.
    replace (slot_diff (diff n) (VLC c sa la) (VLC c sb lb) [] [] p) with (slot_diff (diff n) (VLC c sa (filter keep la)) (VLC c sb (filter keep lb)) [] [] p)
      by (unfold DiffModel.slot_diff, normalize_slot; rewrite (Nc p Ip); reflexivity).
    destruct (slot_diff (diff n) (VLC c sa (filter keep la)) _ [] [] p) as [m|] eqn:Em; cbn [mp]; [|reflexivity]. f_equal. rewrite <- (map_id m) at 1. apply map_ext_in. intros [[t x] y] I.
    destruct (slot_under ceqb veqb opt (diff n) (diff_under W ceqb veqb hashable repr a_hash a_falsy a_items opt record_id ord n) _ _ [] [] p m Em t x y I) as (p' & q' & -> & ->). reflexivity. }
  rewrite R. destruct (record_iter (diff n) (VLC c sa (filter keep la)) _ [] []); cbn [mp bind]; [|reflexivity]. now rewrite map_app.
  intros [[t p] q]. reflexivity.
Qed.
End Renum.
