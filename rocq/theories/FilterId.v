(** Identity of records under a selector. *)
From Coq Require Import List Arith NArith ZArith Bool Lia Permutation.
From Verif Require Import Prelude SelPathModel FSModel PySeq MFSModel MFSProofs ValModel EqModel EqProofs HashProofs DiffExact DiffSwap DiffFilter.
Import ListNotations.

Section Id.
Context {A C H : Type}.
Variable W : classes A C.
Notation val := (val A C).
Notation prop := (prop A C).
Variable sort_items : list (elem * val) -> list (elem * val).
Variable alien_atom : C -> A -> res (list (elem * val)).
Variable a_hash : A -> bool.
Variable ahash : A -> res H.
Variables hnothing hnone : H.
Variable htext : str -> H.
Variable htuple : list H -> H.
Notation rid := (rid W sort_items alien_atom a_hash ahash hnothing hnone htext htuple).

Lemma fold_ext {X Y} (f g : X -> Y -> X) l : (forall a y, f a y = g a y) -> forall a, fold_left f l a = fold_left g l a.
Proof. intros E. induction l; intros x; cbn [fold_left]; auto. now rewrite E. Qed.
Lemma mapM_same {X Y} (f g : X -> res Y) l : (forall x, In x l -> f x = g x) -> mapM f l = mapM g l.
Proof.
  induction l as [|x l IH]; intros E; cbn [mapM]; auto. rewrite (E x (or_introl eq_refl)), IH; auto.
  intros y I. apply E. now right.
Qed.

(** [selector[k]] and [selector[(k,)]] of a selector of everything *)
Lemma all_item k : sel_item (Some complete_mfs) k = Some complete_mfs.
Proof. reflexivity. Qed.
Lemma all_path k : sel_path (Some complete_mfs) k = Some complete_mfs.
Proof. reflexivity. Qed.

(** A selector of everything is the same as none. *)
Lemma rid_all n : forall f ty v, rid n f ty (Some complete_mfs) v = rid n f ty None v.
Proof.
  induction n as [|n IH]; intros f ty v; auto. cbn [EqModel.rid].
  destruct (match ty with RAuto => _ | _ => _ end) as [|c|]; auto.
  change (sel_true (Some complete_mfs)) with true. change (sel_true None) with false. cbn [andb].
  replace (forallb (fun p => sel_true (sel_path (Some complete_mfs) (EStr (p_name p)))) (pkey W c)) with true
    by (symmetry; apply forallb_forall; reflexivity). cbn [negb].
  assert (Ps : forall ps, mapM (fun p : prop =>
                  let u := normal f (match slot v (p_name p) with Some u => u | None => VNone end) p v in
                  let u0 := normal f VNone p v in
                  match p_valuetype p with
                  | Some vts =>
                      if is_same u u0 then Ok u
                      else
                        do best <- fold_left (fun acc vt =>
                            do (vp, cnt) <- acc;
                            match vt with
                            | None => Ok (vp, cnt)
                            | Some d =>
                                do i <- rid n f (RClass d) (sel_item (Some complete_mfs) (EStr (p_name p))) u;
                                match i with
                                | VSeq _ l =>
                                    let k := length (filter not_none l) in
                                    if Nat.eqb (length vp) 0 || Nat.ltb cnt k then Ok (l, k) else Ok (vp, cnt)
                                | _ => Err TypeErr
                                end
                            end) vts (Ok ([], 0));
                        let i := match fst best with [] => u | l => VSeq true l end in
                        match EqModel.hash W sort_items alien_atom a_hash ahash hnothing hnone htext htuple n i with
                        | Ok _ => Ok i
                        | Err e => Err (if is_type_error e then KeyHashError else e)
                        end
                  | None => Ok u
                  end) ps = mapM (fun p : prop =>
                  let u := normal f (match slot v (p_name p) with Some u => u | None => VNone end) p v in
                  let u0 := normal f VNone p v in
                  match p_valuetype p with
                  | Some vts =>
                      if is_same u u0 then Ok u
                      else
                        do best <- fold_left (fun acc vt =>
                            do (vp, cnt) <- acc;
                            match vt with
                            | None => Ok (vp, cnt)
                            | Some d =>
                                do i <- rid n f (RClass d) None u;
                                match i with
                                | VSeq _ l =>
                                    let k := length (filter not_none l) in
                                    if Nat.eqb (length vp) 0 || Nat.ltb cnt k then Ok (l, k) else Ok (vp, cnt)
                                | _ => Err TypeErr
                                end
                            end) vts (Ok ([], 0));
                        let i := match fst best with [] => u | l => VSeq true l end in
                        match EqModel.hash W sort_items alien_atom a_hash ahash hnothing hnone htext htuple n i with
                        | Ok _ => Ok i
                        | Err e => Err (if is_type_error e then KeyHashError else e)
                        end
                  | None => Ok u
                  end) ps).
  { intros ps. apply mapM_same. intros p _. cbv zeta. destruct (p_valuetype p) as [vts|]; auto.
    destruct (is_same _ _); auto. f_equal. apply fold_ext. intros [[vp cnt]|] [d|]; cbn [bind]; auto.
    rewrite all_item. now rewrite IH. }
  assert (Fs : forall {X} (g : X -> elem) (l : list X), filter (fun x => sel_true (sel_path (Some complete_mfs) (g x))) l = l).
  { intros X g l. induction l; cbn [filter]; auto. rewrite all_path. change (sel_true (Some complete_mfs)) with true. now rewrite IHl. }
  rewrite (Fs _ (fun p : prop => EStr (p_name p))).
  destruct (pkey W c) as [|p0 pk0]; [destruct (kind W c)|].
  - now rewrite Ps.
  - destruct (match tuples v with Some l => _ | None => _ end) as [g|]; auto. cbn [bind]. rewrite (Fs _ fst).
    f_equal. apply mapM_same. intros kv _. rewrite all_item. now rewrite IH.
  - destruct (match tuples v with Some l => _ | None => _ end) as [g|]; auto. cbn [bind]. rewrite (Fs _ fst).
    f_equal. apply mapM_same. intros kv _. rewrite all_item. now rewrite IH.
  - now rewrite Ps.
Qed.

(** With the whole primary key selected, and made of plain values, the selector has no influence. *)
Lemma rid_pk n f s v c : class_of v = Some c -> pkey W c <> [] ->
  (forall p, In p (pkey W c) -> sel_true (getitem_path s [EStr (p_name p)]) = true /\
     forall vts, p_valuetype p = Some vts -> forall d, ~ In (Some d) vts) ->
  rid n f RAuto (Some s) v = rid n f RAuto None v.
Proof.
  intros Ec Np Hp. destruct n as [|n]; auto. cbn [EqModel.rid]. rewrite Ec.
  change (sel_true (@None mfs)) with false. cbn [andb].
  replace (forallb (fun p => sel_true (sel_path (Some s) (EStr (p_name p)))) (pkey W c)) with true.
  2:{ symmetry. apply forallb_forall. intros p I. now apply Hp. }
  cbn [negb]. rewrite andb_false_r.
  destruct (pkey W c) as [|p0 pk0] eqn:Ek; [congruence|]. f_equal. apply mapM_same. intros p I. cbv zeta.
  destruct (p_valuetype p) as [vts|] eqn:Ev; auto. destruct (is_same _ _); auto. f_equal.
  pose proof (proj2 (Hp p I) vts Ev) as Nd. clear Ev. generalize (@Ok (list val * nat) ([], 0)).
  induction vts as [|[d|] vts IHv]; intros acc; cbn [fold_left]; auto.
  - exfalso. apply (Nd d). now left.
  - apply IHv. intros d I'. apply (Nd d). now right.
Qed.

(** The identity under a selector depends on what is selected only. *)
Lemma rid_selected n f s v v' c : same_type v v' -> class_of v = Some c -> sel_true (Some s) = true ->
  (forall g, f = Some g -> forall p o o' u, In p (props W c) \/ In p (pkey W c) -> g u p o = g u p o') ->
  (forall p, In p (props W c) \/ In p (pkey W c) -> getitem_path s [EStr (p_name p)] <> None ->
     slot v (p_name p) = slot v' (p_name p)) ->
  contents v = contents v' ->
  rid n f RAuto (Some s) v = rid n f RAuto (Some s) v'.
Proof.
  intros T Ec St Hf Hs Hc. destruct n as [|n]; auto. cbn [EqModel.rid].
  assert (Ec' : class_of v' = Some c) by (destruct v, v'; try (destruct T; fail); cbn in *; congruence).
  rewrite Ec, Ec', St. cbn [andb].
  assert (Nz : forall k, sel_true (sel_path (Some s) k) = true -> getitem_path s [k] <> None).
  { intros k X Y. cbn [sel_path] in X. rewrite Y in X. discriminate. }
  assert (Nm : forall p u, In p (props W c) \/ In p (pkey W c) -> normal f u p v = normal f u p v').
  { intros p u I. destruct f as [g|]; auto. }
  assert (Tu : match tuples v with Some l => Ok l | None => alien_tuples W sort_items alien_atom c v end =
               match tuples v' with Some l => Ok l | None => alien_tuples W sort_items alien_atom c v' end).
  { destruct v, v'; try (destruct T; fail); cbn in Ec; try discriminate Ec; cbn [tuples contents] in *; try congruence.
    unfold alien_tuples. destruct (kind W c); reflexivity. }
  rewrite Tu.
  set (pk := if negb _ then [] else pkey W c).
  assert (Spk : forall p, In p pk -> In p (pkey W c) /\ getitem_path s [EStr (p_name p)] <> None).
  { intros p I. unfold pk in I. destruct (forallb _ (pkey W c)) eqn:Fa; cbn [negb] in I; [|destruct I].
    rewrite forallb_forall in Fa. split; [auto|now apply Nz, Fa]. }
  assert (Ps : forall ps (Q : prop -> val -> val -> res val), (forall p, In p ps -> (In p (props W c) \/ In p (pkey W c)) /\ getitem_path s [EStr (p_name p)] <> None) ->
     mapM (fun p => Q p (normal f (match slot v (p_name p) with Some u => u | None => VNone end) p v) (normal f VNone p v)) ps =
     mapM (fun p => Q p (normal f (match slot v' (p_name p) with Some u => u | None => VNone end) p v') (normal f VNone p v')) ps).
  { intros ps Q Hps. apply mapM_same. intros p I. destruct (Hps p I) as [I1 I2]. rewrite <- (Hs p I1 I2), <- !Nm by auto. reflexivity. }
  assert (Hsort : forall p, In p (filter (fun p => sel_true (sel_path (Some s) (EStr (p_name p)))) (sorted_properties W c)) ->
     (In p (props W c) \/ In p (pkey W c)) /\ getitem_path s [EStr (p_name p)] <> None).
  { intros p I. apply filter_In in I as [I1 I2]. split; [left; exact (proj1 (proj1 (sorted_in W (fun _ _ => true) c p) I1))|now apply Nz]. }
  destruct pk as [|p0 pk0] eqn:Epk.
  - destruct (kind W c); auto.
    f_equal. exact (Ps _ (fun p u u0 => match p_valuetype p with
                  | Some vts =>
                      if is_same u u0 then Ok u
                      else
                        do best <- fold_left (fun acc vt =>
                            do (vp, cnt) <- acc;
                            match vt with
                            | None => Ok (vp, cnt)
                            | Some d =>
                                do i <- rid n f (RClass d) (sel_item (Some s) (EStr (p_name p))) u;
                                match i with
                                | VSeq _ l =>
                                    let k := length (filter not_none l) in
                                    if Nat.eqb (length vp) 0 || Nat.ltb cnt k then Ok (l, k) else Ok (vp, cnt)
                                | _ => Err TypeErr
                                end
                            end) vts (Ok ([], 0));
                        let i := match fst best with [] => u | l => VSeq true l end in
                        match EqModel.hash W sort_items alien_atom a_hash ahash hnothing hnone htext htuple n i with
                        | Ok _ => Ok i
                        | Err e => Err (if is_type_error e then KeyHashError else e)
                        end
                  | None => Ok u
                  end) Hsort).
  - f_equal. exact (Ps (p0 :: pk0) (fun p u u0 => match p_valuetype p with
                  | Some vts =>
                      if is_same u u0 then Ok u
                      else
                        do best <- fold_left (fun acc vt =>
                            do (vp, cnt) <- acc;
                            match vt with
                            | None => Ok (vp, cnt)
                            | Some d =>
                                do i <- rid n f (RClass d) (sel_item (Some s) (EStr (p_name p))) u;
                                match i with
                                | VSeq _ l =>
                                    let k := length (filter not_none l) in
                                    if Nat.eqb (length vp) 0 || Nat.ltb cnt k then Ok (l, k) else Ok (vp, cnt)
                                | _ => Err TypeErr
                                end
                            end) vts (Ok ([], 0));
                        let i := match fst best with [] => u | l => VSeq true l end in
                        match EqModel.hash W sort_items alien_atom a_hash ahash hnothing hnone htext htuple n i with
                        | Ok _ => Ok i
                        | Err e => Err (if is_type_error e then KeyHashError else e)
                        end
                  | None => Ok u
                  end) (fun p I => match Spk p I with conj I1 I2 => conj (or_intror I1) I2 end)).
Qed.
End Id.
