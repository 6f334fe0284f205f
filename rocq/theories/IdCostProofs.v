From Coq Require Import List Arith NArith ZArith Bool Lia Permutation.
From Verif Require Import Prelude SelPathModel FSModel PySeq MFSModel ValModel EqModel IdCostModel IdCostSpec.
Import ListNotations.

Lemma later_fst {X Y} (m : tally X) (f : X -> tally Y) :
  fst (later m f) = match fst m with Ok x => fst (f x) | Err e => Err e end.
Proof. destruct m as [[x|e] n]; cbn; auto. now destruct (f x). Qed.
Lemma mapT_fst {X Y} (f : X -> tally Y) g l : (forall x, fst (f x) = g x) -> fst (mapT f l) = mapM g l.
Proof.
  intros E. induction l as [|x l IH]; cbn; auto. rewrite later_fst, E. destruct (g x); auto. rewrite later_fst, IH.
  now destruct (mapM g l).
Qed.

Lemma later_ok {X Y} (m : tally X) (f : X -> tally Y) y : fst (later m f) = Ok y ->
  exists x, fst m = Ok x /\ fst (f x) = Ok y /\ snd (later m f) = snd m + snd (f x).
Proof.
  destruct m as [[x|e] n]; cbn; [|discriminate]. intros E. exists x. destruct (f x) as [r k]. cbn in *. auto.
Qed.
Lemma mapT_ok {X Y} (f : X -> tally Y) l ys : fst (mapT f l) = Ok ys ->
  Forall2 (fun x y => fst (f x) = Ok y) l ys /\ snd (mapT f l) = list_sum (map (fun x => snd (f x)) l).
Proof.
  revert ys. induction l as [|x l IH]; cbn [mapT]; intros ys E.
  - injection E as <-. auto.
  - apply later_ok in E as (y & E1 & E2 & ->). apply later_ok in E2 as (ys' & E2 & E3 & ->).
    apply IH in E2 as [F S]. cbn in E3. injection E3 as <-. split; [auto|]. rewrite S. unfold done, list_sum; cbn. lia.
Qed.
Lemma sum_le {X} (f g : X -> nat) l : (forall x, In x l -> f x <= g x) -> list_sum (map f l) <= list_sum (map g l).
Proof.
  induction l as [|x l IH]; intros E; auto. specialize (IH (fun y I => E y (or_intror I))).
  specialize (E x (or_introl eq_refl)). unfold list_sum in *. cbn. lia.
Qed.
Lemma sum_perm {X} (f : X -> nat) l m : Permutation l m -> list_sum (map f l) = list_sum (map f m).
Proof. unfold list_sum. induction 1; cbn in *; lia. Qed.
(** With distinct names, what is read from the slots is there *)
Lemma read_sum {X} (f : X -> nat) (sl : list (str * X)) ns : NoDup ns ->
  list_sum (map (fun n => match dict_get str_eqb sl n with Some u => f u | None => 0 end) ns) <= list_sum (map (fun kv => f (snd kv)) sl).
Proof.
  intros N. induction sl as [|[k x] sl IH]; cbn [dict_get map list_sum fold_right].
  - clear N. induction ns; cbn; auto.
  - cbn [snd]. set (g := fun n => match dict_get str_eqb sl n with Some u => f u | None => 0 end) in *.
    assert (G : list_sum (map (fun n => match (if str_eqb k n then Some x else dict_get str_eqb sl n) with Some u => f u | None => 0 end) ns)
                <= f x + list_sum (map g ns)).
    { clear IH. induction ns as [|n ns IH]; cbn; [lia|]. inversion N as [|? ? N1 N2]; subst.
      destruct (str_eqb k n) eqn:E.
      - apply str_eqb_eq in E. subst k.
        assert (R : map (fun m => match (if str_eqb n m then Some x else dict_get str_eqb sl m) with Some u => f u | None => 0 end) ns = map g ns).
        { apply map_ext_in. intros m I. destruct (str_eqb n m) eqn:E; auto. apply str_eqb_eq in E. subst. contradiction. }
        rewrite R. unfold list_sum in *. lia.
      - specialize (IH N2). fold (g n). unfold list_sum in *. lia. }
    unfold list_sum in *. cbn. lia.
Qed.

Section Proofs.
Context {A C H : Type}.
Variable W : classes A C.
Variable sort_items : list (elem * val A C) -> list (elem * val A C).
Variable alien_atom : C -> A -> res (list (elem * val A C)).
Variable a_hash : A -> bool.
Variable ahash : A -> res H.
Variables hnothing hnone : H.
Variable htext : str -> H.
Variable htuple : list H -> H.
Notation rid := (rid W sort_items alien_atom a_hash ahash hnothing hnone htext htuple).
Notation hash := (hash W sort_items alien_atom a_hash ahash hnothing hnone htext htuple).
Notation ridc := (ridc W sort_items alien_atom a_hash ahash hnothing hnone htext htuple).
Notation hashc := (hashc W sort_items alien_atom a_hash ahash hnothing hnone htext htuple).

Lemma best_fst (id : C -> tally (val A C)) (g : C -> res (val A C)) vts : (forall d, fst (id d) = g d) -> forall st,
  fst (best_of id vts st) =
  fold_left (fun acc vt =>
    do (vp, cnt) <- acc;
    match vt with
    | None => Ok (vp, cnt)
    | Some d =>
        do i <- g d;
        match i with
        | VSeq _ l =>
            let k := length (filter not_none l) in
            if Nat.eqb (length vp) 0 || Nat.ltb cnt k then Ok (l, k) else Ok (vp, cnt)
        | _ => Err TypeErr
        end
    end) vts (fst st).
Proof.
  intros E. unfold best_of. induction vts as [|vt vts IH]; intros st; cbn [fold_left]; auto.
  rewrite IH. f_equal. rewrite later_fst. destruct (fst st) as [[vp cnt]|e]; auto.
  destruct vt as [d|]; auto. rewrite later_fst, E. destruct (g d) as [i|e]; auto.
  destruct i as [| | | |tup l| | | |]; auto. cbn -[Nat.eqb Nat.ltb]. destruct (Nat.eqb (length vp) 0 || Nat.ltb cnt (length (filter not_none l))); reflexivity.
Qed.

Lemma counted n : (forall f ty sel v, fst (ridc n f ty sel v) = rid n f ty sel v) /\ (forall v, fst (hashc n v) = hash n v).
Proof.
  induction n as [|n [IH1 IH2]]; [split; reflexivity|]. split.
  - intros f ty sel v. cbn [IdCostModel.ridc EqModel.rid]. unfold tick. cbn [fst].
    destruct (match ty with RAuto => match class_of v with Some c => RClass c | None => RPlain end | _ => ty end) as [|c|]; auto.
    cbn zeta.
    set (pk := if sel_true sel && _ then [] else _).
    assert (L : forall ps, fst (mapT (fun p =>
                  let u := normal f (match slot v (p_name p) with Some u => u | None => VNone end) p v in
                  let u0 := normal f VNone p v in
                  match p_valuetype p with
                  | Some vts =>
                      if is_same u u0 then done (Ok u)
                      else
                        later (best_of (fun d => ridc n f (RClass d)
                                       (if sel_true sel then sel_item sel (EStr (p_name p)) else None) u) vts (done (Ok ([], 0))))
                          (fun best =>
                        let i := match fst best with [] => u | l => VSeq true l end in
                        match hashc n i with
                        | (Ok _, k) => (Ok i, k)
                        | (Err e, k) => (Err (if is_type_error e then KeyHashError else e), k)
                        end)
                  | None => done (Ok u)
                  end) ps) = mapM (fun p =>
                  let u := normal f (match slot v (p_name p) with Some u => u | None => VNone end) p v in
                  let u0 := normal f VNone p v in
                  match p_valuetype p with
                  | Some vts =>
                      if is_same u u0 then Ok u
                      else
                        do best <- fold_left (fun acc vt =>
                            do (vp, cnt) <- acc;
                            match vt with
                            | None => Ok (vp, cnt)
                            | Some d =>
                                do i <- rid n f (RClass d) (if sel_true sel then sel_item sel (EStr (p_name p)) else None) u;
                                match i with
                                | VSeq _ l =>
                                    let k := length (filter not_none l) in
                                    if Nat.eqb (length vp) 0 || Nat.ltb cnt k then Ok (l, k) else Ok (vp, cnt)
                                | _ => Err TypeErr
                                end
                            end) vts (Ok ([], 0));
                        let i := match fst best with [] => u | l => VSeq true l end in
                        match hash n i with
                        | Ok _ => Ok i
                        | Err e => Err (if is_type_error e then KeyHashError else e)
                        end
                  | None => Ok u
                  end) ps).
    { intros ps. apply mapT_fst. intros p. cbn zeta. destruct (p_valuetype p) as [vts|]; auto.
      destruct (is_same _ _); auto. rewrite later_fst.
      erewrite best_fst by (intros d; apply IH1). cbn [fst done].
      destruct (fold_left _ vts _) as [best|e]; auto. cbn zeta.
      unfold bind. rewrite <- IH2. now destruct (hashc n _) as [[?|?] ?]. }
    assert (K : forall gen, fst (later (if sel_true sel then
                           mapT (fun kv => ridc n f (item_rtype W c) (sel_item sel (fst kv)) (snd kv))
                                (filter (fun kv => sel_true (sel_path sel (fst kv))) gen)
                         else mapT (fun kv => ridc n f (item_rtype W c) None (snd kv)) gen) (fun ids => done (Ok (VSeq true ids))))
              = do ids <- (if sel_true sel then
                           mapM (fun kv => rid n f (item_rtype W c) (sel_item sel (fst kv)) (snd kv))
                                (filter (fun kv => sel_true (sel_path sel (fst kv))) gen)
                         else mapM (fun kv => rid n f (item_rtype W c) None (snd kv)) gen); Ok (VSeq true ids)).
    { intros gen. rewrite later_fst. destruct (sel_true sel); (erewrite mapT_fst; [|intros; apply IH1]); now destruct (mapM _ _). }
    destruct pk as [|p0 pk']; [destruct (kind W c)|].
    + rewrite later_fst, L. now destruct (mapM _ _).
    + rewrite later_fst. cbn [done fst]. destruct (match tuples v with Some l => Ok l | None => _ end) as [gen|e]; [exact (K gen)|reflexivity].
    + rewrite later_fst. cbn [done fst]. destruct (match tuples v with Some l => Ok l | None => _ end) as [gen|e]; [exact (K gen)|reflexivity].
    + rewrite later_fst, L. now destruct (mapM _ _).
  - intros v. cbn [IdCostModel.hashc EqModel.hash]. destruct v; auto.
    + destruct tup; auto. rewrite later_fst. erewrite mapT_fst by (intros; apply IH2). now destruct (mapM _ _).
    + change (fst (later (ridc n None (RClass c) None (VRec c sl)) (fun i => hashc n i)) = do i <- rid n None (RClass c) None (VRec c sl); hash n i).
      rewrite later_fst, IH1. destruct (rid n None (RClass c) None _); [cbn [bind]; apply IH2|reflexivity].
Qed.


Notation simple := (@simple A C).
Lemma hash_free n : forall v, simple v -> snd (hashc n v) = 0.
Proof.
  induction n as [|n IH]; intros v S; auto. inversion S; subst; cbn [IdCostModel.hashc]; auto.
  destruct b; auto.
  match goal with |- snd (later ?m _) = _ => assert (Z : snd m = 0) end.
  { clear S. induction l as [|x l IHl]; auto. cbn [mapT].
    assert (Zx := IH x (H0 x (or_introl eq_refl))). assert (Zl := IHl (fun y I => H0 y (or_intror I))).
    change (snd (later (hashc n x) (fun y => later (mapT (hashc n) l) (fun ys => done (Ok (y :: ys))))) = 0).
    destruct (hashc n x) as [[h|e] k]; cbn in Zx; subst k; auto. cbn.
    change (snd (mapT (hashc n) l) = 0) in Zl. destruct (mapT (hashc n) l) as [[hs|e] k]; cbn in *; subst; auto. }
  match goal with |- snd (later ?m _) = _ => destruct m as [[hs|e] k]; cbn in *; subst; auto end.
Qed.

Lemma best_none id vts st : (forall d, ~ In (Some d) vts) -> best_of (A := A) (C := C) id vts st = (fst st, snd st).
Proof.
  unfold best_of. revert st. induction vts as [|[d|] vts IH]; intros st N; cbn [fold_left].
  - now destruct st.
  - destruct (N d); cbn; auto.
  - rewrite IH by (intros d I; apply (N d); now right). destruct st as [[[vp cnt]|e] k];  cbn; auto; try now rewrite Nat.add_0_r.
Qed.
Lemma best_app id l m st : best_of (A := A) (C := C) id (l ++ m) st = best_of id m (best_of id l st).
Proof. unfold best_of. apply fold_left_app. Qed.
Lemma best_one id l d m b : (forall x, In x (l ++ m) -> x = None) ->
  fst (best_of (A := A) (C := C) id (l ++ Some d :: m) (done (Ok ([], 0)))) = Ok b ->
  exists tup ids, fst (id d) = Ok (VSeq tup ids) /\ fst b = ids /\
    snd (best_of id (l ++ Some d :: m) (done (Ok ([], 0)))) = snd (id d).
Proof.
  intros N. rewrite best_app. rewrite (best_none _ l).
  2:{ intros d' I. assert (Z : Some d' = None) by (apply N, in_or_app; auto). discriminate Z. }
  cbn [fst snd done]. change (Some d :: m) with ([Some d] ++ m). rewrite best_app.
  rewrite (best_none _ m).
  2:{ intros d' I. assert (Z : Some d' = None) by (apply N, in_or_app; auto). discriminate Z. }
  unfold best_of. cbn [fold_left fst snd]. intros E. apply later_ok in E as ([vp cnt] & E1 & E2 & ->).
  cbn in E1. injection E1 as <- <-. apply later_ok in E2 as (i & E2 & E3 & ->).
  destruct i as [| | | |tup ids| | | |]; try discriminate E3. cbn in E3. injection E3 as <-. exists tup, ids. cbn. repeat split; auto; lia.
Qed.

Lemma insert_perm p l : Permutation (insert_prop p l) (p :: l) (A := prop A C).
Proof.
  induction l as [|q l IH]; cbn; auto. destruct (str_ltb _ _); auto.
  rewrite IH. apply perm_swap.
Qed.
Lemma sorted_perm c : Permutation (sorted_properties W c) (filter (fun p => negb (p_extraneous p)) (props W c)).
Proof.
  unfold sorted_properties.
  assert (G : forall l acc, Permutation (fold_left (fun acc p => insert_prop p acc) l acc) (l ++ acc) (A := prop A C)).
  { induction l as [|p l IH]; intros acc; cbn; auto. rewrite IH, insert_perm. now rewrite Permutation_middle. }
  rewrite G. now rewrite app_nil_r.
Qed.
Lemma nodup_filter (f : prop A C -> bool) l : NoDup (map p_name l) -> NoDup (map p_name (filter f l)).
Proof.
  induction l as [|p l IH]; cbn; auto. intros N. inversion N as [|? ? N1 N2]; subst. destruct (f p); cbn; auto. constructor; auto.
  intros I. apply N1. apply in_map_iff in I as (q & E & I). apply filter_In in I as [I _]. rewrite <- E. now apply in_map.
Qed.

Lemma slots_size (v : val A C) ns : NoDup ns ->
  S (list_sum (map (fun n => match slot v n with Some u => size u | None => 0 end) ns)) <= size v.
Proof.
  intros N.
  assert (Z : list_sum (map (fun _ : str => 0) ns) = 0) by (clear; induction ns; auto).
  destruct v; cbn [slot size]; try (rewrite Z; lia); pose proof (read_sum size sl ns N); lia.
Qed.

(** One field of an identity *)
Definition field n v (p : prop A C) : tally (val A C) :=
  let u := match slot v (p_name p) with Some u => u | None => VNone end in
  match p_valuetype p with
  | Some vts =>
      if is_same u VNone then done (Ok u)
      else
        later (best_of (fun d => ridc n None (RClass d) None u) vts (done (Ok ([], 0))))
          (fun best =>
        let i := match fst best with [] => u | l => VSeq true l end in
        match hashc n i with
        | (Ok _, k) => (Ok i, k)
        | (Err e, k) => (Err (if is_type_error e then KeyHashError else e), k)
        end)
  | None => done (Ok u)
  end.

Lemma ridc_S n c v : ridc (S n) None (RClass c) None v = tick
  match pkey W c, kind W c with
  | [], KList | [], KDict =>
      later (done match tuples v with Some l => Ok l | None => alien_tuples W sort_items alien_atom c v end)
        (fun gen => later (mapT (fun kv => ridc n None (item_rtype W c) None (snd kv)) gen) (fun ids => done (Ok (VSeq true ids))))
  | [], KRec => later (mapT (field n v) (sorted_properties W c)) (fun ids => done (Ok (VSeq true ids)))
  | ps, _ => later (mapT (field n v) ps) (fun ids => done (Ok (VSeq true ids)))
  end.
Proof. cbn [IdCostModel.ridc sel_true andb]. destruct (pkey W c), (kind W c); reflexivity. Qed.

(** Something is identified; nothing, for collections only *)
Definition solid (l : list (val A C)) (v : val A C) := l <> [] \/ tuples v = Some [].

Lemma hash_coll n v : tuples v = Some [] -> n <> 0 -> exists k, hashc n v = (Err TypeErr, k).
Proof. destruct n; [congruence|]. destruct v; cbn; try discriminate; intros; eexists; reflexivity. Qed.

Lemma field_cost n v p i :
  (forall d u i, plainly W d u -> fst (ridc n None (RClass d) None u) = Ok i ->
     snd (ridc n None (RClass d) None u) <= size u /\ exists l, i = VSeq true l /\ simple i /\ (l <> [] \/ exists k, hashc n u = (Err TypeErr, k))) ->
  (forall u, slot v (p_name p) = Some u -> u <> VNone -> no_class p /\ simple u \/ exists d, only_class p d /\ plainly W d u) ->
  fst (field n v p) = Ok i ->
  simple i /\ snd (field n v p) <= match slot v (p_name p) with Some u => size u | None => 0 end.
Proof.
  intros IH T. unfold field. destruct (slot v (p_name p)) as [u|] eqn:Es.
  2:{ destruct (p_valuetype p); cbn; intros E; injection E as <-; split; auto; constructor. }
  specialize (T u eq_refl).
  assert (D : u = VNone \/ u <> VNone) by (destruct u; auto; right; discriminate).
  destruct D as [->|D].
  { destruct (p_valuetype p); cbn; intros E; injection E as <-; split; auto; constructor. }
  specialize (T D).
  assert (Ns : is_same u VNone = false) by (destruct u; auto; congruence).
  rewrite Ns. clear Ns. destruct (p_valuetype p) as [vts|] eqn:Ev.
  2:{ cbn. intros E; injection E as <-. destruct T as [[_ S]|(d & (l & m & O & _) & _)]; [split; auto; lia|congruence]. }
  intros E. apply later_ok in E as (best & E1 & E2 & ->).
  destruct T as [[Nc S]|(d & (l & m & O & N) & P)].
  - rewrite best_none in * by (intros d I; apply (Nc vts d Ev I)). cbn [fst snd done] in *. injection E1 as <-. cbn [fst] in *.
    pose proof (hash_free n u S) as Z. destruct (hashc n u) as [[h|e] k]; cbn in *; [|discriminate]. injection E2 as <-. split; auto. lia.
  - rewrite O in Ev. injection Ev as <-. apply best_one in E1 as (tup & ids & E1 & E3 & ->); auto.
    destruct (IH d u _ P E1) as (B & l' & El & S & Q). injection El as -> <-. rewrite E3 in *.
    destruct ids as [|x ids].
    { destruct Q as [Q|(k & Q)]; [congruence|]. rewrite Q in E2. discriminate E2. }
    pose proof (hash_free n _ S) as Z. destruct (hashc n _) as [[h|e] k]; cbn in *; [|discriminate]. injection E2 as <-. split; auto. lia.
Qed.

Lemma record_cost n v ps i :
  (forall p i, In p ps -> fst (field n v p) = Ok i -> simple i /\ snd (field n v p) <= match slot v (p_name p) with Some u => size u | None => 0 end) ->
  NoDup (map p_name ps) -> ps <> [] ->
  fst (tick (later (mapT (field n v) ps) (fun ids => done (Ok (VSeq true ids))))) = Ok i ->
  snd (tick (later (mapT (field n v) ps) (fun ids => done (Ok (VSeq true ids))))) <= size v /\
  exists l, i = VSeq true l /\ simple i /\ l <> [].
Proof.
  intros F N Ne. unfold tick. cbn [fst snd]. intros E. apply later_ok in E as (ids & E1 & E2 & ->).
  cbn in E2. injection E2 as <-. apply mapT_ok in E1 as [E1 ->]. cbn [snd done]. rewrite Nat.add_0_r. split.
  - etransitivity; [|apply (slots_size v (map p_name ps) N)]. apply le_n_S. rewrite map_map. clear Ne N.
    revert F. induction E1 as [|p y ps ys E G IH]; intros F; cbn; auto.
    specialize (IH (fun q j I => F q j (or_intror I))). destruct (F p y (or_introl eq_refl) E) as [_ B]. unfold list_sum in *. lia.
  - exists ids. split; auto. split; [|destruct E1; congruence]. constructor. clear Ne N.
    revert F. induction E1 as [|p y ps ys E G IH]; intros F x I; [destruct I|]. destruct I as [<-|I].
    + apply (F p y); cbn; auto.
    + apply IH; auto. intros q j J. apply F. now right.
Qed.

Lemma number_snd {X} (l : list X) : map snd (number l) = l.
Proof.
  unfold number. generalize 0. induction l as [|x l IH]; intros k; cbn; auto. now rewrite IH.
Qed.
Lemma tuples_size (v : val A C) l : tuples v = Some l -> S (list_sum (map (fun kv => size (snd kv)) l)) <= size v.
Proof.
  destruct v; cbn; try discriminate; intros E; injection E as <-.
  - rewrite <- (map_map snd size), number_snd. lia.
  - lia.
Qed.

Lemma items_cost n c v l i :
  (forall k x i, In (k, x) l -> fst (ridc n None (item_rtype W c) None x) = Ok i ->
     simple i /\ snd (ridc n None (item_rtype W c) None x) <= size x) ->
  tuples v = Some l ->
  fst (tick (later (done (Ok l)) (fun gen => later (mapT (fun kv => ridc n None (item_rtype W c) None (snd kv)) gen) (fun ids => done (Ok (VSeq true ids)))))) = Ok i ->
  snd (tick (later (done (Ok l)) (fun gen => later (mapT (fun kv => ridc n None (item_rtype W c) None (snd kv)) gen) (fun ids => done (Ok (VSeq true ids)))))) <= size v /\
  exists ids, i = VSeq true ids /\ simple i /\ (ids <> [] \/ l = []).
Proof.
  intros F Tv. unfold tick. cbn [fst snd]. intros E. apply later_ok in E as (gen & E0 & E & ->). cbn in E0. injection E0 as <-.
  apply later_ok in E as (ids & E1 & E2 & ->). cbn in E2. injection E2 as <-. apply mapT_ok in E1 as [E1 ->].
  cbn [snd done]. rewrite Nat.add_0_r. cbn [Nat.add]. split.
  - etransitivity; [|apply (tuples_size v l Tv)]. apply le_n_S. clear Tv. revert F.
    induction E1 as [|[k x] y l ys E G IH]; intros F; cbn; auto. cbn [snd] in E.
    assert (F' : forall k x i, In (k, x) l -> fst (ridc n None (item_rtype W c) None x) = Ok i -> simple i /\ snd (ridc n None (item_rtype W c) None x) <= size x) by (intros q j z I; apply (F q j z); now right).
    specialize (IH F'). destruct (F k x y (or_introl eq_refl) E) as [_ B]. unfold list_sum in *. lia.
  - exists ids. split; auto. split; [|destruct E1; [auto|left; congruence]]. constructor. clear Tv. revert F.
    induction E1 as [|[k x] y l ys E G IH]; intros F z I; [destruct I|]. cbn [snd] in E. destruct I as [<-|I].
    + apply (F k x y); cbn; auto.
    + apply IH; auto. intros q j w J. apply (F q). now right.
Qed.

Theorem once n : forall c v i, plainly W c v -> fst (ridc n None (RClass c) None v) = Ok i ->
  snd (ridc n None (RClass c) None v) <= size v /\
  exists l, i = VSeq true l /\ simple i /\ (l <> [] \/ exists k, hashc n v = (Err TypeErr, k)).
Proof.
  induction n as [|n IH]; intros c v i P; [discriminate|]. rewrite ridc_S.
  inversion P as [c' v' K Ne N F|c' v' l d K Ek Ei Et F|c' v' l K Ek Ei Et F]; subst c' v'.
  - assert (IH' : forall d u i, plainly W d u -> fst (ridc n None (RClass d) None u) = Ok i ->
     snd (ridc n None (RClass d) None u) <= size u /\ exists l, i = VSeq true l /\ simple i /\ (l <> [] \/ exists k, hashc n u = (Err TypeErr, k))).
    { intros d u j Pu E. now apply IH. }
    assert (G : forall ps, (forall p, In p ps -> identifies W c p) -> NoDup (map p_name ps) -> ps <> [] ->
      fst (tick (later (mapT (field n v) ps) (fun ids => done (Ok (VSeq true ids))))) = Ok i ->
      snd (tick (later (mapT (field n v) ps) (fun ids => done (Ok (VSeq true ids))))) <= size v /\
      exists l, i = VSeq true l /\ simple i /\ (l <> [] \/ exists k, hashc (S n) v = (Err TypeErr, k))).
    { intros ps I Np Nn E. apply record_cost in E as (B & l & -> & S & L); auto.
      - split; auto. exists l. auto.
      - intros p j Ip Ej. apply field_cost; auto. }
    unfold identifies in *. unfold distinct_names in N. destruct (pkey W c) as [|p0 pk] eqn:Ep.
    + destruct K as [K|K]; [|congruence]. rewrite K. apply G.
      * intros p I. apply (Permutation_in _ (sorted_perm c)) in I. apply filter_In in I as [I1 I2]. split; auto. now apply negb_true_iff.
      * eapply Permutation_NoDup; [apply Permutation_map, Permutation_sym, sorted_perm|]. now apply nodup_filter.
      * destruct Ne as (p & I1 & I2). intros Z. assert (I : In p (sorted_properties W c)).
        { apply (Permutation_in _ (Permutation_sym (sorted_perm c))). apply filter_In. split; auto. now rewrite I2. }
        rewrite Z in I. destruct I.
    + destruct (kind W c); apply G; auto; discriminate.
  - rewrite Ek, Et. assert (X : forall k x j, In (k, x) l -> fst (ridc n None (item_rtype W c) None x) = Ok j ->
       simple j /\ snd (ridc n None (item_rtype W c) None x) <= size x).
    { intros k x j I E. unfold item_rtype in *. rewrite Ei in *. destruct (IH d x j (F k x I) E) as (B & l' & -> & S & _). auto. }
    destruct K as [K|K]; rewrite K; intros E; apply (items_cost n c v l i X Et) in E;
      destruct E as (B & ids & Eids & S & L); (split; [auto|]); exists ids; (split; [auto|]); (split; [auto|]);
      destruct L as [L| ->]; auto; right; apply hash_coll; auto.
  - rewrite Ek, Et. assert (X : forall k x j, In (k, x) l -> fst (ridc n None (item_rtype W c) None x) = Ok j ->
       simple j /\ snd (ridc n None (item_rtype W c) None x) <= size x).
    { intros k x j I E. specialize (F k x I).
      assert (Ec : class_of x = None) by (inversion F; auto).
      assert (R : fst (ridc n None (item_rtype W c) None x) = Ok x /\ snd (ridc n None (item_rtype W c) None x) <= 1).
      { unfold item_rtype in *. destruct n; [discriminate E|].
        destruct (item W c) as [|d|]; [|now destruct (Ei d)|]; cbn [IdCostModel.ridc] in *; [rewrite Ec in *|]; cbn in *;
        (destruct (has_hash a_hash x); [auto|discriminate E]). }
      destruct R as [R1 R2]. rewrite R1 in E. injection E as <-. split; auto.
      assert (1 <= size x) by (destruct x; cbn; lia). lia. }
    destruct K as [K|K]; rewrite K; intros E; apply (items_cost n c v l i X Et) in E;
      destruct E as (B & ids & Eids & S & L); (split; [auto|]); exists ids; (split; [auto|]); (split; [auto|]);
      destruct L as [L| ->]; auto; right; apply hash_coll; auto.
Qed.
End Proofs.
