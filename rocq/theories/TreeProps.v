(** C04 - C07: reading, writing, creating and deleting through field selectors. *)
From Coq Require Import String List Arith NArith ZArith Bool Lia.
From Verif Require Import Prelude SelPathModel FSModel FSProofs PySeq CollProofs TreeModel TreeProofs.
Import ListNotations.

Section Tree.
Context {A C T : Type}.
Variable a_none : A.
Variable a_key : elem -> A.
Variable a_str : A -> bool.
Variable a_indexable : A -> bool.
Variable a_item : A -> elem -> res A.
Variable a_attr : A -> str -> option A.
Variable a_iter : A -> res (list A).
Variable a_len : A -> Z.
Variable unset : C -> str -> option A.
Variable store : C -> str -> obj A C -> res (obj A C).
Variable erase : C -> str -> bool -> option exn.
Variable istore : C -> obj A C -> res (obj A C).
Variable itemtype : C -> res T.
Variable valuetype : C -> str -> res T.
Variable call : T -> option (str * obj A C) -> res (obj A C).

Notation obj := (obj A C).
Notation get := (get a_none a_key a_str a_indexable a_item a_attr a_iter unset).
Notation get_or_none := (get_or_none a_none a_key a_str a_indexable a_item a_attr a_iter unset).
Notation put := (put a_key a_str a_indexable a_item a_attr a_iter unset store istore).
Notation delete := (delete a_key a_str a_indexable a_item a_attr a_iter unset erase).
Notation post := (post a_key a_str a_indexable a_item a_attr a_iter a_len unset store istore itemtype valuetype call).
Notation slot_stores := (slot_stores store istore).
Notation dict_keys_present := (dict_keys_present a_none a_key a_str a_indexable a_item a_attr a_iter unset).

(** Two selectors part ways: after a common beginning without wildcards they name different
    places (indices not counted from the end).  Whatever follows. *)
Definition part_ways (p q : list elem) : Prop :=
  exists c a b p' q', p = c ++ a :: p' /\ q = c ++ b :: q' /\ Forall named c /\
    plain a /\ plain b /\ a <> b.

(** Of two selectors without wildcards and without negative indices, either one begins with
    the other or they part ways. *)
Theorem C04_part_ways_complete : forall p q, Forall plain p -> Forall plain q ->
  (exists r, q = p ++ r) \/ (exists r, p = q ++ r) \/ part_ways p q.
Proof.
  induction p as [|a p IH]; intros q Hp Hq.
  - left. exists q. reflexivity.
  - destruct q as [|b q].
    + right; left. exists (a :: p). reflexivity.
    + inversion Hp; inversion Hq; subst. destruct (elem_eq_dec a b) as [->|N].
      * destruct (IH q) as [[r ->]|[[r ->]|(c&x&y&p'&q'&->&->&Hc&?&?&?)]]; auto.
        -- left. exists r. reflexivity.
        -- right; left. exists r. reflexivity.
        -- right; right. exists (b :: c), x, y, p', q'. repeat split; auto.
           constructor; auto. intros ->. contradiction.
      * right; right. exists [], a, b, p, q. repeat split; auto.
Qed.

(** ** C04 *)

(** After a put, the selector reads what the place it names keeps of the value. *)
Theorem C04_put_get : forall p s v o o', Forall named (p ++ [s]) ->
  put (p ++ [s]) v o = (None, o') ->
  exists h v', get p o = Ok h /\ slot_stores h s v v' /\ get (p ++ [s]) o' = Ok v'.
Proof.
  intros p s v o o' Hn H. apply Forall_app in Hn as [Hp Hs]. inversion Hs; subst.
  eapply put_get; eauto.
Qed.

(** Where the classes keep values as they are, it reads the value itself. *)
Theorem C04_put_get_same : forall p v o o', Forall named p ->
  (forall c n x, store c n x = Ok x \/ exists e, store c n x = Err e) ->
  (forall c x, istore c x = Ok x \/ exists e, istore c x = Err e) ->
  put p v o = (None, o') -> get p o' = Ok v.
Proof.
  intros p v o o' Hp H1 H2 H. destruct p as [|a t] using rev_ind; [discriminate|].
  apply C04_put_get in H as (h&v'&_&Hs&G); auto. rewrite G. f_equal.
  inversion Hs; subst; auto.
  - destruct (H1 c n v) as [E|[e E]]; congruence.
  - destruct (H2 c v) as [E|[e E]]; congruence.
  - destruct (H2 c v) as [E|[e E]]; congruence.
Qed.

(** A put, also one that fails, also one through wildcards further down, changes nothing a
    selector that parts ways with it can see. *)
Theorem C04_put_frame : forall p q v o r o', part_ways p q ->
  put p v o = (r, o') -> get q o' = get q o.
Proof.
  intros p q v o r o' (c&a&b&p'&q'&->&->&Hc&Pa&Pb&N) H.
  eapply put_frame with (a := a); eauto.
Qed.

Theorem C04_failed_put_changes_nothing : forall p v o e o', Forall named p ->
  put p v o = (Some e, o') -> o' = o.
Proof. intros. eapply put_fail; eauto. Qed.

(** Through a wildcard, put goes through the items in order and stops at the first that
    fails: the ones before it are changed, the ones after it are not. *)
Theorem C04_wildcard_put : forall t v c xs r o', t <> [] ->
  put (ENone :: t) v (OList c xs) = (r, o') ->
  exists pre pre' post, xs = pre ++ post /\ Forall2 (fun x x' => put t v x = (None, x')) pre pre' /\
    match r with
    | None => post = [] /\ o' = OList c pre'
    | Some e => exists x x' rest, post = x :: rest /\ put t v x = (Some e, x') /\
                  o' = OList c (pre' ++ x' :: rest)
    end.
Proof.
  intros t v c xs r o' Ht H. destruct t as [|s u]; [congruence|]. clear Ht.
  set (t := s :: u) in *.
  change (put (ENone :: t) v (OList c xs)) with (let (e, xs') := each (put t v) xs in (e, OList c xs')) in H.
  revert r o' H. induction xs as [|x xs IH]; intros r o' H; cbn [each] in H.
  - inversion H; subst. exists [], [], []. repeat split; auto.
  - destruct (put t v x) as [[e|] x'] eqn:Ex.
    + inversion H; subst. exists [], [], (x :: xs). repeat split; auto. exists x, x', xs. auto.
    + destruct (each (put t v) xs) as [e xs'] eqn:Ee. inversion H; subst.
      destruct (IH r (OList c xs') eq_refl) as (pre&pre'&po&->&F&M).
      exists (x :: pre), (x' :: pre'), po. repeat split; auto. destruct r.
      * destruct M as (y&y'&rest&->&E1&E2). exists y, y', rest. repeat split; auto.
        inversion E2. reflexivity.
      * destruct M as [-> E2]. split; auto. inversion E2. reflexivity.
Qed.

(** A put that ends in a wildcard replaces the contents of a list by what the list keeps of
    the items of the value, or changes nothing. *)
Theorem C04_put_all_items : forall p v o o' c xs vs, Forall named p ->
  get p o = Ok (OList c xs) -> iter a_key a_iter v = Ok vs ->
  put (p ++ [ENone]) v o = (None, o') ->
  exists vs', Forall2 (fun x x' => slot_stores (OList c xs) (EInt 0) x x') vs vs' /\
    get p o' = Ok (OList c vs').
Proof.
  intros p v o o' c xs vs Hp. revert o o'. induction Hp as [|s t Hs Ht IH]; intros o o' G Hv H.
  - simpl in G. inversion G; subst. simpl in H. rewrite Hv in H. cbn [bind] in H.
    destruct (store_all istore c vs) as [vs'|] eqn:E; cbn [bind] in H; [|discriminate].
    inversion H; subst. exists vs'. split; auto. clear - E. revert vs' E.
    induction vs as [|y u IH]; intros vs' E; cbn [store_all] in E.
    + inversion E. constructor.
    + destruct (coll_store istore c y) as [y'|] eqn:Ey; cbn [bind] in E; [|discriminate].
      destruct (store_all istore c u) as [u'|]; cbn [bind] in E; [|discriminate].
      inversion E; subst. constructor; auto. destruct c; simpl in Ey.
      * constructor. exact Ey.
      * inversion Ey. constructor.
  - assert (E : exists y u, t ++ [ENone] = y :: u) by (destruct t; simpl; eauto).
    destruct E as (y&u&E). cbn [app] in H. rewrite E, put_cons in H by auto.
    rewrite get_cons in G by auto.
    destruct (put_step a_str a_indexable a_item a_attr unset o s) as [x|] eqn:Es; [|discriminate].
    apply put_step_ok in Es. rewrite Es in G. cbn [bind] in G. rewrite <- E in H.
    destruct (put (t ++ [ENone]) v x) as [r x'] eqn:Ex. inversion H; subst.
    destruct (IH x x' G Hv Ex) as (vs'&F&G'). exists vs'. split; auto.
    rewrite get_cons by auto. rewrite (step_replace a_str a_indexable a_item a_attr unset o s x x'); auto.
    intros Ha. eapply put_atom_same; eauto.
    all: assumption.
Qed.

(** ** C05 *)

(** get through a wildcard, spelled out: the list of the items' results, with None for the
    items that lack the field; or the first item's exception if every item of a non-empty
    collection lacks it.  Any other exception of an item (a KeyError of a dict, a TypeError)
    escapes. *)
Theorem C05_wildcard_get : forall t o xs, iter a_key a_iter o = Ok xs ->
  (forall x, In x xs -> forall e, get t x = Err e -> is_fs_exc e = true) ->
  match xs with
  | x :: _ =>
      (forall y, In y xs -> exists e, get t y = Err e) ->
      exists e, get t x = Err e /\ get (ENone :: t) o = Err e
  | [] => True
  end /\
  (xs = [] \/ (exists y v, In y xs /\ get t y = Ok v) ->
   get (ENone :: t) o =
   Ok (OList None (map (fun y => match get t y with Ok v => v | Err _ => OAtom a_none end) xs))).
Proof.
  intros t o xs Hi Hfs.
  assert (E : get (ENone :: t) o = do vsx <- gather a_none (get t) xs XNone;
     match snd vsx with XExc e => Err e | _ => Ok (OList None (fst vsx)) end).
  { simpl. rewrite Hi. simpl. destruct (gather a_none _ xs XNone) as [[vs x]|]; reflexivity. }
  rewrite (gather_spec a_none (get t) xs XNone Hfs) in E. cbn [bind fst snd] in E.
  split.
  - destruct xs as [|x xs']; auto. intros Hall.
    destruct (Hall x (or_introl eq_refl)) as [e Ex]. exists e. split; auto. rewrite E.
    replace (existsb (fun r => match get t r with Ok _ => true | Err _ => false end) (x :: xs')) with false.
    + rewrite Ex. reflexivity.
    + symmetry. destruct (existsb _ (x :: xs')) eqn:Eb; auto. apply existsb_exists in Eb as (y&Hy&Gy).
      destruct (Hall y Hy) as [e' Ey]. rewrite Ey in Gy. discriminate.
  - intros [->|(y&v&Hy&Gy)].
    + rewrite E. reflexivity.
    + replace (existsb (fun r => match get t r with Ok _ => true | Err _ => false end) xs) with true in E.
      * rewrite E. reflexivity.
      * symmetry. apply existsb_exists. exists y. rewrite Gy. auto.
Qed.

(** An exception of another kind escapes at the first item that raises it. *)
Theorem C05_other_exceptions_escape : forall t o pre x rest e,
  iter a_key a_iter o = Ok (pre ++ x :: rest) ->
  (forall y, In y pre -> forall e, get t y = Err e -> is_fs_exc e = true) ->
  get t x = Err e -> is_fs_exc e = false ->
  get (ENone :: t) o = Err e.
Proof.
  intros t o pre x rest e Hi Hp Hx He. simpl. rewrite Hi. cbn [bind].
  rewrite (gather_escape a_none (get t) pre x rest e Hp Hx He XNone). reflexivity.
Qed.

(** The wildcard may be anywhere on the path; before it the path is followed as usual. *)
Theorem C05_path_to_wildcard : forall p q o, Forall named p ->
  get (p ++ q) o = do h <- get p o; get q h.
Proof. intros. now apply get_app. Qed.

(** get_or_none is get with every selector exception turned into None. *)
Theorem C05_get_or_none : forall p o,
  (forall v, get p o = Ok v -> get_or_none p o = Ok v) /\
  (forall e, get p o = Err e -> get_or_none p o = if is_fs_exc e then Ok (OAtom a_none) else Err e).
Proof. intros p o. unfold TreeModel.get_or_none. split; intros x ->; auto. Qed.

(** Over a dict the wildcard visits the keys. *)
Theorem C05_dict_wildcard_sees_keys : forall t c kvs,
  (forall k v, In (k, v) kvs -> exists w, get t (OAtom (a_key k)) = Ok w) ->
  get (ENone :: t) (ODict c kvs) =
  Ok (OList None (map (fun kv => match get t (OAtom (a_key (fst kv))) with
                                 | Ok v => v | Err _ => OAtom a_none end) kvs)).
Proof.
  intros t c kvs H.
  pose proof (C05_wildcard_get t (ODict c kvs) _ eq_refl) as [_ G].
  - intros x Hx e He. apply in_map_iff in Hx as ([k v]&<-&Hk). apply H in Hk as [w Hw]. simpl in He. congruence.
  - rewrite G.
    + rewrite map_map. reflexivity.
    + destruct kvs as [|[k v] u]; [now left|]. right. destruct (H k v (or_introl eq_refl)) as [w Hw].
      exists (OAtom (a_key k)), w. split; auto. now left.
Qed.

(** ** C06 *)

(** Deleting an attribute or a dict key: afterwards the selector fails, unless the class has
    something to show for the attribute when it is not set. *)
Theorem C06_deleted_is_gone : forall p s o o', Forall named p ->
  delete (p ++ [s]) o = (None, o') ->
  (forall c sl n, get p o = Ok (ORec c sl) -> s = EStr n -> NoDup (map fst sl) /\ unset c n = None) ->
  (forall c kvs, get p o = Ok (ODict c kvs) -> NoDup (map fst kvs)) ->
  (forall c xs, get p o <> Ok (OList c xs)) -> named s ->
  exists e, get (p ++ [s]) o' = Err e.
Proof.
  intros p s o o' Hp H Hr Hd Hl Ns.
  apply delete_down with (a_none := a_none) in H as [(h&h'&G1&G2&G3)|(e&_&?&_)]; auto; [|discriminate].
  rewrite get_app by auto. rewrite G3. cbn [bind]. rewrite get_cons by auto.
  apply (del_last_cases a_str a_indexable a_item) in G2
    as [[Es ->]|[(c&xs&i&k&->&_)|[(c&kvs&x&->&Hg&->)|(c&sl&n&x&->&->&_&->&_)]]]; auto.
  - rewrite Es. simpl. eauto.
  - now destruct (Hl c xs).
  - rewrite step_dict. rewrite dict_get_del by (eauto using elem_eqb_eq).
    rewrite elem_eqb_refl. simpl. eauto.
  - destruct (Hr c sl n G1 eq_refl) as [ND U]. rewrite step_rec.
    rewrite dict_get_del by (eauto using str_eqb_eq). rewrite str_eqb_refl, U. simpl. eauto.
Qed.

(** Deleting a list item removes that position and shifts the later ones. *)
Theorem C06_list_item : forall p i o o' c xs, Forall named p ->
  get p o = Ok (OList c xs) -> (0 <= i)%Z ->
  delete (p ++ [EInt i]) o = (None, o') ->
  (Z.to_nat i < length xs)%nat /\
  get p o' = Ok (OList c (firstn (Z.to_nat i) xs ++ skipn (S (Z.to_nat i)) xs)).
Proof.
  intros p i o o' c xs Hp G Hi H.
  apply delete_down with (a_none := a_none) in H as [(h&h'&G1&G2&G3)|(e&_&?&_)]; auto; [|discriminate].
  rewrite G in G1. inversion G1; subst.
  apply (del_last_cases a_str a_indexable a_item) in G2
    as [[Es _]|[(c1&xs1&j&k&E1&E2&Hk&->)|[(?&?&?&?&_)|(?&?&?&?&?&_)]]]; try discriminate.
  - rewrite step_list in Es. destruct (seq_get xs i); discriminate.
  - inversion E1; inversion E2; subst. apply norm_index_some in Hk as [Hk Ek].
    replace (j <? 0)%Z with false in Ek by (symmetry; apply Z.ltb_ge; lia).
    assert (k = Z.to_nat j) by lia. subst k. auto.
Qed.

(** A delete that ends in a wildcard empties the list or dict. *)
Theorem C06_delete_all_items : forall p o, Forall named p ->
  (forall c xs, get p o = Ok (OList c xs) ->
     exists o', delete (p ++ [ENone]) o = (None, o') /\ get p o' = Ok (OList c [])) /\
  (forall c kvs, get p o = Ok (ODict c kvs) ->
     exists o', delete (p ++ [ENone]) o = (None, o') /\ get p o' = Ok (ODict c [])).
Proof.
  intros p o Hp.
  assert (L : forall h h', get p o = Ok h -> delete [ENone] h = (None, h') ->
            exists o', delete (p ++ [ENone]) o = (None, o') /\ get p o' = Ok h').
  { intros h h' G H. destruct (delete (p ++ [ENone]) o) as [r o'] eqn:E.
    pose proof E as E2.
    apply delete_down with (a_none := a_none) in E2 as [(k&k'&G1&G2&G3)|(e&G1&_)]; auto; [|congruence].
    rewrite G in G1. inversion G1; subst k. change (delete [ENone] h) with (del_last a_str a_indexable a_attr unset erase ENone h) in H.
    rewrite H in G2. inversion G2; subst. eauto. }
  split.
  - intros c xs G. apply (L (OList c xs)); auto.
  - intros c kvs G. apply (L (ODict c kvs)); auto.
Qed.

(** A delete, whatever its outcome and whatever wildcards it has further down, changes
    nothing that a selector which parts ways with it can see - except the other positions
    of the very list it deletes from. *)
Theorem C06_delete_frame : forall c a b p q o r o', Forall named c -> plain a -> plain b -> a <> b ->
  (p = [] -> forall k xs, get c o <> Ok (OList k xs)) ->
  delete (c ++ a :: p) o = (r, o') -> get (c ++ b :: q) o' = get (c ++ b :: q) o.
Proof. intros c a b p q o r o' Hc Pa Pb N NL H. eapply delete_frame with (a := a); eauto. Qed.

(** Deleting an attribute that is not set (and for which the class has nothing) does
    nothing. *)
Theorem C06_unset_is_noop : forall p n o c sl, Forall named p ->
  get p o = Ok (ORec c sl) -> dict_get str_eqb sl n = None -> unset c n = None ->
  delete (p ++ [EStr n]) o = (None, o).
Proof.
  intros p n o c sl Hp G Hd Hu.
  revert o G. induction Hp as [|s t Hs Ht IH]; intros o G.
  - simpl in G. inversion G; subst. simpl. unfold del_last. simpl. rewrite Hd, Hu. reflexivity.
  - rewrite get_cons in G by auto. destruct (step a_str a_indexable a_item a_attr unset o s) as [x|] eqn:Es; [|discriminate].
    simpl in G. cbn [app]. assert (E : exists y u, t ++ [EStr n] = y :: u) by (destruct t; simpl; eauto).
    destruct E as (y&u&E). rewrite E. rewrite delete_cons by auto. rewrite Es, <- E, (IH x G).
    erewrite replace_same; eauto.
Qed.

(** When a delete without wildcards raises, nothing was changed; and with wildcards, nothing
    was changed when it raises a selector exception (then every item failed). *)
Theorem C06_failed_delete_changes_nothing : forall p o e o',
  delete p o = (Some e, o') -> Forall named p \/ is_fs_exc e = true -> o' = o.
Proof.
  intros p o e o' H [Hp|He]; [eapply delete_fail; eauto|].
  revert o e o' H He. induction p as [|s t IH]; intros o e o' H He.
  - simpl in H. congruence.
  - destruct t as [|s' u]; [eapply del_last_fail; eauto|].
    destruct (elem_eq_dec s ENone) as [->|N].
    + destruct o as [a|c sl|c xs|c kvs].
      * pose proof (delete_atom a_key a_str a_indexable a_item a_attr a_iter unset erase (ENone :: s' :: u) a) as G.
        rewrite H in G. exact G.
      * cbn in H. congruence.
      * change (delete (ENone :: s' :: u) (OList c xs)) with
          (let (r, xs') := sweep (delete (s' :: u)) xs XNone in (swept r, OList c xs')) in H.
        destruct (sweep (delete (s' :: u)) xs XNone) as [r xs'] eqn:Es.
        injection H as Hr <-. f_equal. destruct r as [[|e1|]|e1]; simpl in Hr; try discriminate.
        -- eapply sweep_all_failed; [|exact Es]. intros y e2 y' _ Hy He2. eapply IH; eauto.
        -- inversion Hr; subst. apply sweep_escape in Es. congruence.
      * change (delete (ENone :: s' :: u) (ODict c kvs)) with
          (swept (fst (sweep (delete (s' :: u)) (map (fun kv => OAtom (a_key (fst kv))) kvs) XNone)), ODict c kvs) in H.
        congruence.
    + rewrite delete_cons in H by auto.
      destruct (step a_str a_indexable a_item a_attr unset o s) as [x|e1] eqn:Es; [|congruence].
      destruct (delete (s' :: u) x) as [e1 x'] eqn:E1. injection H as -> <-.
      rewrite (IH x e x' E1 He). eapply replace_same; eauto.
Qed.

(** Through a wildcard: if the items' failures are all selector exceptions, every item is
    dealt with, and an exception is raised only if every item failed. *)
Theorem C06_wildcard_delete : forall t c xs, t <> [] ->
  (forall x, In x xs -> forall e x', delete t x = (Some e, x') -> is_fs_exc e = true) ->
  exists r, delete (ENone :: t) (OList c xs) = (r, OList c (map (fun x => snd (delete t x)) xs)) /\
    match r with
    | None => xs = [] \/ exists x x', In x xs /\ delete t x = (None, x')
    | Some e => (forall x, In x xs -> exists e', delete t x = (Some e', x)) /\
                exists x rest, xs = x :: rest /\ delete t x = (Some e, x)
    end.
Proof.
  intros t c xs Ht Hfs. destruct t as [|s u]; [congruence|].
  set (t := s :: u) in *.
  change (delete (ENone :: t) (OList c xs)) with
    (let (r, xs') := sweep (delete t) xs XNone in (swept r, OList c xs')).
  rewrite (sweep_spec (delete t) xs XNone Hfs). eexists. split; [reflexivity|].
  destruct (existsb _ xs) eqn:Eb.
  - simpl. apply existsb_exists in Eb as (x&Hx&Gx). right.
    destruct (delete t x) as [[e|] x'] eqn:E; [discriminate|]. eauto.
  - destruct xs as [|x rest]; [simpl; now left|].
    assert (All : forall y, In y (x :: rest) -> exists e', delete t y = (Some e', y)).
    { intros y Hy. destruct (delete t y) as [[e|] y'] eqn:E.
      - exists e. rewrite (C06_failed_delete_changes_nothing t y e y'); auto. right. eapply Hfs; eauto.
      - assert (F : existsb (fun r => match delete t r with (Some _, _) => false | (None, _) => true end) (x :: rest) = true).
        { apply existsb_exists. exists y. rewrite E. auto. }
        rewrite F in Eb. discriminate. }
    destruct (All x (or_introl eq_refl)) as [e Ee]. rewrite Ee. simpl. split; auto.
    exists x, rest. auto.
Qed.

(** ** C07 *)

(** What a class keeps of a value, as a relation; an object made with a keyword argument has
    that attribute once it is in place. *)
Definition keeps (R : obj -> obj -> Prop) : Prop :=
  (forall v, R v v) /\
  (forall c n v v', store c n v = Ok v' -> R v v') /\
  (forall c v v', istore c v = Ok v' -> R v v') /\
  (forall ty n v x c m x', call ty (Some (n, v)) = Ok x ->
     store c m x = Ok x' \/ istore c x = Ok x' -> exists v', get [EStr n] x' = Ok v' /\ R v v').

(** A post that returns has set one value, and the selector reads it - provided every dict
    on the way had its key already, except for the last two steps. *)
Theorem C07_post_get : forall R p v o n o', keeps R -> Forall named p ->
  post p v o = (Ok n, o') -> dict_keys_present p o o' ->
  n = 1%nat /\ exists v', get p o' = Ok v' /\ R v v'.
Proof.
  intros R p v o n o' (K1&K2&K3&K4) Hp H D.
  assert (G : forall x n v', get [EStr n] x = Ok v' -> step a_str a_indexable a_item a_attr unset x (EStr n) = Ok v').
  { intros x m v' Hx. rewrite get_cons in Hx by discriminate.
    destruct (step a_str a_indexable a_item a_attr unset x (EStr m)); simpl in Hx; auto. }
  eapply post_get with (R := R) (store := store) (istore := istore) (call := call) (itemtype := itemtype) (valuetype := valuetype); eauto.
  - intros ty m x y c k y' Hc Hs. destruct (K4 ty m x y c k y' Hc (or_introl Hs)) as (v'&?&?). eauto.
  - intros ty m x y c y' Hc Hs. destruct (K4 ty m x y c m y' Hc (or_intror Hs)) as (v'&?&?). eauto.
Qed.

(** Whatever existed before and is not on the path reads as before, also if post fails. *)
Theorem C07_post_frame : forall p q v o r o' y, Forall named p -> part_ways p q ->
  post p v o = (r, o') -> dict_keys_present p o o' ->
  get q o = Ok y -> get q o' = Ok y.
Proof.
  intros p q v o r o' y Hp (c&a&b&p'&q'&->&->&Hc&Pa&Pb&N) H D G.
  eapply (post_frame a_none) with (a := a); eauto.
Qed.

(** Lists on the path grow by at most one item, *)
Theorem C07_list_growth : forall c t v o r o' k xs, Forall named (c ++ t) -> t <> [] ->
  post (c ++ t) v o = (r, o') -> get c o = Ok (OList k xs) ->
  exists ys, get c o' = Ok (OList k ys) /\ (length xs <= length ys <= S (length xs))%nat.
Proof.
  intros c t v o r o' k xs Hn Ht H G. apply Forall_app in Hn as [Hc Hn].
  destruct (post t v (OList k xs)) as [r1 h'] eqn:E.
  destruct (post_down a_none a_key a_str a_indexable a_item a_attr a_iter a_len unset store istore itemtype valuetype call
    c t v o (OList k xs) r1 h' Hc Ht G E) as (o2&E1&E2&_).
  rewrite H in E1. inversion E1; subst. apply post_list_growth in E as (ys&->&L); eauto.
Qed.

(** and an index beyond the end is refused without changing anything. *)
Theorem C07_out_of_order : forall c i t v o k xs, Forall named c -> t <> [] ->
  get c o = Ok (OList k xs) -> (Z.of_nat (length xs) < i)%Z ->
  post (c ++ EInt i :: t) v o = (Err ValueErr, o).
Proof.
  intros c i t v o k xs Hc Ht G Hi.
  assert (E : post (EInt i :: t) v (OList k xs) = (Err ValueErr, OList k xs)).
  { destruct t as [|l u]; [congruence|]. rewrite post_cons by discriminate. unfold viv. simpl.
    assert (N : norm_index (length xs) i = None).
    { unfold norm_index. replace (i <? 0)%Z with false by (symmetry; apply Z.ltb_ge; lia).
      replace (i <? Z.of_nat (length xs))%Z with false by (symmetry; apply Z.ltb_ge; lia).
      now rewrite andb_false_r. }
    unfold seq_get. rewrite N.
    replace (Z.of_nat (length xs) =? i)%Z with false by (symmetry; apply Z.eqb_neq; lia). reflexivity. }
  destruct (post_down a_none a_key a_str a_indexable a_item a_attr a_iter a_len unset store istore itemtype valuetype call
    c (EInt i :: t) v o (OList k xs) _ _ Hc ltac:(discriminate) G E) as (o2&E1&E2&E3).
  rewrite E1, E3; auto.
Qed.

(** Posting through a wildcard never works on a non-empty collection. *)
Theorem C07_wildcard_post_refuted : forall c t v o h x xs, Forall named c -> t <> [] ->
  get c o = Ok h -> iter a_key a_iter h = Ok (x :: xs) ->
  post (c ++ ENone :: t) v o = (Err TypeErr, o).
Proof.
  intros c t v o h x xs Hc Ht G Hi.
  assert (E : post (ENone :: t) v h = (Err TypeErr, h)).
  { destruct t as [|l u]; [congruence|]. cbn [TreeModel.post]. rewrite Hi. reflexivity. }
  destruct (post_down a_none a_key a_str a_indexable a_item a_attr a_iter a_len unset store istore itemtype valuetype call
    c (ENone :: t) v o h _ _ Hc ltac:(discriminate) G E) as (o2&E1&E2&E3).
  rewrite E1, E3; auto.
Qed.

End Tree.

(** ** Cases *)

Section Cases.
Inductive atom := ANone | AText (s : str) | ANum (z : Z).
Inductive klass := Person | People | Book.
Notation t := s2l.

Definition x_none := ANone.
Definition x_key (e : elem) : atom := match e with EStr s => AText s | EInt z => ANum z | ENone => ANone end.
Definition x_str (a : atom) := match a with AText _ => true | _ => false end.
Definition x_indexable (a : atom) := false.
Definition x_item (a : atom) (e : elem) : res atom := Err TypeErr.
Definition x_attr (a : atom) (n : str) : option atom := None.
Definition x_iter (a : atom) : res (list atom) :=
  match a with AText s => Ok (map (fun c => AText [c]) s) | _ => Err TypeErr end.
Definition x_len (a : atom) : Z := 0.
Definition x_unset (c : klass) (n : str) : option atom := None.
Definition O := obj atom klass.
(** age must be a number, or the text of a number of which the length is taken *)
Definition x_store (c : klass) (n : str) (v : O) : res O :=
  if str_eqb n (t "age") then
    match v with
    | OAtom (ANum z) => Ok v
    | OAtom (AText s) => Ok (OAtom (ANum (Z.of_nat (length s))))
    | _ => Err CoerceErr
    end
  else Ok v.
Definition x_erase (c : klass) (n : str) (here : bool) : option exn :=
  if str_eqb n (t "name") then Some ValueErr else None.
Definition x_istore (c : klass) (v : O) : res O :=
  match v with ORec _ _ => Ok v | _ => Err CollItemCoerceErr end.
Definition x_itemtype (c : klass) : res klass := Ok Person.
Definition x_valuetype (c : klass) (n : str) : res klass :=
  if str_eqb n (t "friends") then Ok People
  else if str_eqb n (t "book") then Ok Book
  else if str_eqb n (t "boss") then Ok Person
  else Err FSErr.
Definition x_call (c : klass) (kw : option (str * O)) : res O :=
  match c, kw with
  | Person, None => Ok (ORec Person [])
  | Person, Some (n, v) => do v' <- x_store Person n v; Ok (ORec Person [(n, v')])
  | People, None => Ok (OList (Some People) [])
  | Book, None => Ok (ODict (Some Book) [])
  | _, Some _ => Err PropNotKnown
  end.

Notation xget := (get x_none x_key x_str x_indexable x_item x_attr x_iter x_unset).
Notation xput := (put x_key x_str x_indexable x_item x_attr x_iter x_unset x_store x_istore).
Notation xdelete := (delete x_key x_str x_indexable x_item x_attr x_iter x_unset x_erase).
Notation xpost := (post x_key x_str x_indexable x_item x_attr x_iter x_len x_unset x_store x_istore x_itemtype x_valuetype x_call).

Definition txt (s : string) : O := OAtom (AText (t s)).
Definition num (z : Z) : O := OAtom (ANum z).
Definition person (n : string) (rest : list (str * O)) : O := ORec Person ((t "name", txt n) :: rest).

Definition ann : O :=
  person "ann" [(t "age", num 40);
    (t "friends", OList (Some People) [person "bob" []; person "cy" [(t "age", num 3)]]);
    (t "book", ODict (Some Book) [(EStr (t "x"), person "dee" [])])].

Definition pth (l : list elem) := l.
Definition fr (i : Z) (n : string) : list elem := [EStr (t "friends"); EInt i; EStr (t n)].

Example C04_case :
  Forall named (fr 0 "age") /\ part_ways (fr 0 "age") (fr 1 "age") /\
  fst (xput (fr 0 "age") (txt "abcd") ann) = None /\
  xget (fr 0 "age") (snd (xput (fr 0 "age") (txt "abcd") ann)) = Ok (num 4) /\
  xget (fr 1 "age") (snd (xput (fr 0 "age") (txt "abcd") ann)) = Ok (num 3) /\
  xget (fr 0 "age") ann = Err FSAttrErr /\
  xput (fr 2 "age") (num 1) ann = (Some FSErr, ann) /\
  xput [EStr (t "age")] (OList None []) ann = (Some CoerceErr, ann) /\
  xput [EStr (t "friends"); ENone] (OList None [person "flo" []]) (person "zed" [(t "friends", OList (Some People) [])])
  = (None, person "zed" [(t "friends", OList (Some People) [person "flo" []])]).
Proof.
  split; [repeat constructor; discriminate|]. split.
  - exists [EStr (t "friends")], (EInt 0), (EInt 1), [EStr (t "age")], [EStr (t "age")].
    repeat split; try discriminate. repeat constructor; discriminate.
  - vm_compute. repeat split.
Qed.

(** With indices counted from the end the frame fails. *)
Theorem C04_negative_index_alias_refuted : exists (o o' : O) v,
  xput [EInt (-1)] v o = (None, o') /\ xget [EInt 1] o' <> xget [EInt 1] o.
Proof.
  exists (OList None [num 1; num 2]), (OList None [num 1; num 7]), (num 7). split; [reflexivity|].
  vm_compute. discriminate.
Qed.

Example C04_wildcard_case :
  xput [ENone; EStr (t "age")] (num 7) (OList None [person "bob" []; num 5; person "cy" []])
  = (Some FSErr, OList None [person "bob" [(t "age", num 7)]; num 5; person "cy" []]).
Proof. vm_compute. reflexivity. Qed.

Example C05_case :
  xget [EStr (t "friends"); ENone; EStr (t "age")] ann = Ok (OList None [OAtom ANone; num 3]) /\
  xget [EStr (t "friends"); ENone; EStr (t "zip")] ann = Err FSAttrErr /\
  xget [ENone; EStr (t "age")] (OList None []) = Ok (OList None []) /\
  iter (C := klass) x_key x_iter (OList None [person "bob" []; num 1]) = Ok [person "bob" []; num 1].
Proof. repeat split. Qed.

Example C05_escape_case :
  xget [ENone; EStr (t "k")] (OList None [person "bob" []; ODict None []; num 1]) = Err KeyErr /\
  xget [EStr (t "book"); ENone] ann = Ok (OList None [txt "x"]).
Proof. split; reflexivity. Qed.

Example C06_case :
  fst (xdelete (fr 1 "age") ann) = None /\
  xget (fr 1 "age") (snd (xdelete (fr 1 "age") ann)) = Err FSAttrErr /\
  xdelete (fr 0 "age") ann = (None, ann) /\
  xdelete (fr 0 "name") ann = (Some ValueErr, ann) /\
  xget [EStr (t "friends"); EInt 0; EStr (t "name")]
    (snd (xdelete [EStr (t "friends"); EInt 0] ann)) = Ok (txt "cy") /\
  xdelete [EStr (t "book"); EStr (t "nokey")] ann = (Some KeyErr, ann).
Proof. vm_compute. repeat split. Qed.

(** With a wildcard, an exception of another kind leaves the earlier items deleted. *)
Example C06_delete_all_case : Forall named [EStr (t "friends")] /\
  xget [EStr (t "friends")] (snd (xdelete [EStr (t "friends"); ENone] ann)) = Ok (OList (Some People) []).
Proof. split; [repeat constructor; discriminate|reflexivity]. Qed.

Theorem C06_wildcard_not_atomic_refuted : exists p (o o' : O) e,
  xdelete p o = (Some e, o') /\ o' <> o.
Proof.
  exists [ENone; EInt 0], (OList None [OList None [num 1]; OList None []]),
    (OList None [OList None []; OList None []]), IndexErr.
  split; [reflexivity|discriminate].
Qed.

Example C06_wildcard_case :
  xdelete [ENone; EStr (t "boss"); EStr (t "age")]
    (OList None [person "bob" [(t "boss", person "eve" [(t "age", num 1)])]; person "cy" []])
  = (None, OList None [person "bob" [(t "boss", person "eve" [])]; person "cy" []]) /\
  xdelete [ENone; EStr (t "boss"); EStr (t "age")] (OList None [person "cy" []])
  = (Some FSAttrErr, OList None [person "cy" []]).
Proof. split; vm_compute; reflexivity. Qed.

(** The relation for the classes of these cases: equal, or text to its length. *)
Definition kept (v v' : O) : Prop :=
  v' = v \/ exists s, v = OAtom (AText s) /\ v' = OAtom (ANum (Z.of_nat (length s))).

Lemma x_store_kept c n v v' : x_store c n v = Ok v' -> kept v v'.
Proof.
  unfold x_store. destruct (str_eqb n (t "age")); [|intros H; inversion H; now left].
  destruct v as [[|s|z]|c1 sl|c1 l|c1 l]; intros H; inversion H; subst; [right; eauto|now left].
Qed.

Example C07_keeps_case :
  keeps (T := klass) x_none x_key x_str x_indexable x_item x_attr x_iter x_unset x_store x_istore x_call kept.
Proof.
  split; [now left|]. split; [apply x_store_kept|]. split.
  - intros c v v' H. unfold x_istore in H. destruct v; inversion H; subst; now left.
  - intros ty n v x c m x' Hc Hs. destruct ty; simpl in Hc; try discriminate.
    destruct (x_store Person n v) as [v'|] eqn:E; simpl in Hc; inversion Hc; subst.
    assert (x' = ORec Person [(n, v')]) as ->.
    { destruct Hs as [Hs|Hs].
      - unfold x_store in Hs. destruct (str_eqb m (t "age")); [discriminate|]. now inversion Hs.
      - now inversion Hs. }
    exists v'. split; [|eapply x_store_kept; eauto].
    cbn. rewrite str_eqb_refl. reflexivity.
Qed.

Example C07_case :
  xpost [EStr (t "friends"); EInt 0; EStr (t "boss"); EStr (t "age")] (txt "abc") (person "zed" [])
  = (Ok 1%nat, person "zed" [(t "friends", OList (Some People)
        [ORec Person [(t "boss", ORec Person [(t "age", num 3)])]])]) /\
  dict_keys_present x_none x_key x_str x_indexable x_item x_attr x_iter x_unset
    [EStr (t "friends"); EInt 0; EStr (t "boss"); EStr (t "age")] (person "zed" [])
    (person "zed" [(t "friends", OList (Some People)
        [ORec Person [(t "boss", ORec Person [(t "age", num 3)])]])]) /\
  xpost (fr 5 "age") (num 1) ann = (Err ValueErr, ann) /\
  xpost [EStr (t "book"); EStr (t "new"); EStr (t "age")] (num 1) (person "zed" [])
  = (Ok 1%nat, person "zed" [(t "book", ODict (Some Book) [(EStr (t "new"), ORec Person [(t "age", num 1)])])]).
Proof.
  split; [vm_compute; reflexivity|]. split; [|vm_compute; repeat split].
  intros p1 k p2 c kvs E L G.
  destruct p1 as [|a1 [|a2 [|a3 p1]]]; simpl in E; inversion E; subst; simpl in L; try lia.
  - vm_compute in G. discriminate.
  - vm_compute in G. discriminate.
  - destruct p1 as [|a4 [|a5 p1]]; simpl in *; inversion E; subst; simpl in L; lia.
Qed.

Example C07_wildcard_case :
  xpost [EStr (t "friends"); ENone; EStr (t "age")] (num 1) ann = (Err TypeErr, ann) /\
  xpost [EStr (t "friends"); ENone; EStr (t "age")] (num 1) (person "zed" [(t "friends", OList None [])])
  = (Ok 0%nat, person "zed" [(t "friends", OList None [])]).
Proof. split; vm_compute; reflexivity. Qed.

(** A missing dict key more than two steps from the end: post makes the item for the key but
    then carries on in the dict itself (selector.py:279-282 does not move [record]).  It
    returns 1, the selector finds nothing, ... *)
Theorem C07_missing_dict_key_refuted : exists p v (o o' : O),
  Forall plain p /\ xpost p v o = (Ok 1%nat, o') /\ xget p o' = Err FSAttrErr.
Proof.
  exists [EStr (t "book"); EStr (t "k"); EStr (t "boss"); EStr (t "age")], (num 1), (person "zed" [(t "book", ODict (Some Book) [])]).
  eexists. split; [repeat constructor|]. split; vm_compute; reflexivity.
Qed.

(** ... or the value ends up in another entry, one that was there before. *)
Theorem C07_missing_dict_key_clobbers_refuted : exists p q v (o o' : O),
  Forall plain p /\ part_ways p q /\ xpost p v o = (Ok 1%nat, o') /\
  xget q o = Ok (num 40) /\ xget q o' = Ok (num 1).
Proof.
  exists [EStr (t "k"); EStr (t "boss"); EStr (t "age")], [EStr (t "boss"); EStr (t "age")], (num 1),
    (ODict (Some Book) [(EStr (t "boss"), person "ann" [(t "age", num 40)])]).
  eexists. split; [repeat constructor|]. split.
  - exists [], (EStr (t "k")), (EStr (t "boss")), [EStr (t "boss"); EStr (t "age")], [EStr (t "age")].
    repeat split; auto. discriminate.
  - vm_compute. repeat split.
Qed.

End Cases.

Print Assumptions C04_part_ways_complete.
Print Assumptions C04_put_get.
Print Assumptions C04_put_get_same.
Print Assumptions C04_put_frame.
Print Assumptions C04_failed_put_changes_nothing.
Print Assumptions C04_wildcard_put.
Print Assumptions C04_put_all_items.
Print Assumptions C05_wildcard_get.
Print Assumptions C05_other_exceptions_escape.
Print Assumptions C05_path_to_wildcard.
Print Assumptions C05_get_or_none.
Print Assumptions C05_dict_wildcard_sees_keys.
Print Assumptions C06_deleted_is_gone.
Print Assumptions C06_list_item.
Print Assumptions C06_delete_all_items.
Print Assumptions C06_delete_frame.
Print Assumptions C06_unset_is_noop.
Print Assumptions C06_failed_delete_changes_nothing.
Print Assumptions C06_wildcard_delete.
Print Assumptions C07_post_get.
Print Assumptions C07_post_frame.
Print Assumptions C07_list_growth.
Print Assumptions C07_out_of_order.
Print Assumptions C07_wildcard_post_refuted.
Print Assumptions C04_negative_index_alias_refuted.
Print Assumptions C06_wildcard_not_atomic_refuted.
Print Assumptions C07_missing_dict_key_refuted.
Print Assumptions C07_missing_dict_key_clobbers_refuted.
