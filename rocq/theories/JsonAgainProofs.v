(** Proofs for C70. *)
From Coq Require Import String List NArith ZArith Arith Bool Lia.
From Verif Require Import Prelude GenModel PickleModel AutoModel JsonModel JsonSpec JsonPathSpec JsonProofs JsonPath JsonKeys
  JsonOutSpec JsonAgainSpec.
Import ListNotations.
Local Open Scope string_scope.
Local Open Scope list_scope.

Lemma document_jdata j : document j -> jdata j.
Proof. induction 1; constructor; auto. Qed.

Lemma obind_val {A B} (x : out A) (f : A -> out B) v : obind x f = Val v -> exists a, x = Val a /\ f a = Val v.
Proof. destruct x; simpl; [eauto|discriminate]. Qed.

Lemma omap_in {A B} (f : A -> out B) l l' y : omap f l = Val l' -> In y l' -> exists x, In x l /\ f x = Val y.
Proof.
  revert l'. induction l as [|x t IH]; simpl; intros l' E I.
  - injection E as <-. destruct I.
  - apply obind_val in E as (a & F & E). apply obind_val in E as (b & G & E). injection E as <-.
    destruct I as [<-|I]; [eauto|]. destruct (IH _ G I) as (x' & ? & ?). eauto.
Qed.

Lemma number_in {A} (l : list A) i s x : In (s, x) (number i l) -> In x l.
Proof.
  revert i. induction l as [|y t IH]; simpl; [tauto|]. intros i [E|I]; [injection E as _ <-; auto|].
  right. eapply IH, I.
Qed.

Section Again.
Variable W : world.
Variable parse : str -> res pyv.
Variable by_key : list (str * pyv) -> list (str * pyv).
Variable show : Z -> str.
Notation call := (call W parse by_key).

(** ** One property *)

(** what a constructor makes of a value for a property whose type is no class *)
Lemma init_given rec p y r : (forall c co, q_type p <> TCls c co) ->
  init_prop W rec p (Some y) = Val r ->
  match r with
  | Some x => settles (q_type p) y x /\ q_check p x = true /\
              ~ (q_required p = true /\ q_type p = TAny /\ y = PNone)
  | None => q_required p = false /\ dropped (q_type p) y
  end.
Proof.
  intros NC E. unfold init_prop in E. apply obind_val in E as (o & T & F).
  assert (R : r = o /\ (o = None -> q_required p = false)).
  { destruct o as [x|]; [injection F as <-; split; [auto|discriminate]|].
    destruct (q_required p); [discriminate|]. injection F as <-. auto. }
  destruct R as [-> RQ]. clear F.
  unfold type_safe in T. cbv zeta in T.
  assert (T' : ~ (q_required p = true /\ q_type p = TAny /\ y = PNone) /\
     (if isinstance W y (q_type p) then if q_check p y then Val (Some y) else Exc [] ValueCheckErr
      else match run_coerce rec (q_type p) y with
           | Exc _ _ => Exc [] CoerceErr
           | Val nv =>
               if isinstance W nv (q_type p) then if q_check p nv then Val (Some nv) else Exc [] ValueCheckErr
               else match nv, q_required p with
                    | PNone, false => Val None
                    | _, _ => Exc [] ValueCoercionErr
                    end
           end) = Val o).
  { destruct y; destruct (q_required p); destruct (q_type p); try discriminate T; split; auto; intros (A & B & C); discriminate. }
  destruct T' as [NN T']. clear T. unfold isinstance, run_coerce in T'.
  destruct (q_type p) as [|isa co|c co] eqn:QT; [| |exfalso; eapply NC; reflexivity].
  - destruct (q_check p y) eqn:Q; [|discriminate]. injection T' as <-. simpl. auto.
  - simpl. destruct (isa y) eqn:I.
    + destruct (q_check p y) eqn:Q; [|discriminate]. injection T' as <-. auto.
    + destruct (co y) as [nv|] eqn:C; [|discriminate]. destruct (isa nv) eqn:I'.
      * destruct (q_check p nv) eqn:Q; [|discriminate]. injection T' as <-. auto 6.
      * destruct nv; try discriminate T'. destruct (q_required p); [discriminate|]. injection T' as <-. auto.
Qed.

(** the same for a property whose type is a class, given an instance *)
Lemma init_instance rec p c co sl r : q_type p = TCls c co -> w_sub W c c = true ->
  init_prop W rec p (Some (PObj c sl)) = Val r -> r = Some (PObj c sl) /\ q_check p (PObj c sl) = true.
Proof.
  intros QT S E. unfold init_prop, type_safe in E. rewrite QT in E. cbn [isinstance] in E. rewrite S in E.
  destruct (q_check p (PObj c sl)) eqn:Q; cbn [obind] in E; [|discriminate]. injection E as <-. auto.
Qed.

Lemma fits_obj c v : fits W show c v -> exists sl, v = PObj c sl.
Proof. intros F. inversion F; subst; eauto. Qed.

(** ** Records *)

Lemma in_order_listed ps vals : NoDup (map q_name ps) -> listed ps (in_order ps vals).
Proof.
  intros N. unfold listed, slot.
  assert (G : forall qs, incl qs ps ->
    in_order qs vals = flat_map (fun p => match find_name (q_name p) (in_order ps vals) with
                                          | Some x => [(q_name p, x)] | None => [] end) qs).
  { induction qs as [|q qs IH]; intros I; [reflexivity|]. simpl. rewrite <- IH by (intros a ia; apply I; simpl; auto).
    rewrite in_order_find by (auto; apply I; simpl; auto).
    destruct (find_name (q_name q) vals) as [[x|]|]; reflexivity. }
  apply G. intros a; auto.
Qed.

Lemma record_init_listed rec c pre kw v : NoDup (map q_name (w_props W c)) ->
  record_init W rec c pre kw = Val v -> exists sl, v = PObj c (pre ++ sl) /\ listed (w_props W c) sl.
Proof.
  intros N E. unfold record_init in E. apply obind_val in E as (g & _ & E). apply obind_val in E as (m & _ & E).
  injection E as <-. eexists. split; [reflexivity|]. now apply in_order_listed.
Qed.

Lemma record_init_plain rec c pre v : (forall p, In p (w_props W c) -> ~ has_init p) ->
  record_init W rec c pre [] = Val v -> v = PObj c pre.
Proof.
  intros N E. unfold record_init in E. cbn [omap obind] in E.
  assert (F : filter (fun p => eager p && negb (has_name (q_name p) (@nil (str * pyv)))) (w_props W c) = []).
  { clear E. induction (w_props W c) as [|p ps IH]; [reflexivity|]. simpl.
    assert (eager p = false) as ->.
    { destruct (eager p) eqn:G; auto. exfalso. apply (N p); [simpl; auto|].
      unfold eager in G. unfold has_init. apply orb_true_iff in G as [G|G]; auto. right. destruct (q_default p); congruence. }
    simpl. apply IH. intros q I. apply N. simpl; auto. }
  rewrite F in E. cbn [omap obind app] in E. injection E as <-.
  f_equal. unfold in_order. rewrite <- (app_nil_r pre) at 2. f_equal.
  clear. induction (w_props W c) as [|p ps IH]; [reflexivity|exact IH].
Qed.

(** a constructor of a JSON record class reads an object *)
Lemma call_object n c v r : (forall s j, parse s = Ok j -> document j) -> w_kind W c = KJson -> document v ->
  call (S n) c v = Val r -> exists doc, document (PDict doc) /\ call (S n) c (PDict doc) = Val r.
Proof.
  intros HP K D E. cbn [JsonModel.call] in *. unfold call_class in *. rewrite K in *. cbn [decode obind] in *.
  assert (DD : forall a b, decode parse a = Val b -> document a -> document b).
  { intros a b X Da. destruct a; cbn in X; try (injection X as <-; exact Da).
    destruct (parse s) as [j|] eqn:Y; [|discriminate]. injection X as <-. eauto. }
  apply obind_val in E as (j & J & E).
  assert (D1 : document j) by eauto.
  assert (NN : forall x, initkwargs W (call n) c x [] = initkwargs W (call n) c (PDict []) [] -> record_init W (call n) c [] [] = Val r \/
     (let* kw := initkwargs W (call n) c x [] in record_init W (call n) c [] kw) = Val r ->
     exists doc, document (PDict doc) /\ (let* kw := initkwargs W (call n) c (PDict doc) [] in record_init W (call n) c [] kw) = Val r).
  { intros x X O. exists []. split; [constructor; [constructor|intros k y []]|].
    assert (Z : initkwargs W (call n) c (PDict []) [] = Val []).
    { unfold initkwargs. cbn [map].
      assert (R : forall ps, read_props W (call n) [] ps ([], []) = Val ([], [])).
      { induction ps as [|p ps IH]; [reflexivity|]. cbn [read_props]. unfold read_prop.
        destruct (key_in_doc p); cbn [find_name obind]; exact IH. }
      rewrite R. reflexivity. }
    destruct O as [O|O]; [rewrite Z; exact O|]. rewrite <- X. exact O. }
  assert (E' : (exists x, initkwargs W (call n) c x [] = initkwargs W (call n) c (PDict []) [] /\ (record_init W (call n) c [] [] = Val r \/
     (let* kw := initkwargs W (call n) c x [] in record_init W (call n) c [] kw) = Val r)) \/
     exists j', decode parse j = Val j' /\ (let* kw := initkwargs W (call n) c j' [] in record_init W (call n) c [] kw) = Val r).
  { destruct j; try (left; exists (PDict []); split; [reflexivity|left; exact E]);
      right; apply obind_val in E as (j' & J' & E); exists j'; split; auto. }
  destruct E' as [(x & X & O)|(j' & J' & E')]; [exact (NN x X O)|].
  assert (D2 : document j') by eauto.
  destruct j'; try discriminate E'.
  - apply (NN PNone); [reflexivity|right; exact E'].
  - exists l. split; [exact D2|exact E'].
Qed.

Lemma reads_find doc : forall ps ys n y, reads W (call n) doc ps ys -> forall p, NoDup (map q_name ps) -> In p ps ->
  find_name (q_name p) ys = Some y ->
  exists k x, json_key p = Some k /\ find_name k doc = Some x /\ prop_read W (call n) p x = Val y.
Proof.
  intros ps ys n y R. induction R as [|q ps ys H R IH|q ps ys k x y' K F P R IH]; intros p N I E; [discriminate| |].
  - inversion N as [|a b N1 N2]; subst. destruct I as [->|I]; [|now apply IH].
    exfalso. apply N1. apply find_name_in in E. apply (in_map fst) in E. cbn [fst] in E.
    destruct (reads_names W _ _ _ _ _ R E) as (p' & k & I' & E' & _). rewrite <- E'. now apply in_map.
  - inversion N as [|a b N1 N2]; subst. cbn [find_name] in E. destruct I as [->|I].
    + rewrite str_eqb_refl in E. injection E as <-. eauto.
    + destruct (str_eqb (q_name p) (q_name q)) eqn:Q; [|now apply IH].
      apply str_eqb_eq in Q. exfalso. apply N1. rewrite <- Q. now apply in_map.
Qed.

(** ** What is loaded fits *)

Section Loaded.
Variable Good : nat -> Prop.
Hypothesis ST : steady W show Good.
Hypothesis HP : forall s j, parse s = Ok j -> document j.

Lemma good_json c : Good c -> is_json W c = true.
Proof. intros G. apply is_json_iff. exact (sw_class _ _ _ ST c G). Qed.

Lemma fits_loaded n : forall c v r, Good c -> document v -> call n c v = Val r -> fits W show c r.
Proof.
  induction n as [|n IH]; intros c v r G D E; [discriminate|].
  assert (IT : forall s j x y, document j -> item_in W parse by_key (call n) (w_item W c) s j = Val y ->
     coerce_item W (call n) c y = Val x -> w_kind W c <> KJson -> fits_item W show (w_item W c) x).
  { intros s j x y Dj A B K. destruct (sw_coll _ _ _ ST c G K) as [_ SI].
    unfold item_in, coerce_item in *. destruct (w_item W c) as [|isa co|c' co] eqn:WI.
    - injection A as <-. cbn [isinstance] in B. injection B as <-. apply (fi_data _ _ _ _ j); [|reflexivity].
      constructor. now apply document_jdata.
    - injection A as <-. cbn [isinstance run_coerce] in B.
      assert (X : (isa j = true /\ x = j) \/ (isa j = false /\ co j = Val x)).
      { destruct (isa j) eqn:I; [injection B as <-; auto|]. right. split; auto. destruct (co j); congruence. }
      destruct (SI j x Dj X) as (j' & F & S). exact (fi_data _ _ _ _ j' F S).
    - cbn in SI. pose proof (sw_self _ _ _ ST c' SI) as SS.
      assert (FY : fits W show c' y).
      { rewrite (good_json c' SI) in A. assert (isinstance W j (TCls c' co) = false) as Z by (destruct Dj; reflexivity).
        rewrite Z in A. destruct (call n c' j) as [y'|] eqn:C; cbn [box] in A; [|discriminate]. injection A as <-.
        exact (IH c' j y' SI Dj C). }
      destruct (fits_obj c' y FY) as (sl & ->). cbn [isinstance] in B. rewrite SS in B. injection B as <-.
      now apply fi_class. }
  destruct (w_kind W c) eqn:K; try (pose proof (sw_class _ _ _ ST c G) as JC; unfold json_class in JC; rewrite K in JC; destruct JC).
  - (* a record *)
    destruct (sw_record _ _ _ ST c G K) as [T SP].
    destruct (call_object n c v r HP K D E) as (doc & Dd & E'). clear E. inversion Dd as [| | | | | |l Nd Di]; subst.
    destruct (load_doc W parse by_key n c doc r T Nd E') as (sl & ys & u & -> & R & U1 & U2 & U3 & S).
    assert (L : listed (w_props W c) sl).
    { cbn [JsonModel.call] in E'. unfold call_class in E'. rewrite K in E'. cbn [decode obind] in E'.
      apply obind_val in E' as (kw & _ & E'). destruct (record_init_listed _ _ _ _ _ (tc_names _ _ T) E') as (sl' & X & L).
      injection X as ->. exact L. }
    assert (PV : forall p, In p (w_props W c) -> q_name p <> unknown_name ->
       match find_name (q_name p) sl with
       | Some x => fits_prop W show p x
       | None => ~ has_init p
       end).
    { intros p Ip Np. specialize (S p Ip Np). pose proof (SP p Ip Np) as [SK STy].
      (* a value given or by default *)
      assert (V : forall y, init_prop W (call n) p (Some y) = Val (find_name (q_name p) sl) ->
         json_key p <> None ->
         match q_type p with
         | TCls c' _ => Good c' /\ conv_in p = None /\ conv_out p = None /\ fits W show c' y
         | _ => steady_value show p y
         end -> match find_name (q_name p) sl with Some x => fits_prop W show p x | None => ~ has_init p end).
      { intros y IP KP M.
        assert (DAT : (forall c' co, q_type p <> TCls c' co) -> steady_value show p y ->
          match find_name (q_name p) sl with Some x => fits_prop W show p x | None => ~ has_init p end).
        { intros NC [CB DR]. pose proof (init_given _ _ _ _ NC IP) as Q.
          destruct (find_name (q_name p) sl) as [x|]; [|intros HI; exact (DR HI (proj2 Q))].
          destruct Q as (Q1 & Q2 & Q3). destruct (CB x Q1 Q2 Q3) as (j & y' & A1 & A2 & A3 & A4).
          exact (fp_data _ _ p x j y' KP Q2 A4 A1 A2 A3). }
        destruct (q_type p) as [|isa co|c' co] eqn:QT; [apply DAT; auto; discriminate|apply DAT; auto; discriminate|].
        destruct M as (G' & CI & CO & FY). destruct (fits_obj c' y FY) as (sl' & ->).
        destruct (init_instance _ _ _ _ _ _ QT (sw_self _ _ _ ST c' G') IP) as [-> Q].
        exact (fp_class _ _ p c' co _ KP Q CO CI QT (sw_self _ _ _ ST c' G') FY). }
      destruct (find_name (q_name p) ys) as [y|] eqn:FY.
      - destruct (reads_find doc _ _ _ _ R p (tc_names _ _ T) Ip FY) as (k & x & Kp & Fx & PR).
        apply (V y S); [congruence|]. unfold prop_read in PR. apply obind_val in PR as (z & CZ & VI).
        assert (Dx : document x) by (apply (Di k); now apply find_name_in).
        destruct (q_type p) as [|isa co|c' co] eqn:QT; cbn [value_init] in VI.
        + injection VI as <-. apply (proj2 STy x z Dx). destruct (conv_in p); [exact CZ|injection CZ as <-; reflexivity].
        + injection VI as <-. apply (proj2 STy x z Dx). destruct (conv_in p); [exact CZ|injection CZ as <-; reflexivity].
        + destruct STy as (G' & CI & CO & _). rewrite CI in CZ. injection CZ as <-.
          rewrite (good_json c' G') in VI. split; auto. split; auto. split; auto. exact (IH c' x y G' Dx VI).
      - destruct S as [S1 S2].
        assert (HD : {has_init p} + {~ has_init p}).
        { unfold has_init. destruct (q_required p), (q_default p); [left; auto|left; auto|left; right; congruence|right; intros [?|?]; congruence]. }
        destruct HD as [HI|HI]; [|rewrite (S2 HI); exact HI].
        specialize (S1 HI). destruct (q_default p) as [[d|e]|] eqn:QD.
        + apply (V d).
          * unfold init_prop in *. rewrite QD in S1. exact S1.
          * intros KN. exact (SK KN HI).
          * destruct (q_type p); [apply STy; reflexivity|apply STy; reflexivity|].
            destruct STy as (A1 & A2 & A3 & A4). auto.
        + unfold init_prop in S1. rewrite QD in S1. discriminate.
        + exfalso. unfold init_prop in S1. rewrite QD in S1. destruct HI as [HR|HR]; [|congruence]. rewrite HR in S1. discriminate. }
    apply fits_record; auto.
    + intros p x Ip Np Sx. specialize (PV p Ip Np). unfold slot in Sx. rewrite Sx in PV. exact PV.
    + intros p Ip HI Sn. unfold slot in Sn. destruct (str_eq_dec (q_name p) unknown_name) as [Q|Q].
      * destruct T as [_ TN _ (pu & I1 & I2 & _ & _ & _ & I6)]. assert (p = pu).
        { pose proof (find_prop_in _ p TN Ip) as F1. pose proof (find_prop_in _ pu TN I1) as F2.
          change (s2l "unknown_json_keys") with unknown_name in I2. congruence. }
        subst. exact (I6 HI).
      * specialize (PV p Ip Q). rewrite Sn in PV. exact (PV HI).
    + intros x Sx. unfold slot in Sx. change (s2l "unknown_json_keys") with unknown_name in Sx. rewrite U3 in Sx.
      destruct u as [|a u']; [discriminate|]. injection Sx as <-. exists (a :: u'). split; auto. split; [discriminate|]. split; auto.
      intros k y Iu. apply U1 in Iu as [Id Nk]. split; [apply document_jdata; eauto|].
      intros p Ip Kp. apply Nk. exists p. auto.
  - (* a list *)
    assert (NK : w_kind W c <> KJson) by congruence. destruct (sw_coll _ _ _ ST c G NK) as [NI _].
    cbn [JsonModel.call] in E. unfold call_class in E. rewrite K in E. apply obind_val in E as (j & J & E).
    assert (Dj : document j).
    { destruct v; cbn in J; try (injection J as <-; exact D). destruct (parse s) eqn:Y; [|discriminate]. injection J as <-. eauto. }
    assert (E' : exists l, (forall y, In y l -> exists s x, document x /\ item_in W parse by_key (call n) (w_item W c) s x = Val y) /\
                 exists l', omap (coerce_item W (call n) c) l = Val l' /\ r = PObj c [(s2l "_values", PList l')]).
    { assert (CI : forall l, coll_init W by_key (call n) c (PList l) [] = Val r ->
         exists l', omap (coerce_item W (call n) c) l = Val l' /\ r = PObj c [(s2l "_values", PList l')]).
      { intros l C. unfold coll_init in C. rewrite K in C. cbn [is_list_kind list_items obind] in C.
        apply obind_val in C as (vs & V & C). apply obind_val in V as (l' & V & Q). injection Q as <-.
        exists l'. split; auto. exact (record_init_plain _ _ _ _ NI C). }
      destruct Dj as [| | | | |l Dl|l Nd Dl]; try discriminate E.
      - exists []. split; [intros y []|]. apply CI. exact E.
      - apply obind_val in E as (vs & V & E). cbn [list_values] in V. apply obind_val in V as (l1 & V & Q). injection Q as <-.
        exists l1. split; [|exact (CI l1 E)]. intros y Iy. destruct (omap_in _ _ _ _ V Iy) as ([s x] & Ix & F).
        cbn [fst snd] in F. exists s, x. split; auto. apply Dl. exact (number_in _ _ _ _ Ix). }
    destruct E' as (l & A & l' & B & ->). apply fits_list; auto.
    intros x Ix. destruct (omap_in _ _ _ _ B Ix) as (y & Iy & C). destruct (A y Iy) as (s & z & Dz & F). exact (IT s z x y Dz F C ltac:(first [exact NK|discriminate])).
  - (* a dict *)
    assert (NK : w_kind W c <> KJson) by congruence. destruct (sw_coll _ _ _ ST c G NK) as [NI _].
    cbn [JsonModel.call] in E. unfold call_class in E. rewrite K in E. apply obind_val in E as (j & J & E).
    assert (Dj : document j).
    { destruct v; cbn in J; try (injection J as <-; exact D). destruct (parse s) eqn:Y; [|discriminate]. injection J as <-. eauto. }
    assert (E' : exists l, (forall k y, In (k, y) l -> exists s x, document x /\ item_in W parse by_key (call n) (w_item W c) s x = Val y) /\
                 exists l', omap (fun kv : str * pyv => let* x := coerce_item W (call n) c (snd kv) in Val (fst kv, x)) l = Val l' /\
                   r = PObj c [(s2l "_values", PDict l')]).
    { assert (CI : forall w l, dict_items w = Val l -> coll_init W by_key (call n) c w [] = Val r ->
         exists l', omap (fun kv : str * pyv => let* x := coerce_item W (call n) c (snd kv) in Val (fst kv, x)) l = Val l' /\
                   r = PObj c [(s2l "_values", PDict l')]).
      { intros w l DI C. unfold coll_init in C. rewrite K in C. cbn [is_list_kind] in C. rewrite DI in C. cbn [obind] in C.
        apply obind_val in C as (vs & V & C). apply obind_val in V as (l' & V & Q). injection Q as <-.
        exists l'. split; auto. exact (record_init_plain _ _ _ _ NI C). }
      destruct Dj as [| | | | |l Dl|l Nd Dl]; try discriminate E.
      - exists []. split; [intros k y []|]. exact (CI PNone [] eq_refl E).
      - apply obind_val in E as (vs & V & E). cbn [dict_values] in V. apply obind_val in V as (l1 & V & Q). injection Q as <-.
        exists l1. split; [|exact (CI (PDict l1) l1 eq_refl E)]. intros k y Iy. destruct (omap_in _ _ _ _ V Iy) as ([s x] & Ix & F).
        cbn [fst snd] in F. apply obind_val in F as (y' & F & Q). injection Q as <- <-. exists (SKey s), x. split; auto. apply (Dl s x Ix). }
    destruct E' as (l & A & l' & B & ->). apply fits_dict; auto.
    intros k x Ix. destruct (omap_in _ _ _ _ B Ix) as ([k' y] & Iy & C). cbn [fst snd] in C.
    apply obind_val in C as (x' & C & Q). injection Q as -> ->. destruct (A _ _ Iy) as (s & z & Dz & F). exact (IT s z x y Dz F C ltac:(first [exact NK|discriminate])).
Qed.
End Loaded.
End Again.
