(** The visits of [VisitModel] (C41, C42, C64) are those of [AnyHooksModel] with the default hooks. *)
From Coq Require Import String List NArith ZArith Arith Bool Lia.
From Verif Require Import Prelude SelPathModel MFSModel GenModel PickleModel AutoModel JsonModel JsonSpec JsonProofs JsonOutProofs VisitModel AnyHooksModel AnyHooksSpec.
Import ListNotations.
Local Open Scope list_scope.

Definition to_res {A} (x : out A) : res A := match x with Val a => Ok a | Exc _ e => Err e end.

Section Std.
Variable W : world.
Variable o : vopts.
Variable apply : list elem -> option prop -> pyv -> out pyv.

(** The default hooks unpack, aggregate and reduce (visitor.py:195-247, 285-359) with the hook [apply]; the same cases as in
    [VisitModel.visit]. *)
Definition std_unpack (cue : list elem) (v : pyv) (t : vtype) : res (unpacked pyv prop pyv) :=
  match t with
  | TCls c _ =>
      let nothing := Some (fun _ : prop => @Missing pyv PNone) in
      match v with
      | PObj _ sl =>
          let get := Some (fun p => match find_name (q_name p) sl with Some x => Got x | None => Missing PNone end) in
          if is_coll W c then
            match find_name items_name sl with
            | Some (PList l) => Ok (Parts get (Some (indexed 0 l, None)))
            | Some (PDict l) => Ok (Parts get (Some (keyed l, None)))
            | _ => Err VisitorUnpack
            end
          else Ok (Parts get None)
      | PNone => Err NotModelled
      | PList l =>
          if is_coll W c then if is_list_kind (w_kind W c) then Ok (Parts nothing (Some (indexed 0 l, None))) else Err VisitorUnpack
          else Ok (Parts nothing None)
      | PDict l =>
          if is_coll W c then if is_list_kind (w_kind W c) then Err VisitorUnpack else Ok (Parts nothing (Some (keyed l, None)))
          else Ok (Parts nothing None)
      | _ => if is_coll W c then Err VisitorUnpack else Ok (Parts nothing None)
      end
  | _ => Ok (Parts None None)
  end.
Definition class_or (t : vtype) : nat := match t with TCls c _ => c | _ => 0 end.
Definition std_hooks : hooks pyv vtype prop pyv := {|
  h_unpack := std_unpack;
  h_apply := fun cue v p => to_res (apply cue p v);
  h_collect := fun cue ms t => to_res (aggregate W (class_or t) ms);
  h_reduce := fun cue ps mc t =>
    to_res (reduce W o cue (class_or t) (map (fun pr => (q_name (fst pr), snd pr)) (match ps with Some l => l | None => [] end))
              (match mc with PNone => None | a => Some a end))
|}.
Definition std_opts : wopts := {| w_empty_slots := false; w_extraneous := v_extraneous o; w_ignore_empty := v_ignore_empty o;
  w_ignore_none := v_ignore_none o; w_filter := v_filter o |}.

Definition is_cls (t : vtype) : bool := match t with TCls _ _ => true | _ => false end.
Definition py_none (v : pyv) : bool := match v with PNone => true | _ => false end.
Definition py_empty (v : pyv) : bool := match v with PStr [] => true | _ => false end.
(** [map_value] for these classes, values and results; no property is declared with several types *)
Definition std_map : nat -> list elem -> pyv -> vtype -> run pyv :=
  map_value is_cls (fun t => w_props W (class_or t)) (fun t => w_item W (class_or t)) q_name q_extraneous
    (fun p => match q_type p with TAny => None | t => Some (inl t) end)
    (fun v => match v with PObj c _ => TCls c None | _ => TAny end) (fun _ _ => false)
    PNone py_none py_empty py_true (fun _ => false) (fun _ _ e => e) std_opts std_hooks.

Lemma std_left_out cue p : left_out q_name q_extraneous std_opts cue p = is_filtered o cue p.
Proof. reflexivity. Qed.
Lemma std_dropped r : dropped py_none py_empty std_opts r = ignored o r.
Proof. unfold dropped, ignored. destruct r as [| | | |[|c s]| | | | |]; cbn; rewrite ?andb_true_r, ?orb_false_r; reflexivity. Qed.

Lemma snd_andthen {X Y} (m : run X) (k : X -> run Y) : snd (andthen m k) = match snd m with Ok x => snd (k x) | Err e => Err e end.
Proof. destruct m as [l [x|e]]; reflexivity. Qed.
Lemma to_res_bind {X Y} (m : out X) (k : X -> out Y) : to_res (let* x := m in k x) = match to_res m with Ok x => to_res (k x) | Err e => Err e end.
Proof. destruct m; reflexivity. Qed.

(** a value with [visit] of it *)
Notation vis x := (x, visit W o apply x).

Lemma indexed_map {A B} (f : A -> B) l : forall i, indexed i (map f l) = map (fun kx => (fst kx, f (snd kx))) (indexed i l).
Proof. induction l as [|x l IH]; intros i; cbn; [reflexivity|]. now rewrite IH. Qed.
Lemma keyed_map {A B} (f : A -> B) l : keyed (map (fun e => (fst e, f (snd e))) l) = map (fun kx => (fst kx, f (snd kx))) (keyed l).
Proof. unfold keyed. rewrite !map_map. reflexivity. Qed.
Lemma indexed_in {A} (l : list A) : forall i k x, In (k, x) (indexed i l) -> In x l.
Proof. induction l as [|y l IH]; intros i k x; cbn; [auto|]. intros [E|I]; [injection E; auto|eauto]. Qed.
Lemma keyed_in {A} (l : list (str * A)) k x : In (k, x) (keyed l) -> exists k', In (k', x) l.
Proof. unfold keyed. rewrite in_map_iff. intros ([k' y] & E & I). injection E as _ <-. eauto. Qed.

Section Rec.
Variable n : nat.
Hypothesis IH : forall cue v c b, size v < n -> snd (std_map n cue v (TCls c b)) = to_res (visit W o apply v c cue).
Hypothesis N0 : n <> 0.

Lemma std_other cue v t : is_cls t = false -> snd (std_map n cue v t) = to_res (apply cue None v).
Proof.
  destruct n as [|m]; [congruence|]. intros E. unfold std_map. cbn [map_value]. rewrite snd_andthen.
  destruct t; try discriminate; cbn; destruct (apply cue None v); reflexivity.
Qed.
Lemma std_item cue v t : size v < n -> snd (std_map n cue v t) = to_res (map_item apply cue t (vis v)).
Proof. intros L. destruct t as [| |c b]; cbn [map_item fst snd]; [now apply std_other|now apply std_other|now apply IH]. Qed.

Lemma std_coll cue t l : (forall k x, In (k, x) l -> size x < n) ->
  snd (AnyHooksModel.map_collection py_none py_empty std_opts (std_map n) cue t l None) =
  to_res (VisitModel.map_collection o apply cue t (map (fun kx => (fst kx, vis (snd kx))) l)).
Proof.
  induction l as [|[k x] l IHl]; intros L; cbn [AnyHooksModel.map_collection VisitModel.map_collection map fst snd]; [reflexivity|].
  rewrite snd_andthen, to_res_bind, std_item by (eapply L; left; reflexivity).
  destruct (to_res (map_item _ _ _ _)) as [r|e]; [|reflexivity].
  rewrite snd_andthen, to_res_bind, IHl by (intros; eapply L; right; eauto). destruct (to_res (VisitModel.map_collection _ _ _ _ _)); [|reflexivity].
  cbn [ret snd to_res]. now rewrite std_dropped.
Qed.

Lemma std_record cue get get' ps : (forall p, In p ps -> match get p with Got x => get' (q_name p) = Some (vis x) /\ size x < n | Missing _ => get' (q_name p) = None | Raised _ => False end) ->
  res_map (map (fun pr => (q_name (fst pr), snd pr)))
  (snd (AnyHooksModel.map_record is_cls q_name q_extraneous (fun p => match q_type p with TAny => None | t => Some (inl t) end)
    (fun v => match v with PObj c _ => TCls c None | _ => TAny end) (fun _ _ => false) PNone py_none py_empty py_true (fun _ => false) (fun _ _ e => e)
    std_opts std_hooks (std_map n) cue get ps)) =
  to_res (VisitModel.map_record o apply cue ps get').
Proof.
  induction ps as [|p ps IHp]; intros G; cbn [AnyHooksModel.map_record VisitModel.map_record]; [reflexivity|].
  rewrite std_left_out. specialize (IHp (fun q I => G q (or_intror I))).
  destruct (is_filtered o cue p); [exact IHp|]. specialize (G p (or_introl eq_refl)).
  destruct (get p) as [x|x|e]; [|rewrite G; cbn [std_opts w_empty_slots]; exact IHp|contradiction]. destruct G as [-> L].
  rewrite to_res_bind.
  assert (E : snd (AnyHooksModel.map_prop is_cls (fun p => match q_type p with TAny => None | t => Some (inl t) end)
    (fun v => match v with PObj c _ => TCls c None | _ => TAny end) (fun _ _ => false) PNone py_true (fun _ => false) std_hooks (std_map n)
    (cue ++ [EStr (q_name p)]) x p) = to_res (VisitModel.map_prop apply (cue ++ [EStr (q_name p)]) p (vis x))).
  { unfold AnyHooksModel.map_prop, VisitModel.map_prop. cbn [fst snd]. destruct (q_type p) as [| |c b]; cbn [is_cls].
    - destruct x; try reflexivity. cbn [is_cls]. now apply IH.
    - reflexivity.
    - now apply IH. }
  rewrite snd_andthen, E. destruct (to_res (VisitModel.map_prop _ _ _ _)) as [r|e]; [|reflexivity].
  rewrite to_res_bind, <- IHp, snd_andthen. destruct (snd (AnyHooksModel.map_record _ _ _ _ _ _ _ _ _ _ _ _ _ _ _ _ _ _)) as [l|e]; [|reflexivity].
  cbn [ret snd to_res res_map]. rewrite std_dropped. destruct (ignored o r); reflexivity.
Qed.
End Rec.

Lemma reduce_none c l a : to_res (aggregate W c l) = Ok a -> match a with PNone => None | b => Some b end = Some a.
Proof.
  unfold aggregate, to_list, to_dict. destruct (is_list_kind _); [intros E; injection E as <-; reflexivity|].
  destruct (omap _ _); cbn; [|discriminate]. intros E; injection E as <-; reflexivity.
Qed.

Lemma std_visit n : forall cue v c b, size v < n -> snd (std_map n cue v (TCls c b)) = to_res (visit W o apply v c cue).
Proof.
  induction n as [|n IHn]; intros cue v c b L; [lia|]. unfold std_map. cbn [map_value]. change (map_value is_cls (fun t => w_props W (class_or t)) (fun t => w_item W (class_or t)) q_name q_extraneous
    (fun p => match q_type p with TAny => None | t => Some (inl t) end)
    (fun v => match v with PObj c _ => TCls c None | _ => TAny end) (fun _ _ => false)
    PNone py_none py_empty py_true (fun _ => false) (fun _ _ e => e) std_opts std_hooks) with std_map.
  rewrite snd_andthen. cbn [logged snd h_unpack std_hooks].
  assert (FIN : forall get get' l l', (l <> None -> n <> 0) ->
     (forall p, In p (w_props W c) -> match get p with Got x => get' (q_name p) = Some (vis x) /\ size x < n | Missing _ => get' (q_name p) = None | Raised _ => False end) ->
     l' = option_map (map (fun kx => (fst kx, vis (snd kx)))) l ->
     (forall k x m, l = Some m -> In (k, x) m -> size x < n) ->
     snd (mc <~ (match option_map (fun m => (m, None)) l with
                 | Some (l, e) => ms <~ AnyHooksModel.map_collection py_none py_empty std_opts (std_map n) cue (w_item W c) l e ;;
                                  logged (Collect cue) (to_res (aggregate W c ms))
                 | None => ret PNone end) ;;
          ps <~ AnyHooksModel.map_record is_cls q_name q_extraneous (fun p => match q_type p with TAny => None | t => Some (inl t) end)
    (fun v => match v with PObj c _ => TCls c None | _ => TAny end) (fun _ _ => false) PNone py_none py_empty py_true (fun _ => false) (fun _ _ e => e)
    std_opts std_hooks (std_map n) cue get (w_props W c) ;;
          logged (Reduce cue) (h_reduce std_hooks cue (Some ps) mc (TCls c b))) =
     to_res (let* coll := (match l' with
                           | Some l => let* ms := VisitModel.map_collection o apply cue (w_item W c) l in let* a := aggregate W c ms in Val (Some a)
                           | None => Val None end) in
             let* props := VisitModel.map_record o apply cue (w_props W c) get' in reduce W o cue c props coll)).
  { intros get get' l l' N0 G -> LS. rewrite snd_andthen, to_res_bind.
    assert (TAIL : forall mc, snd (ps <~ AnyHooksModel.map_record is_cls q_name q_extraneous (fun p => match q_type p with TAny => None | t => Some (inl t) end)
    (fun v => match v with PObj c _ => TCls c None | _ => TAny end) (fun _ _ => false) PNone py_none py_empty py_true (fun _ => false) (fun _ _ e => e)
    std_opts std_hooks (std_map n) cue get (w_props W c) ;;
          logged (Reduce cue) (h_reduce std_hooks cue (Some ps) mc (TCls c b))) =
       to_res (let* props := VisitModel.map_record o apply cue (w_props W c) get' in reduce W o cue c props (match mc with PNone => None | a => Some a end))).
    { intros mc. rewrite snd_andthen, to_res_bind, <- (std_record n IHn cue get get' _ G).
      destruct (snd (AnyHooksModel.map_record _ _ _ _ _ _ _ _ _ _ _ _ _ _ _ _ _ _)) as [ps|e]; reflexivity. }
    destruct l as [m|]; cbn [option_map].
    - rewrite snd_andthen, to_res_bind, (std_coll n IHn (N0 ltac:(discriminate)) cue (w_item W c) m) by (intros; eapply LS; eauto).
      destruct (to_res (VisitModel.map_collection _ _ _ _ _)) as [ms|e]; [|reflexivity].
      cbn [logged snd]. rewrite to_res_bind. destruct (to_res (aggregate W c ms)) as [a|e] eqn:EA; [|reflexivity].
      cbn [to_res]. rewrite TAIL, (reduce_none c ms a EA). reflexivity.
    - cbn [ret snd to_res]. apply (TAIL PNone). }
  assert (MISS : forall p, In p (w_props W c) -> match @Missing pyv PNone with Got x => (fun _ : str => @None mapper) (q_name p) = Some (vis x) /\ size x < n | Missing _ => (fun _ : str => @None mapper) (q_name p) = None | Raised _ => False end) by auto.
  assert (ER : forall ps : list prop, VisitModel.map_record o apply cue ps (fun _ => None) = Val []).
  { induction ps as [|p ps IHp]; cbn [VisitModel.map_record]; [reflexivity|]. now destruct (is_filtered o cue p). }
  assert (PLAIN : forall v', std_unpack cue v' (TCls c b) = Ok (Parts (Some (fun _ => Missing PNone)) None) ->
     visit W o apply v' c cue = reduce W o cue c [] None -> v = v' ->
     match std_unpack cue v (TCls c b) with Ok x => snd (match x with Stopped r => logged (Stop cue) (Ok r) | Parts get coll => mc <~ match coll with Some (l, e) => ms <~ AnyHooksModel.map_collection py_none py_empty std_opts (std_map n) cue (w_item W (class_or (TCls c b))) l e ;; logged (Collect cue) (h_collect std_hooks cue ms (TCls c b)) | None => ret PNone end ;;
       match get with Some g => ps <~ AnyHooksModel.map_record is_cls q_name q_extraneous (fun p => match q_type p with TAny => None | t => Some (inl t) end)
    (fun v => match v with PObj c _ => TCls c None | _ => TAny end) (fun _ _ => false) PNone py_none py_empty py_true (fun _ => false) (fun _ _ e => e)
    std_opts std_hooks (std_map n) cue g (w_props W (class_or (TCls c b))) ;; logged (Reduce cue) (h_reduce std_hooks cue (Some ps) mc (TCls c b))
       | None => if py_none mc then logged (Apply cue false) (h_apply std_hooks cue v None) else logged (Reduce cue) (h_reduce std_hooks cue None mc (TCls c b)) end end) | Err e => Err e end
     = to_res (visit W o apply v c cue)).
  { intros v' E1 E2 ->. rewrite E1, E2. cbv iota. refine (eq_trans (FIN (fun _ => Missing PNone) (fun _ => None) None None _ MISS eq_refl _) _); [congruence|congruence|].
    cbn. now rewrite ER. }
  assert (NZ : 0 < size v -> n <> 0) by lia.
  assert (ITEMS : forall get get' l l' U, (n <> 0) ->
     (forall p, In p (w_props W c) -> match get p with Got x => get' (q_name p) = Some (vis x) /\ size x < n | Missing _ => get' (q_name p) = None | Raised _ => False end) ->
     l' = map (fun kx => (fst kx, vis (snd kx))) l -> (forall k x, In (k, x) l -> size x < n) -> U = Parts (Some get) (Some (l, None)) ->
     snd (match U with Stopped r => logged (Stop cue) (Ok r) | Parts get coll => mc <~ match coll with Some (l, e) => ms <~ AnyHooksModel.map_collection py_none py_empty std_opts (std_map n) cue (w_item W (class_or (TCls c b))) l e ;; logged (Collect cue) (h_collect std_hooks cue ms (TCls c b)) | None => ret PNone end ;;
       match get with Some g => ps <~ AnyHooksModel.map_record is_cls q_name q_extraneous (fun p => match q_type p with TAny => None | t => Some (inl t) end)
    (fun v => match v with PObj c _ => TCls c None | _ => TAny end) (fun _ _ => false) PNone py_none py_empty py_true (fun _ => false) (fun _ _ e => e)
    std_opts std_hooks (std_map n) cue g (w_props W (class_or (TCls c b))) ;; logged (Reduce cue) (h_reduce std_hooks cue (Some ps) mc (TCls c b))
       | None => if py_none mc then logged (Apply cue false) (h_apply std_hooks cue v None) else logged (Reduce cue) (h_reduce std_hooks cue None mc (TCls c b)) end end)
     = to_res (let* coll := (let* ms := VisitModel.map_collection o apply cue (w_item W c) l' in let* a := aggregate W c ms in Val (Some a)) in
               let* props := VisitModel.map_record o apply cue (w_props W c) get' in reduce W o cue c props coll)).
  { intros get get' l l' U N0 G E1 LS ->. refine (FIN get get' (Some l) (Some l') (fun _ => N0) G _ _); [cbn; now rewrite E1|].
    intros k x m E. injection E as <-. apply LS. }
  destruct (is_coll W c) eqn:K.
  - destruct v as [| | | | |l|l|l|d sl|]; try (unfold std_unpack; rewrite K; cbn [visit]; rewrite K; reflexivity).
    + reflexivity.
    + unfold std_unpack; rewrite K; cbn [visit]; rewrite K. destruct (is_list_kind _) eqn:LK; [|reflexivity].
      refine (eq_trans (ITEMS (fun _ => Missing PNone) (fun _ => None) (indexed 0 l) _ _ (NZ ltac:(simpl; lia)) MISS eq_refl _ eq_refl) _).
      { intros k x I. apply indexed_in in I. apply size_list in I. lia. }
      rewrite (indexed_map (fun x => vis x)). rewrite ER. reflexivity.
    + unfold std_unpack; rewrite K; cbn [visit]; rewrite K. destruct (is_list_kind _) eqn:LK; [reflexivity|].
      refine (eq_trans (ITEMS (fun _ => Missing PNone) (fun _ => None) (keyed l) _ _ (NZ ltac:(simpl; lia)) MISS eq_refl _ eq_refl) _).
      { intros k x I. apply keyed_in in I as [k' I]. apply size_dict in I. lia. }
      rewrite (keyed_map (fun x => vis x)). rewrite ER. reflexivity.
    + assert (GET : forall p, In p (w_props W c) -> match (fun p => match find_name (q_name p) sl with Some x => @Got pyv x | None => Missing PNone end) p with
          Got x => (fun m => find_name m (map (fun kv => (fst kv, vis (snd kv))) sl)) (q_name p) = Some (vis x) /\ size x < n
        | Missing _ => (fun m => find_name m (map (fun kv => (fst kv, vis (snd kv))) sl)) (q_name p) = None | Raised _ => False end).
      { intros p _. cbv beta. rewrite (find_name_mapped (fun _ x => vis x)). destruct (find_name (q_name p) sl) as [x|] eqn:F; cbn [option_map]; [|reflexivity].
        split; [reflexivity|]. apply find_name_in in F. apply (size_obj d) in F. lia. }
      unfold std_unpack; rewrite K; cbn [visit]; rewrite K.
      rewrite (find_name_mapped (fun _ x => match x with PList l => Some (indexed 0 (map (fun x => vis x) l)) | PDict l => Some (keyed (map (fun e => (fst e, vis (snd e))) l)) | _ => None end)).
      destruct (find_name items_name sl) as [v|] eqn:F; cbn [option_map]; [|reflexivity].
      apply find_name_in in F. apply (size_obj d) in F.
      destruct v as [| | | | |l|l|l|d' sl'|]; try reflexivity.
      * refine (eq_trans (ITEMS _ _ (indexed 0 l) _ _ (NZ ltac:(simpl; lia)) GET eq_refl _ eq_refl) _).
        { intros k x I. apply indexed_in in I. apply size_list in I. lia. }
        now rewrite (indexed_map (fun x => vis x)).
      * refine (eq_trans (ITEMS _ _ (keyed l) _ _ (NZ ltac:(simpl; lia)) GET eq_refl _ eq_refl) _).
        { intros k x I. apply keyed_in in I as [k' I]. apply size_dict in I. lia. }
        now rewrite (keyed_map (fun x => vis x)).
  - destruct v as [| | | | |l|l|l|d sl|]; [reflexivity|..];
      try (refine (PLAIN _ _ _ eq_refl); [unfold std_unpack; rewrite K; reflexivity|cbn [visit]; rewrite K; reflexivity]).
    assert (GET : forall p, In p (w_props W c) -> match (fun p => match find_name (q_name p) sl with Some x => @Got pyv x | None => Missing PNone end) p with
          Got x => (fun m => find_name m (map (fun kv => (fst kv, vis (snd kv))) sl)) (q_name p) = Some (vis x) /\ size x < n
        | Missing _ => (fun m => find_name m (map (fun kv => (fst kv, vis (snd kv))) sl)) (q_name p) = None | Raised _ => False end).
    { intros p _. cbv beta. rewrite (find_name_mapped (fun _ x => vis x)). destruct (find_name (q_name p) sl) as [x|] eqn:F; cbn [option_map]; [|reflexivity].
      split; [reflexivity|]. apply find_name_in in F. apply (size_obj d) in F. lia. }
    unfold std_unpack; rewrite K; cbn [visit]; rewrite K.
    refine (FIN _ _ None None _ GET eq_refl _); congruence.
Qed.
End Std.
