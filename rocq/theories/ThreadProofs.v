From Coq Require Import List Arith Bool Lia.
From Verif Require Import Prelude ThreadModel ThreadSpec.
Import ListNotations.

Section Proofs.
Context {V : Type}.
Notation state := (state V).
Notation move := (move V).
Notation event := (event V).

Lemma become_same i (d : doing V) f : become i d f i = d.
Proof. unfold become. now rewrite Nat.eqb_refl. Qed.
Lemma become_run i (d : doing V) f j p m : become i d f j = Run p m -> d = Run p m \/ f j = Run p m.
Proof. unfold become. destruct (Nat.eqb i j); auto. Qed.

Lemma play_app (st : state) a b : play st (a ++ b) =
  let (st1, e1) := play st a in let (st2, e2) := play st1 b in (st2, e1 ++ e2).
Proof.
  revert st. induction a as [|m a IH]; intros st; cbn.
  - now destruct (play st b).
  - destruct (do_move st m) as [st1 e1]. rewrite IH. destruct (play st1 a) as [st2 e2]. destruct (play st2 b) as [st3 e3].
    now rewrite app_assoc.
Qed.

(** Where things come from *)
Definition from (past : list event) (v : V) : Prop := exists j, In (Made j v) past \/ In (Assigned j v) past.
Definition known (past : list event) (st : state) : Prop :=
  (forall v, slot st = Some v -> from past v) /\ (forall i p v, threads st i = Run p (Some v) -> from past v).
Lemma from_more past e v : from past v -> from (past ++ e) v.
Proof. intros (j & [I|I]); exists j; [left|right]; apply in_or_app; auto. Qed.

Lemma known_move past (st : state) m st' e : known past st -> do_move st m = (st', e) ->
  known (past ++ e) st' /\ forall a i v b, e = a ++ Returned i v :: b -> from past v.
Proof.
  intros [K1 K2] E.
  assert (Same : known (past ++ e) st).
  { split; intros; apply from_more; eauto. }
  assert (Sub : forall p i made, (forall v, made = Some v -> from (past ++ e) v) -> known (past ++ e) (State (slot st) (become i (Run p made) (threads st)))).
  { intros p i made F. split; cbn; [intros v Ev; apply from_more; eauto|].
    intros j q v T. apply become_run in T as [T|T]; [injection T as <- ->; auto|apply from_more; eauto]. }
  assert (Off : forall i, known (past ++ e) (State (slot st) (become i Idle (threads st)))).
  { intros i. split; cbn; [intros v Ev; apply from_more; eauto|].
    intros j q v T. apply become_run in T as [T|T]; [discriminate T|apply from_more; eauto]. }
  destruct m as [i p|i fresh|i v|i]; cbn in E.
  - destruct (threads st i) eqn:T; injection E as <- <-.
    + split; [apply Sub; discriminate|]. intros [|] ? ? ? Z; discriminate Z.
    + split; auto. intros [|] ? ? ? Z; discriminate Z.
  - destruct (threads st i) as [|p made] eqn:T; [injection E as <- <-; split; auto; intros [|] ? ? ? Z; discriminate Z|].
    destruct p as [| |yes no|p|p|p]; cbn in E.
    + destruct (slot st) as [v|] eqn:Es; injection E as <- <-.
      * split; [apply Off|]. intros [|x a] j w b Z; [injection Z as <- <- <-; now apply K1|]. destruct a; discriminate Z.
      * split; [apply Off|]. intros [|x a] j w b Z; [discriminate Z|]. destruct a; discriminate Z.
    + injection E as <- <-. split; [apply Off|]. intros [|x a] j w b Z; [discriminate Z|]. destruct a; discriminate Z.
    + injection E as <- <-. split; [apply Sub; intros v ->; apply from_more; eauto|]. intros [|] ? ? ? Z; discriminate Z.
    + destruct (slot st) as [v|] eqn:Es; injection E as <- <-.
      * split; [apply Sub; intros w ->; apply from_more; eauto|]. intros [|] ? ? ? Z; discriminate Z.
      * split; [apply Off|]. intros [|x a] j w b Z; [discriminate Z|]. destruct a; discriminate Z.
    + injection E as <- <-. split; [apply Sub|].
      * intros v Z. injection Z as <-. exists i. left. apply in_or_app. right. now left.
      * intros [|x a] j w b Z; [discriminate Z|]. destruct a; discriminate Z.
    + destruct made as [v|]; injection E as <- <-.
      * split; [|intros [|] ? ? ? Z; discriminate Z]. split; cbn.
        -- intros w Z. injection Z as <-. apply from_more. eauto.
        -- intros j q w Z. apply become_run in Z as [Z|Z]; [injection Z as <- <-|]; apply from_more; eauto.
      * split; [apply Off|]. intros [|x a] j w b Z; [discriminate Z|]. destruct a; discriminate Z.
  - destruct (threads st i) eqn:T; injection E as <- <-.
    + split.
      * split; cbn; [|intros j q w Z; apply from_more; eauto]. intros w Z. injection Z as <-. exists i. right. apply in_or_app. right. now left.
      * intros [|x a] j w b Z; [discriminate Z|]. destruct a; discriminate Z.
    + split; auto. intros [|] ? ? ? Z; discriminate Z.
  - destruct (threads st i) eqn:T; [destruct (slot st) eqn:Es|]; injection E as <- <-.
    + split; [split; cbn; [discriminate|intros j q w Z; apply from_more; eauto]|]. intros [|x a] j w b Z; [discriminate Z|]. destruct a; discriminate Z.
    + split; auto. intros [|x a] j w b Z; [discriminate Z|]. destruct a; discriminate Z.
    + split; auto. intros [|] ? ? ? Z; discriminate Z.
Qed.

Lemma honest_from past (st : state) ms st' tr : known past st -> play st ms = (st', tr) ->
  forall a i v b, tr = a ++ Returned i v :: b -> from (past ++ a) v.
Proof.
  revert past st tr. induction ms as [|m ms IH]; intros past st tr K E a i v b Z; cbn in E.
  - injection E as <- <-. destruct a; discriminate Z.
  - destruct (do_move st m) as [st1 e1] eqn:E1. destruct (play st1 ms) as [st2 e2] eqn:E2. injection E as <- <-.
    destruct (known_move past st m st1 e1 K E1) as [K1 H1].
    assert (S : (exists b', e1 = a ++ Returned i v :: b') \/ (exists a', a = e1 ++ a' /\ e2 = a' ++ Returned i v :: b)).
    { clear -Z. revert a Z. induction e1 as [|x e1 IH]; intros a Z; cbn in Z; [right; now exists a|].
      destruct a as [|y a]; cbn in Z; injection Z as -> Z; [left; now exists e1|].
      destruct (IH a Z) as [(b' & ->)|(a' & -> & ->)]; [left; now exists b'|right; now exists a']. }
    destruct S as [(b' & ->)|(a' & -> & ->)].
    + apply from_more. now apply (H1 a i v b').
    + rewrite app_assoc. eapply IH; [exact K1|exact E2|reflexivity].
Qed.

(** No KeyErrors *)
Fixpoint ok_set (fo : bool) (p : prog) (made : bool) : bool :=
  match p with
  | Ret => true
  | Fail => fo
  | IfIn yes _ => ok_set fo yes made
  | Look p => ok_set fo p made
  | Make p => ok_set fo p true
  | Put p => made && ok_set fo p true
  end.
Fixpoint ok_unset (fo : bool) (p : prog) (made : bool) : bool :=
  match p with
  | Ret => false
  | Fail => fo
  | IfIn _ no => ok_unset fo no made && ok_set fo no made
  | Look p => false
  | Make p => ok_unset fo p true && ok_set fo p true
  | Put p => made && ok_set fo p true
  end.
Definition has {X} (o : option X) : bool := match o with Some _ => true | None => false end.
Definition fine fo (st : state) : Prop :=
  forall i p made, threads st i = Run p made -> ok_set fo p (has made) = true /\ (slot st = None -> ok_unset fo p (has made) = true).
Definition lawful fo (e : list event) : Prop := forall i x, In (Raised i x) e -> fo = true /\ x = AttrErr.

Lemma fine_move fo (P : prog -> Prop) (st : state) m st' e :
  (forall p, P p -> ok_set fo p false = true /\ ok_unset fo p false = true) ->
  fine fo st -> begins P m -> ~ deletes m -> do_move st m = (st', e) -> fine fo st' /\ lawful fo e.
Proof.
  intros HP F B D E.
  assert (Nil : lawful fo []) by (intros i x []).
  assert (Off : forall i, fine fo (State (slot st) (become i Idle (threads st)))).
  { intros i j q mq T. apply become_run in T as [T|T]; [discriminate T|apply (F j q mq T)]. }
  assert (Sub : forall i p made, ok_set fo p (has made) = true -> (slot st = None -> ok_unset fo p (has made) = true) ->
    fine fo (State (slot st) (become i (Run p made) (threads st)))).
  { intros i p made O1 O2 j q mq T. apply become_run in T as [T|T]; [injection T as <- <-; auto|apply (F j q mq T)]. }
  destruct m as [i p|i fresh|i v|i]; cbn in E, B, D; [| | |tauto].
  - destruct (threads st i); injection E as <- <-; split; auto. destruct (HP p B). apply Sub; auto.
  - destruct (threads st i) as [|p made] eqn:T; [injection E as <- <-; auto|].
    destruct (F i p made T) as [O1 O2].
    destruct p as [| |yes no|p|p|p]; cbn in E, O1, O2.
    + destruct (slot st) as [v|] eqn:Es; [|discriminate (O2 eq_refl)]. injection E as <- <-. split; [apply Off|].
      intros j x [Z|[]]. discriminate Z.
    + injection E as <- <-. split; [apply Off|]. intros j x [Z|[]]. injection Z as <- <-. auto.
    + injection E as <- <-. split; auto. destruct (slot st) as [v|] eqn:Es.
      * apply Sub; auto. discriminate.
      * specialize (O2 eq_refl). apply andb_true_iff in O2 as [O2 O3]. apply Sub; auto.
    + destruct (slot st) as [v|] eqn:Es; [|discriminate (O2 eq_refl)]. injection E as <- <-. split; auto. apply Sub; auto. discriminate.
    + injection E as <- <-. split; [|intros j x [Z|[]]; discriminate Z]. apply Sub; auto. intros Es. specialize (O2 Es).
      apply andb_true_iff in O2 as [O2 O3]. auto.
    + destruct made as [v|]; [|discriminate O1]. injection E as <- <-. split; auto. cbn in O1.
      intros j q mq Z. cbn [slot]. split; [|discriminate]. apply become_run in Z as [Z|Z]; [injection Z as <- <-; exact O1|apply (F j q mq Z)].
  - destruct (threads st i); injection E as <- <-; split; auto.
    + intros j q mq Z. cbn [slot]. split; [apply (F j q mq Z)|discriminate].
    + intros j x [Z|[]]. discriminate Z.
Qed.
Lemma fine_play fo (P : prog -> Prop) (st : state) ms st' e :
  (forall p, P p -> ok_set fo p false = true /\ ok_unset fo p false = true) ->
  fine fo st -> Forall (fun m => begins P m /\ ~ deletes m) ms -> play st ms = (st', e) -> lawful fo e.
Proof.
  intros HP. revert st e. induction ms as [|m ms IH]; intros st e F A E; cbn in E.
  - injection E as <- <-. intros i x [].
  - destruct (do_move st m) as [st1 e1] eqn:E1. destruct (play st1 ms) as [st2 e2] eqn:E2. injection E as <- <-.
    inversion A as [|? ? [A1 A2] A3]; subst. destruct (fine_move fo P st m st1 e1 HP F A1 A2 E1) as [F1 L1].
    specialize (IH st1 e2 F1 A3 E2). intros i x I. apply in_app_iff in I as [I|I]; eauto.
Qed.

(** When nobody stores *)
Lemma settled_move (st : state) v m st' e : slot st = Some v -> nobody_stores st -> begins only_reads m -> ~ deletes m -> ~ assigns m ->
  do_move st m = (st', e) -> slot st' = Some v /\ nobody_stores st' /\ forall x, In x e -> exists i, x = Returned i v.
Proof.
  intros Es N B D S E.
  assert (Sub : forall i p made, only_reads p -> nobody_stores (State (slot st) (become i (Run p made) (threads st)))).
  { intros i p made O j q mq T. apply become_run in T as [T|T]; [injection T as <- <-; auto|apply (N j q mq T)]. }
  assert (Off : forall i, nobody_stores (State (slot st) (become i Idle (threads st)))).
  { intros i j q mq T. apply become_run in T as [T|T]; [discriminate T|apply (N j q mq T)]. }
  destruct m as [i p|i fresh|i w|i]; cbn in E, B, D, S; try tauto.
  - destruct (threads st i); injection E as <- <-; split; auto; split; auto; try (intros x []).
  - destruct (threads st i) as [|p made] eqn:T; [injection E as <- <-; split; auto; split; auto; intros x []|].
    specialize (N i p made T) as O. destruct p as [| |yes no|p|p|p]; cbn in E, O; try contradiction; rewrite Es in E; injection E as <- <-.
    + split; auto. rewrite <- Es. split; [apply Off|]. intros x [<-|[]]. now exists i.
    + split; auto. rewrite <- Es. split; [apply Sub, O|]. intros x [].
    + split; auto. rewrite <- Es. split; [apply Sub, O|]. intros x [].
Qed.
Lemma settled_play (st : state) v ms st' e : slot st = Some v -> nobody_stores st ->
  Forall (fun m => begins only_reads m /\ ~ deletes m /\ ~ assigns m) ms -> play st ms = (st', e) ->
  slot st' = Some v /\ nobody_stores st' /\ forall x, In x e -> exists i, x = Returned i v.
Proof.
  revert st e. induction ms as [|m ms IH]; intros st e Es N A E; cbn in E.
  - injection E as <- <-. split; auto. split; auto. intros x [].
  - destruct (do_move st m) as [st1 e1] eqn:E1. destruct (play st1 ms) as [st2 e2] eqn:E2. injection E as <- <-.
    inversion A as [|? ? (A1 & A2 & A3) A4]; subst. destruct (settled_move st v m st1 e1 Es N A1 A2 A3 E1) as (Es1 & N1 & L1).
    destruct (IH st1 e2 Es1 N1 A4 E2) as (Es2 & N2 & L2). split; auto. split; auto. intros x I. apply in_app_iff in I as [I|I]; auto.
Qed.

(** One thread alone *)
Definition next (i : nat) (s : option V) (d : doing V) (m : move) : option V * doing V * list event :=
  match m, d with
  | Begin _ p, Idle => (s, Run p None, [])
  | Go _ fresh, Run p made =>
      match p with
      | Ret => match s with Some v => (s, Idle, [Returned i v]) | None => (s, Idle, [Raised i KeyErr]) end
      | Fail => (s, Idle, [Raised i AttrErr])
      | IfIn yes no => (s, Run (match s with Some _ => yes | None => no end) made, [])
      | Look p => match s with Some _ => (s, Run p made, []) | None => (s, Idle, [Raised i KeyErr]) end
      | Make p => (s, Run p (Some fresh), [Made i fresh])
      | Put p => match made with Some v => (Some v, Run p made, []) | None => (s, Idle, [Raised i (OtherErr 0)]) end
      end
  | _, _ => (s, d, [])
  end.
Fixpoint solo (i : nat) (s : option V) (d : doing V) (ms : list move) : option V * doing V * list event :=
  match ms with
  | [] => (s, d, [])
  | m :: ms => let '(s1, d1, e1) := next i s d m in let '(s2, d2, e2) := solo i s1 d1 ms in (s2, d2, e1 ++ e2)
  end.
Definition alone i (s : option V) d (st : state) : Prop := slot st = s /\ threads st i = d /\ forall j, i <> j -> threads st j = Idle.
Lemma solo_move i v (st : state) s d m : alone i s d st -> (exists p, m = Begin i p) \/ m = Go i v ->
  exists st', do_move st m = (st', snd (next i s d m)) /\ alone i (fst (fst (next i s d m))) (snd (fst (next i s d m))) st'.
Proof.
  intros (A1 & A2 & A3) M.
  assert (B : forall s' d', alone i s' d' (State s' (become i d' (threads st)))).
  { intros s' d'. split; [reflexivity|]. cbn. split; [apply become_same|]. intros j Ne. unfold become. destruct (Nat.eqb_spec i j); [contradiction|auto]. }
  assert (C : alone i s d st) by (repeat split; auto).
  destruct M as [(p & ->)| ->]; cbn [do_move next]; rewrite A2.
  - destruct d; rewrite ?A1; eexists; (split; [reflexivity|]); auto; apply B.
  - destruct d as [|p made]; [eexists; split; [reflexivity|exact C]|].
    destruct p; unfold instr; rewrite ?A1; [destruct s| |destruct s|destruct s| |destruct made]; eexists; (split; [reflexivity|]); apply B.
Qed.
Lemma solo_play i v (st : state) s d ms : alone i s d st -> Forall (fun m => (exists p, m = Begin i p) \/ m = Go i v) ms ->
  exists st', play st ms = (st', snd (solo i s d ms)) /\ alone i (fst (fst (solo i s d ms))) (snd (fst (solo i s d ms))) st'.
Proof.
  intros A F. revert st s d A. induction F as [|m ms M F IH]; intros st s d A; cbn; [now exists st|].
  destruct (solo_move i v st s d m A M) as (st1 & E1 & A1). rewrite E1. destruct (next i s d m) as [[s1 d1] e1]. cbn in A1.
  destruct (IH st1 s1 d1 A1) as (st2 & E2 & A2). rewrite E2. destruct (solo i s1 d1 ms) as [[s2 d2] e2]. now exists st2.
Qed.

Lemma library_reads p : library p -> only_reads p.
Proof. intros [->|[->|[->|(b & ->)]]]; cbn; auto. Qed.
End Proofs.
