(** C76: slots and generic types with several threads. *)
From Coq Require Import List Arith Bool Lia.
From Verif Require Import Prelude ThreadModel ThreadSpec ThreadProofs.
Import ListNotations.

Section Props.
Context {V : Type}.

(** Whatever the threads do, in whatever order: a read returns something that was assigned, or made by a default, before. *)
Theorem C76_honest : forall (ms : list (move V)) st' tr, play start ms = (st', tr) -> honest tr.
Proof.
  intros ms st' tr E a i v b Z. apply (honest_from [] start ms st' tr) with (i := i) (b := b); auto.
  split; cbn; discriminate.
Qed.

(** As long as nobody deletes, no thread which reads a lazy property, or asks for a generic type, gets an error ... *)
Theorem C76_no_error : forall (ms : list (move V)) st' tr,
  Forall (fun m => begins making m /\ ~ deletes m) ms -> play start ms = (st', tr) -> forall i x, ~ In (Raised i x) tr.
Proof.
  intros ms st' tr A E i x I.
  assert (L : lawful false tr).
  { apply (fine_play false making start ms st'); auto.
    - intros p [->|[->|([|] & ->)]]; now split.
    - intros j p m T. discriminate T. }
  destruct (L i x I) as [Z _]. discriminate Z.
Qed.
(** ... and with the other properties, no error but AttributeError. *)
Theorem C76_only_attribute_error : forall (ms : list (move V)) st' tr,
  Forall (fun m => begins library m /\ ~ deletes m) ms -> play start ms = (st', tr) -> forall i x, In (Raised i x) tr -> x = AttrErr.
Proof.
  intros ms st' tr A E i x I.
  assert (L : lawful true tr).
  { apply (fine_play true library start ms st'); auto.
    - intros p [->|[->|[->|([|] & ->)]]]; now split.
    - intros j p m T. discriminate T. }
  now destruct (L i x I).
Qed.

(** When the slot is set and nobody is about to store, all reads return what is there, until somebody assigns or deletes. *)
Theorem C76_settled : forall (st : state V) v ms st' tr,
  slot st = Some v -> nobody_stores st -> Forall (fun m => begins library m /\ ~ deletes m /\ ~ assigns m) ms ->
  play st ms = (st', tr) -> slot st' = Some v /\ forall x, In x tr -> exists i, x = Returned i v.
Proof.
  intros st v ms st' tr Es N A E.
  destruct (settled_play st v ms st' tr Es N) as (H1 & _ & H2); auto.
  eapply Forall_impl; [|exact A]. intros m (B & R). split; auto. destruct m; cbn in *; auto. now apply library_reads.
Qed.

(** One thread reads first, alone and to the end ([n] instructions).  Then nobody calls the default again, and all threads
    get the value of the first. *)
Theorem C76_first_alone : forall i p n (v : V) ms st' tr,
  making p -> 6 <= n -> Forall (fun m => begins library m /\ ~ deletes m /\ ~ assigns m) ms ->
  play start (Begin i p :: repeat (Go i v) n ++ ms) = (st', tr) ->
  exists rest, tr = Made i v :: Returned i v :: rest /\ (forall x, In x rest -> exists j, x = Returned j v) /\ slot st' = Some v.
Proof.
  intros i p n v ms st' tr P Hn A E.
  change (Begin i p :: repeat (Go i v) n ++ ms) with ((Begin i p :: repeat (Go i v) n) ++ ms) in E. rewrite play_app in E.
  assert (F : exists st1, play start (Begin i p :: repeat (Go i v) n) = (st1, [Made i v; Returned i v]) /\ slot st1 = Some v /\
    forall j q m, threads st1 j = Run q m -> False).
  { replace n with (6 + (n - 6)) by lia. generalize (n - 6). clear -P. intros k.
    assert (Stop : forall (st : state V) e st1, threads st i = Idle -> play st (repeat (Go i v) k) = (st1, e) -> st1 = st /\ e = []).
    { induction k as [|k IH]; intros st e st1 T E; cbn in E; [now injection E as <- <-|].
      rewrite T in E. destruct (play st (repeat (Go i v) k)) as [s2 e2] eqn:E2. injection E as <- <-. now apply (IH st). }
    assert (Six : exists st1, play start (Begin i p :: repeat (Go i v) 6) = (st1, [Made i v; Returned i v]) /\ slot st1 = Some v /\
      forall j, threads st1 j = Idle).
    { destruct (solo_play i v start None Idle (Begin i p :: repeat (Go i v) 6)) as (st1 & E1 & A1 & A2 & A3).
      - repeat split; auto.
      - constructor; [eauto|]. repeat (constructor; [eauto|]). constructor.
      - exists st1. rewrite E1, A1. split; [f_equal|split].
        + destruct P as [->|[->|([|] & ->)]]; reflexivity.
        + destruct P as [->|[->|([|] & ->)]]; reflexivity.
        + intros j. destruct (Nat.eq_dec i j) as [<-|Ne]; [|auto]. rewrite A2. destruct P as [->|[->|([|] & ->)]]; reflexivity. }
    destruct Six as (st1 & E1 & S1 & T1). rewrite repeat_app, app_comm_cons, play_app, E1.
    destruct (play st1 (repeat (Go i v) k)) as [st2 e2] eqn:E2. destruct (Stop st1 e2 st2 (T1 i) E2) as [-> ->].
    exists st1. rewrite app_nil_r. split; auto. split; auto. intros j q m T. rewrite T1 in T. discriminate T. }
  destruct F as (st1 & E1 & S1 & T1). rewrite E1 in E. destruct (play st1 ms) as [st2 e2] eqn:E2. injection E as <- <-.
  exists e2. split; auto. destruct (C76_settled st1 v ms st2 e2 S1) as [H1 H2]; auto. intros j q m T. destruct (T1 j q m T).
Qed.

(** An assignment while nobody is about to store is what everybody reads afterwards. *)
Theorem C76_assigned : forall (st : state V) i v ms st' tr,
  nobody_stores st -> threads st i = Idle -> Forall (fun m => begins library m /\ ~ deletes m /\ ~ assigns m) ms ->
  play st (Set_ i v :: ms) = (st', tr) -> exists rest, tr = Assigned i v :: rest /\ slot st' = Some v /\ forall x, In x rest -> exists j, x = Returned j v.
Proof.
  intros st i v ms st' tr N T A E. cbn in E. rewrite T in E. destruct (play (State (Some v) (threads st)) ms) as [st2 e2] eqn:E2. injection E as <- <-.
  exists e2. split; auto. apply (C76_settled (State (Some v) (threads st)) v ms); auto.
Qed.
End Props.

(** But two threads which both read a lazy property first both call the default, and the first may get a value which nobody
    else ever sees: so it is with safe and with read-only ("never change once set") lazy properties, without anybody assigning ... *)
Theorem C76_twice_refuted : exists (ms : list (move nat)) st' tr,
  Forall (fun m => begins (fun p => p = lazy_safe_get) m /\ ~ deletes m /\ ~ assigns m) ms /\ play start ms = (st', tr) /\
  tr = [Made 0 10; Returned 0 10; Made 1 20; Returned 1 20; Returned 0 20] /\ slot st' = Some 20.
Proof.
  set (ms := [Begin 0 lazy_safe_get; Begin 1 lazy_safe_get; Go 1 0; Go 1 0] ++ repeat (Go 0 10) 6 ++ repeat (Go 1 20) 4 ++ Begin 0 lazy_safe_get :: repeat (Go 0 0) 2 : list (move nat)).
  exists ms, (fst (play start ms)), (snd (play start ms)). split; [repeat constructor; cbn; auto|]. split; [apply surjective_pairing|]. split; vm_compute; reflexivity.
Qed.
(** ... and with generic types: [list_of(t)] returns different types for the same [t]. *)
Theorem C76_two_types_refuted : exists (ms : list (move nat)) st' tr,
  Forall (fun m => begins (fun p => exists named, p = make_generic named) m /\ ~ deletes m /\ ~ assigns m) ms /\ play start ms = (st', tr) /\
  tr = [Made 0 10; Returned 0 10; Made 1 20; Returned 1 20].
Proof.
  set (ms := [Begin 0 (make_generic false); Begin 1 (make_generic true); Go 1 0] ++ repeat (Go 0 10) 5 ++ repeat (Go 1 20) 3 : list (move nat)).
  exists ms, (fst (play start ms)), (snd (play start ms)). split; [repeat constructor; cbn; eauto|]. split; [apply surjective_pairing|]. vm_compute; reflexivity.
Qed.
(** An assignment made while the default of a lazy property is computed is lost. *)
Theorem C76_lost_assignment_refuted : exists (ms : list (move nat)) st' tr,
  Forall (fun m => begins (fun p => p = lazy_safe_get) m /\ ~ deletes m) ms /\ play start ms = (st', tr) /\
  tr = [Made 0 10; Assigned 1 99; Returned 0 10; Returned 1 10] /\ slot st' = Some 10.
Proof.
  set (ms := [Begin 0 lazy_safe_get; Go 0 0; Go 0 0; Go 0 10; Set_ 1 99; Go 0 0; Go 0 0; Go 0 0; Begin 1 lazy_safe_get; Go 1 0; Go 1 0] : list (move nat)).
  exists ms, (fst (play start ms)), (snd (play start ms)). split; [repeat constructor; cbn; auto|]. split; [apply surjective_pairing|]. split; vm_compute; reflexivity.
Qed.
(** A read at the moment of a deletion raises KeyError instead of AttributeError: also where there is a default. *)
Theorem C76_key_error_refuted : forall p, p = plain_get \/ p = lazy_safe_get -> exists (ms : list (move nat)) st' tr,
  Forall (fun m => begins (fun q => q = p) m) ms /\ play start ms = (st', tr) /\ tr = [Assigned 1 5; Deleted 1; Raised 0 KeyErr].
Proof.
  intros p Hp. set (ms := [Set_ 1 5; Begin 0 p; Go 0 0; Del 1; Go 0 0] : list (move nat)). exists ms, (fst (play start ms)), (snd (play start ms)).
  split; [repeat constructor|]. split; [apply surjective_pairing|]. destruct Hp as [->| ->]; vm_compute; reflexivity.
Qed.

Ltac legal := cbn [app repeat]; repeat (apply Forall_cons; [repeat split; cbn; unfold library, making; auto|]); apply Forall_nil.
(** A case for the theorems: three threads, two getters, another order. *)
Example C76_ex :
  let ms := [Begin 0 lazy_safe_get; Begin 1 lazy_get] ++ repeat (Go 0 7) 3 ++ [Go 1 8; Go 0 0; Go 1 8; Begin 2 plain_get; Go 2 0; Go 1 8; Go 0 0; Go 0 0; Go 2 0; Go 1 0; Go 1 0; Go 1 0] in
  Forall (fun m => begins library m /\ ~ deletes m) ms /\
  snd (play start ms) = [Made 0 7; Made 1 8; Returned 0 8; Returned 2 8; Returned 1 8].
Proof.
  split; [legal|vm_compute; reflexivity].
Qed.
Example C76_ex_no_error :
  let ms := [Begin 0 lazy_safe_get; Begin 1 lazy_get; Go 1 4; Go 1 4; Set_ 2 3; Go 0 5; Go 1 4; Go 0 5; Go 1 4; Go 1 4] in
  Forall (fun m => begins making m /\ ~ deletes m) ms /\ snd (play start ms) = [Made 1 4; Assigned 2 3; Returned 0 4; Returned 1 4].
Proof. split; [legal|vm_compute; reflexivity]. Qed.
(** The state of C76_settled with a reader in the middle, and the first read alone *)
Example C76_ex_settled :
  let st := State (Some 6) (fun i => if Nat.eqb i 1 then Run Ret None else Idle) in
  let ms := [Begin 0 lazy_safe_get; Go 0 1; Go 1 1; Go 0 1] in
  nobody_stores st /\ threads st 3 = Idle /\ Forall (fun m => begins library m /\ ~ deletes m /\ ~ assigns m) ms /\
  snd (play st ms) = [Returned 1 6; Returned 0 6].
Proof.
  split; [|split; [reflexivity|split; [|reflexivity]]].
  - intros i p m T. cbn in T. destruct (Nat.eqb i 1); [injection T as <- <-; exact I|discriminate T].
  - legal.
Qed.
Example C76_ex_alone :
  making (make_generic false) /\ snd (play start (Begin 0 (make_generic false) :: repeat (Go 0 5) 6 ++ [Begin 1 (make_generic true); Begin 2 (make_generic false); Go 2 8; Go 1 9; Go 2 8; Go 1 9; Go 1 9; Go 2 8]))
    = [Made 0 5; Returned 0 5; Returned 1 5; Returned 2 5].
Proof. split; [right; right; eauto|vm_compute; reflexivity]. Qed.

Print Assumptions C76_honest.
Print Assumptions C76_no_error.
Print Assumptions C76_only_attribute_error.
Print Assumptions C76_settled.
Print Assumptions C76_first_alone.
Print Assumptions C76_assigned.
Print Assumptions C76_twice_refuted.
Print Assumptions C76_two_types_refuted.
Print Assumptions C76_lost_assignment_refuted.
Print Assumptions C76_key_error_refuted.
