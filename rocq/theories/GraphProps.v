(** C75: pickling and deep copying keep who refers to whom, unless a generic collection is met again while it is copied. *)
From Coq Require Import List Arith NArith Bool Lia.
From Verif Require Import Prelude GraphModel GraphSpec GraphProofs.
Import ListNotations.

(** Pickling, or deep copying, anything in any graph of objects gives the same graph, if cycles through generic collections are guarded. *)
Theorem C75_same {A C L} md (h : list (obj A C L)) x n : closed h -> x < length h -> guarded h x -> length h < n ->
  exists w st, copy md h n (PR x) (State [] []) = Some (w, st) /\ same_graph h (PR x) (heap st) w.
Proof. intros CL Lx GD Ln. now apply copied. Qed.

(** Without such cycles, nothing is asked. *)
Theorem C75_no_cycle {A C L} md (h : list (obj A C L)) x n : closed h -> x < length h -> length h < n ->
  (forall g s, generic h g -> trail h g (g :: s) -> s = []) ->
  exists w st, copy md h n (PR x) (State [] []) = Some (w, st) /\ same_graph h (PR x) (heap st) w.
Proof.
  intros CL Lx Ln N. apply C75_same; auto. intros g s G T Ns. now rewrite (N g s G T) in Ns.
Qed.

(** Nor, for a record pickled or copied, if all such cycles go through that record. *)
Theorem C75_from_record {A C L} md (h : list (obj A C L)) x n : closed h -> x < length h -> length h < n ->
  ~ generic h x -> (forall g s, generic h g -> trail h g (g :: s) -> s <> [] -> In x s) ->
  exists w st, copy md h n (PR x) (State [] []) = Some (w, st) /\ same_graph h (PR x) (heap st) w.
Proof.
  intros CL Lx Ln Gx N. apply C75_same; auto. intros g s G T Ns. exists x. split; eauto. split; auto.
  intros s' T'.
  assert (R : forall s, trail h x s -> s <> [] -> In x s).
  { clear. intros s T. induction T as [|r s T IH N]; [congruence|]. intros _. destruct s as [|a s]; [cbn in N; subst; now left|].
    right. apply IH. discriminate. }
  destruct (R (g :: s') T') as [->|I]; auto; [discriminate|contradiction].
Qed.

(** But a generic collection pickled by itself, whose items lead back to it, comes back empty. *)
Theorem C75_lost {A C L} (h : list (obj A C L)) n g c l s w st :
  nth_error h g = Some (Obj (Generic c) l) -> trail h g (g :: s) -> s <> [] ->
  copy Pickle h n (PR g) (State [] []) = Some (w, st) ->
  exists r, w = PR r /\ nth_error (heap st) r = Some (Obj (Generic c) []).
Proof. apply lost. Qed.

Module Ex.
Definition class := N.
(** A record (0) with a name and a list of children (1), which have a name, the record as their parent, and one of them
    (3) the other (2) as its friend. *)
Definition h : list (obj N N N) :=
  [Obj (Plain 10%N) [(0%N, PA 7%N); (1%N, PR 1)];
   Obj (Generic 11%N) [(0%N, PR 2); (1%N, PR 3)];
   Obj (Plain 12%N) [(0%N, PA 8%N); (2%N, PR 0)];
   Obj (Plain 12%N) [(0%N, PA 9%N); (2%N, PR 0); (3%N, PR 2)]].
Lemma h_closed : closed h.
Proof.
  intros o k v I J r ->. cbn in I. destruct I as [<-|[<-|[<-|[<-|[]]]]]; cbn in J;
    repeat destruct J as [J|J]; try contradiction; inversion J; subst; cbn; lia.
Qed.
Lemma h_generic g : generic h g -> g = 1.
Proof. intros (c & l & E). destruct g as [|[|[|[|g]]]]; cbn in E; try discriminate; auto. destruct g; discriminate. Qed.
Lemma h_points a b : points h a b -> (a, b) = (0, 1) \/ (a, b) = (1, 2) \/ (a, b) = (1, 3) \/ (a, b) = (2, 0) \/ (a, b) = (3, 0) \/ (a, b) = (3, 2).
Proof.
  intros (o & k & E & I). destruct a as [|[|[|[|a]]]]; cbn in E; try (destruct a; discriminate); injection E as <-; cbn in I;
    repeat destruct I as [I|I]; try contradiction; inversion I; subst; auto 7.
Qed.
Lemma h_cycles g s : generic h g -> trail h g (g :: s) -> s <> [] -> In 0 s.
Proof.
  intros G T N. apply h_generic in G. subst g. inversion T as [|? ? T1 N1]; subst. destruct s as [|a s]; [congruence|].
  cbn in N1. apply h_points in N1. assert (a = 0) by (repeat destruct N1 as [N1|N1]; congruence). subst. now left.
Qed.
Example C75_ex : closed h /\ ~ generic h 0 /\ (forall g s, generic h g -> trail h g (g :: s) -> s <> [] -> In 0 s) /\
  match copy Pickle h 5 (PR 0) (State [] []) with
  | Some (w, st) => w = PR 0 /\ nth_error (heap st) 3 = Some (Obj (Generic 11%N) [(0%N, PR 1); (1%N, PR 2)]) /\
                    nth_error (heap st) 0 = Some (Obj (Plain 10%N) [(0%N, PA 7%N); (1%N, PR 3)])
  | None => False
  end.
Proof.
  split; [apply h_closed|]. split; [intros G; apply h_generic in G; discriminate|]. split; [apply h_cycles|]. vm_compute. auto.
Qed.
(** The same without parents *)
Definition h' : list (obj N N N) :=
  [Obj (Generic 11%N) [(0%N, PR 1); (1%N, PR 2); (2%N, PR 1)]; Obj (Plain 12%N) [(3%N, PR 2)]; Obj (Plain 12%N) [(3%N, PR 1)]].
Example C75_ex_no_cycle : closed h' /\ (forall g s, generic h' g -> trail h' g (g :: s) -> s = []) /\
  copy Pickle h' 4 (PR 0) (State [] []) <> None /\ points h' 1 2 /\ points h' 2 1.
Proof.
  split; [|split; [|split; [discriminate|split]]].
  - intros o k v I J r ->. cbn in I. destruct I as [<-|[<-|[<-|[]]]]; cbn in J;
    repeat destruct J as [J|J]; try contradiction; inversion J; subst; cbn; lia.
  - intros g s G T. assert (g = 0). { destruct G as (c & l & E). destruct g as [|[|[|g]]]; cbn in E; try discriminate; auto. destruct g; discriminate. }
    subst g. inversion T as [|? ? T1 N1]; subst. destruct s as [|a s]; auto. exfalso. destruct N1 as (o & k & E & I).
    destruct a as [|[|[|a]]]; cbn in E; try (destruct a; discriminate); injection E as <-; cbn in I;
    repeat (destruct I as [I|I]; [discriminate I|]); try contradiction.
  - exists (Obj (Plain 12%N) [(3%N, PR 2)]), 3%N. cbn. auto.
  - exists (Obj (Plain 12%N) [(3%N, PR 1)]), 3%N. cbn. auto.
Qed.
Lemma h_trail : trail h 1 [1; 0; 2; 1].
Proof.
  constructor; [constructor; [constructor; [constructor; [constructor|reflexivity]|]|]|].
  - exists (Obj (Generic 11%N) [(0%N, PR 2); (1%N, PR 3)]), 0%N. cbn. auto.
  - exists (Obj (Plain 12%N) [(0%N, PA 8%N); (2%N, PR 0)]), 2%N. cbn. auto.
  - exists (Obj (Plain 10%N) [(0%N, PA 7%N); (1%N, PR 1)]), 1%N. cbn. auto.
Qed.
Example C75_ex_lost : trail h 1 [1; 0; 2; 1] /\
  match copy Pickle h 5 (PR 1) (State [] []) with
  | Some (PR r, st) => nth_error (heap st) r = Some (Obj (Generic 11%N) [])
  | _ => False
  end.
Proof. split; [apply h_trail|]. vm_compute. reflexivity. Qed.
End Ex.

(** So pickling does not always give the same graph; the items are not even reachable any more. *)
Theorem C75_pickle_refuted : exists (h : list (obj N N N)) x, closed h /\ x < length h /\ forall n, 4 < n ->
  exists w st, copy Pickle h n (PR x) (State [] []) = Some (w, st) /\ ~ same_graph h (PR x) (heap st) w.
Proof.
  exists Ex.h, 1. split; [apply Ex.h_closed|]. split; [cbn; lia|]. intros n Ln.
  do 5 (destruct n as [|n]; [lia|]).
  eexists. eexists. split; [reflexivity|]. intros (f & _ & S & G). cbn in S. apply G in S as (kd & l & l' & E1 & E2 & F).
  cbn in E1, E2. injection E1 as <- <-. injection E2 as <-. inversion F.
Qed.
(** Nor does deep copying: the copy has the items, but these refer to another collection. *)
Theorem C75_deepcopy_refuted : exists (h : list (obj N N N)) x, closed h /\ x < length h /\ forall n, 4 < n ->
  exists r st, copy Deepcopy h n (PR x) (State [] []) = Some (PR r, st) /\ ~ same_graph h (PR x) (heap st) (PR r) /\
    exists c l k i p q, nth_error (heap st) r = Some (Obj (Generic c) ((k, PR i) :: l)) /\
      points (heap st) i p /\ points (heap st) p q /\ q <> r /\ nth_error (heap st) q = Some (Obj (Generic c) []).
Proof.
  exists Ex.h, 1. split; [apply Ex.h_closed|]. split; [cbn; lia|]. intros n Ln.
  do 5 (destruct n as [|n]; [lia|]).
  eexists. eexists. split; [reflexivity|]. split.
  - intros (f & _ & S & G). cbn in S.
    destruct (G 1 4 S) as (kd & l & l' & E1 & E2 & F). cbn in E1, E2. injection E1 as <- <-. injection E2 as <-.
    inversion F as [|? ? ? ? [_ F1] _]; subst. cbn in F1. destruct (G 2 0 F1) as (kd & l & l' & E1 & E2 & F2).
    cbn in E1, E2. injection E1 as <- <-. injection E2 as <-. inversion F2 as [|? ? ? ? _ F3]; subst. inversion F3 as [|? ? ? ? [_ F4] _]; subst.
    cbn in F4. destruct (G 0 1 F4) as (kd & l & l' & E1 & E2 & F5). cbn in E1, E2. injection E1 as <- <-. injection E2 as <-.
    inversion F5 as [|? ? ? ? _ F6]; subst. inversion F6 as [|? ? ? ? [_ F7] _]; subst. cbn in F7. congruence.
  - exists 11%N. eexists. eexists. exists 0, 1, 2. split; [reflexivity|]. split; [|split; [|split; [discriminate|reflexivity]]].
    + eexists. exists 2%N. split; [reflexivity|]. cbn. auto.
    + eexists. exists 1%N. split; [reflexivity|]. cbn. auto.
Qed.

Print Assumptions C75_same.
Print Assumptions C75_no_cycle.
Print Assumptions C75_from_record.
Print Assumptions C75_lost.
Print Assumptions C75_pickle_refuted.
Print Assumptions C75_deepcopy_refuted.
