(** C74: how much work it is to compute the identity of a record. *)
From Coq Require Import List Arith NArith ZArith Bool Lia.
From Verif Require Import Prelude SelPathModel FSModel PySeq MFSModel ValModel EqModel IdCostModel IdCostSpec IdCostProofs.
Import ListNotations.

Section Any.
Context {A C H : Type}.
Variable W : classes A C.
Variable sort_items : list (elem * val A C) -> list (elem * val A C).
Variable alien_atom : C -> A -> res (list (elem * val A C)).
Variable a_hash : A -> bool.
Variable ahash : A -> res H.
Variables hnothing hnone : H.
Variable htext : str -> H.
Variable htuple : list H -> H.
Notation rid := (rid W sort_items alien_atom a_hash ahash hnothing hnone htext htuple).
Notation hash := (hash W sort_items alien_atom a_hash ahash hnothing hnone htext htuple).
Notation ridc := (ridc W sort_items alien_atom a_hash ahash hnothing hnone htext htuple).
Notation hashc := (hashc W sort_items alien_atom a_hash ahash hnothing hnone htext htuple).

(** With and without the count, the same is computed. *)
Theorem C74_counted n f ty sel v : fst (ridc n f ty sel v) = rid n f ty sel v /\ fst (hashc n v) = hash n v.
Proof. split; apply counted. Qed.

(** At most one call for each object in the record. *)
Theorem C74_once n c v i : plainly W c v -> rid n None (RClass c) None v = Ok i ->
  snd (ridc n None (RClass c) None v) <= size v.
Proof.
  intros P E. rewrite <- (proj1 (C74_counted n None (RClass c) None v)) in E. now apply (once W sort_items alien_atom a_hash ahash hnothing hnone htext htuple n c v i).
Qed.

(** So for hash(), too. *)
Theorem C74_hash_once n c sl h : plainly W c (VRec c sl) -> hash n (VRec c sl) = Ok h ->
  snd (hashc n (VRec c sl)) <= size (VRec c sl).
Proof.
  intros P E. rewrite <- (proj2 (C74_counted n None RAuto None (VRec c sl))) in E. destruct n as [|n]; [discriminate E|].
  change (hashc (S n) (VRec c sl)) with (later (ridc n None (RClass c) None (VRec c sl)) (hashc n)) in *.
  apply later_ok in E as (i & E1 & E2 & ->). apply (once W) in E1 as (B & l & -> & S & _); auto.
  rewrite (hash_free W sort_items alien_atom a_hash ahash hnothing hnone htext htuple n _ S). lia.
Qed.
End Any.

Module Ex.
Definition p_child : str := [99; 104]%N.
Definition p_name' : str := [110; 97]%N.

(** Families: [child] is declared with one class (0), with two (1, 2), or as an object of any class (3). *)
Definition W : classes N nat := mkClasses (fun _ => KRec)
  (fun c => [mkProp p_child false (Some match c with
                                        | 0 => [None; Some 0]
                                        | 1 | 2 => [Some 1; Some 2]
                                        | _ => [None]
                                        end) None;
             mkProp p_name' false None None])
  (fun _ => []) (fun _ => IPlain) (fun _ => None) (fun _ v => Ok v).
Fixpoint chain (c k : nat) : val N nat :=
  match k with
  | O => VRec c [(p_name', VText [])]
  | S k => VRec c [(p_child, chain c k); (p_name', VText [])]
  end.
Fixpoint ident (k : nat) : val N nat :=
  match k with
  | O => VSeq true [VNone; VText []]
  | S k => VSeq true [ident k; VText []]
  end.
Definition sort_items (l : list (elem * val N nat)) := l.
Definition alien (_ : nat) (_ : N) : res (list (elem * val N nat)) := Err TypeErr.
Notation ridc := (ridc W sort_items alien (fun _ => true) (fun a => Ok a) 0%N 0%N (fun _ => 1%N) (fun _ => 2%N)).
Notation hashc := (hashc W sort_items alien (fun _ => true) (fun a => Ok a) 0%N 0%N (fun _ => 1%N) (fun _ => 2%N)).

Lemma chain_size c k : size (chain c k) = 2 + 2 * k.
Proof. induction k; cbn; auto. rewrite IHk. lia. Qed.

Lemma chain_plainly k : plainly W 0 (chain 0 k).
Proof.
  assert (S0 : sorted_properties W 0 = props W 0) by reflexivity.
  induction k as [|k IH].
  - apply pl_record; auto; cbn.
    + exists (mkProp p_name' false None None). cbn. auto.
    + repeat constructor; cbn; intuition; discriminate.
    + intros p u [[<-|[<-|[]]] _] E _; cbn in E; [discriminate|]. injection E as <-. left. split; [intros vts d Z; discriminate Z|constructor].
  - apply pl_record; auto; cbn.
    + exists (mkProp p_name' false None None). cbn. auto.
    + repeat constructor; cbn; intuition; discriminate.
    + intros p u [[<-|[<-|[]]] _] E _; cbn in E; injection E as <-.
      * right. exists 0. split; auto. exists [None], []. split; auto. cbn. intuition.
      * left. split; [intros vts d Z; discriminate Z|constructor].
Qed.
Example C74_ex : forall k, plainly W 0 (chain 0 k) /\ size (chain 0 k) = 2 + 2 * k.
Proof. split; [apply chain_plainly|apply chain_size]. Qed.
Example C74_ex_once : ridc 9 None (RClass 0) None (chain 0 5) = (Ok (ident 5), 6) /\ size (chain 0 5) = 12 /\ hashc 9 (chain 0 5) = (Ok 2%N, 6).
Proof. vm_compute. auto. Qed.

Lemma ident_hash k : forall n, k + 2 <= n -> hashc n (ident k) = (Ok 2%N, 0).
Proof.
  induction k as [|k IH]; intros n L; destruct n as [|[|n]]; try lia; auto.
  change (later (mapT (hashc (S n)) [ident k; VText []]) (fun hs => done (Ok 2%N)) = (Ok 2%N, 0)).
  cbn [mapT]. rewrite IH by lia. reflexivity.
Qed.

Definition parts (k : nat) : list (val N nat) := match k with O => [VNone; VText []] | S k => [ident k; VText []] end.
Lemma ident_parts k : ident k = VSeq true (parts k).
Proof. now destruct k. Qed.
Notation fieldN := (field W sort_items alien (fun _ => true) (fun a => Ok a) 0%N 0%N (fun _ => 1%N) (fun _ => 2%N)).

Lemma best_two (id : nat -> tally (val N nat)) k x : (forall d, d = 1 \/ d = 2 -> id d = (Ok (ident k), x)) ->
  exists m, best_of id [Some 1; Some 2] (done (Ok ([], 0))) = (Ok (parts k, m), x + x).
Proof.
  intros T. exists (length (filter not_none (parts k))). unfold best_of. cbn [fold_left]. rewrite !T by auto. rewrite ident_parts.
  assert (L : Nat.eqb (length (parts k)) 0 = false) by (now destruct k).
  unfold later, done. cbn [length Nat.eqb orb]. rewrite L, Nat.ltb_irrefl. cbn [orb]. f_equal. lia.
Qed.

Lemma union_step c k n x : c = 1 \/ c = 2 ->
  (forall d, d = 1 \/ d = 2 -> ridc n None (RClass d) None (chain 1 k) = (Ok (ident k), x)) ->
  hashc n (ident k) = (Ok 2%N, 0) ->
  ridc (S n) None (RClass c) None (chain 1 (S k)) = (Ok (ident (S k)), S (x + x)).
Proof.
  intros Hc T E. rewrite ridc_S.
  assert (F : fieldN n (chain 1 (S k)) (mkProp p_child false (Some [Some 1; Some 2]) None) = (Ok (ident k), x + x)).
  { unfold field. change (slot (chain 1 (S k)) (p_name (mkProp (A := N) p_child false (Some [Some 1; Some 2]) None))) with (Some (chain 1 k)).
    cbv zeta. cbn [p_valuetype]. assert (Z : is_same (chain 1 k) (VNone (A := N) (C := nat)) = false) by (destruct k; auto). rewrite Z.
    destruct (best_two (fun d => ridc n None (RClass d) None (chain 1 k)) k x T) as (m & B). rewrite B.
    assert (I : match parts k with [] => chain 1 k | l => VSeq true l end = ident k) by (now destruct k).
    unfold later. cbn [fst]. rewrite I, E. f_equal. lia. }
  assert (S1 : sorted_properties W c = [mkProp p_child false (Some [Some 1; Some 2]) None; mkProp p_name' false None None])
    by (destruct Hc as [-> | ->]; reflexivity).
  cbn [pkey kind W]. rewrite S1. cbn [mapT]. rewrite F. unfold tick, later, done. cbn. f_equal. lia.
Qed.

Lemma union_cost k : forall n c, c = 1 \/ c = 2 -> k + 2 <= n ->
  ridc n None (RClass c) None (chain 1 k) = (Ok (ident k), 2 ^ S k - 1).
Proof.
  induction k as [|k IH]; intros n c Hc L; destruct n as [|n]; try lia.
  - destruct Hc as [-> | ->]; reflexivity.
  - rewrite (union_step c k n (2 ^ S k - 1)); auto.
    + apply f_equal. assert (P : 2 ^ S k <> 0) by (apply Nat.pow_nonzero; discriminate). rewrite (Nat.pow_succ_r 2 (S k)) by lia. lia.
    + intros d Hd. apply IH; auto. lia.
    + apply ident_hash. lia.
Qed.

Lemma object_step k n x : hashc n (chain 3 k) = (Ok 2%N, x) ->
  hashc (S (S n)) (chain 3 (S k)) = (Ok 2%N, S (x + x)).
Proof.
  intros E.
  change (hashc (S (S n)) (chain 3 (S k))) with (later (ridc (S n) None (RClass 3) None (chain 3 (S k))) (hashc (S n))).
  rewrite ridc_S.
  assert (F : fieldN n (chain 3 (S k)) (mkProp p_child false (Some [None]) None) = (Ok (chain 3 k), x)).
  { unfold field. change (slot (chain 3 (S k)) (p_name (mkProp (A := N) (C := nat) p_child false (Some [None]) None))) with (Some (chain 3 k)).
    cbv zeta. cbn [p_valuetype]. assert (Z : is_same (chain 3 k) (VNone (A := N) (C := nat)) = false) by (destruct k; auto). rewrite Z.
    unfold best_of. cbn [fold_left]. unfold later, done. cbn [fst]. rewrite E. reflexivity. }
  cbn [pkey kind W].
  change (sorted_properties W 3) with [mkProp (A := N) (C := nat) p_child false (Some [None]) None; mkProp p_name' false None None].
  cbn [mapT]. rewrite F. change (fieldN n (chain 3 (S k)) (mkProp p_name' false None None)) with (Ok (VText (A := N) (C := nat) []), 0).
  unfold tick, later, done. cbn [fst snd].
  change (hashc (S n) (VSeq true [chain 3 k; VText []])) with (later (mapT (hashc n) [chain 3 k; VText []]) (fun _ => done (Ok 2%N))).
  cbn [mapT]. rewrite E. destruct n; [destruct k; discriminate E|]. unfold later, done. cbn [IdCostModel.hashc]. unfold done. cbv iota. f_equal. lia.
Qed.
Lemma object_cost k : forall n, 2 * k + 3 <= n -> hashc n (chain 3 k) = (Ok 2%N, 2 ^ S k - 1).
Proof.
  induction k as [|k IH]; intros n L; destruct n as [|[|n]]; try lia.
  - destruct n; [lia|]. reflexivity.
  - rewrite (object_step k n (2 ^ S k - 1)) by (apply IH; lia).
    apply f_equal. assert (P : 2 ^ S k <> 0) by (apply Nat.pow_nonzero; discriminate). rewrite (Nat.pow_succ_r 2 (S k)) by lia. lia.
Qed.
End Ex.

(** With two classes of records declared for a property, the number of calls doubles with every level: a chain of
    2k+2 objects takes 2^(k+1)-1. *)
Theorem C74_union_refuted : exists (W : classes N nat) (v : nat -> val N nat), forall k n, k + 2 <= n ->
  size (v k) = 2 * k + 2 /\
  exists i, ridc (H := N) W (fun l => l) (fun _ _ => Err TypeErr) (fun _ => true) (fun a => Ok a) 0%N 0%N (fun _ => 1%N) (fun _ => 2%N)
              n None (RClass 1) None (v k) = (Ok i, 2 ^ (k + 1) - 1).
Proof.
  exists Ex.W, (Ex.chain 1). intros k n L. split; [rewrite Ex.chain_size; lia|]. exists (Ex.ident k).
  replace (k + 1) with (S k) by lia. now apply Ex.union_cost; auto.
Qed.
(** So it does for hash() of records in properties for which some other class is declared, such as object. *)
Theorem C74_object_refuted : exists (W : classes N nat) (v : nat -> val N nat), forall k n, 2 * k + 3 <= n ->
  size (v k) = 2 * k + 2 /\
  exists h, hashc W (fun l => l) (fun _ _ => Err TypeErr) (fun _ => true) (fun a => Ok a) 0%N 0%N (fun _ => 1%N) (fun _ => 2%N)
              n (v k) = (Ok h, 2 ^ (k + 1) - 1).
Proof.
  exists Ex.W, (Ex.chain 3). intros k n L. split; [rewrite Ex.chain_size; lia|]. exists 2%N.
  replace (k + 1) with (S k) by lia. now apply Ex.object_cost.
Qed.
Example C74_ex_refuted : snd (Ex.ridc 12 None (RClass 1) None (Ex.chain 1 9)) = 1023 /\ size (Ex.chain 1 9) = 20 /\
  snd (Ex.hashc 21 (Ex.chain 3 9)) = 1023 /\ size (Ex.chain 3 9) = 20.
Proof. vm_compute. auto. Qed.

Print Assumptions C74_counted.
Print Assumptions C74_once.
Print Assumptions C74_hash_once.
Print Assumptions C74_union_refuted.
Print Assumptions C74_object_refuted.
