(** C77: objects which lead to themselves. *)
From Coq Require Import List Arith Bool Lia.
From Verif Require Import Prelude CycleModel CycleSpec CycleProofs.
Import ListNotations.

Section Props.
Context {A : Type}.
Variable atom_eq : A -> A -> bool.
Variable classes : nat -> cls.
Variable heap : list (node A).
Notation refers := (refers classes heap).

(** Marshalling out and hashing go exactly as deep as the longest path through the properties they look at. *)
Theorem C77_json_depth : forall e n x, json_of classes heap e n x = None <-> deep (refers (json_prop e)) n x.
Proof. intros e n x. apply walk_none. intros. apply json_sel. Qed.
Theorem C77_hash_depth : forall n x, id_of classes heap n x = None <-> deep (refers key_prop) n x.
Proof. intros n x. apply walk_none. intros. apply key_sel. Qed.
(** So with every recursion limit they fail if, and only if, the object leads to one that leads to itself; otherwise the
    number of objects, and one, is enough. *)
Theorem C77_json : forall e x, (cyclic (refers (json_prop e)) x -> forall n, json_of classes heap e n x = None) /\
  (~ cyclic (refers (json_prop e)) x -> forall n, length heap < n -> json_of classes heap e n x <> None).
Proof.
  intros e x. pose proof (refers_bound classes heap (json_prop e)) as Hb. split.
  - intros H n. apply C77_json_depth. now apply (always_deep _ (length heap)).
  - intros H n Hn Z. apply H. apply C77_json_depth in Z. apply (deep_iff_cyclic _ (length heap)); auto. eapply deep_less; eauto.
Qed.
Theorem C77_hash : forall x, (cyclic (refers key_prop) x -> forall n, id_of classes heap n x = None) /\
  (~ cyclic (refers key_prop) x -> forall n, length heap < n -> id_of classes heap n x <> None).
Proof.
  intros x. pose proof (refers_bound classes heap key_prop) as Hb. split.
  - intros H n. apply C77_hash_depth. now apply (always_deep _ (length heap)).
  - intros H n Hn Z. apply H. apply C77_hash_depth in Z. apply (deep_iff_cyclic _ (length heap)); auto. eapply deep_less; eauto.
Qed.
(** Printing stops at a dict that is being printed already: it fails with every limit if, and only if, there is a way round
    which avoids dicts. *)
Theorem C77_repr : forall x, (forall n, repr_of classes heap n x = None) <-> cyclic_through (refers any_prop) (no_dict heap) x.
Proof.
  intros x. rewrite <- print_cyclic. unfold repr_of. split; intros H n; specialize (H n); now apply print_none.
Qed.

(** [==] ends, if one of the two does not lead to a cycle ... *)
Theorem C77_eq_ends : forall n x y, length heap < n ->
  ~ cyclic (refers compared_prop) x \/ ~ cyclic (refers compared_prop) y -> equal atom_eq classes heap n (VR x) (VR y) <> None.
Proof.
  intros n x y Hn H Z. apply equal_none in Z as (x' & y' & Zx & Zy & D1 & D2). injection Zx as <-. injection Zy as <-.
  destruct H as [H|H]; apply H; apply (deep_iff_cyclic _ (length heap)); try apply refers_bound; eapply deep_less; eauto.
Qed.
(** ... and of an object and a copy of it, only then: the answer is yes, or there is none, however high the limit is. *)
Theorem C77_eq_copy : forall T x y, twins heap atom_eq T -> dicts_ok heap -> T x y ->
  (cyclic (refers compared_prop) x -> forall n, equal atom_eq classes heap n (VR x) (VR y) = None) /\
  (~ cyclic (refers compared_prop) x -> forall n, length heap < n -> equal atom_eq classes heap n (VR x) (VR y) = Some true).
Proof.
  intros T x y HT HD H. split.
  - intros C n. destruct (equal_twins atom_eq classes heap T HT HD n (VR x) (VR y)) as [_ H2]; [now constructor|].
    apply (H2 x eq_refl). apply (always_deep _ (length heap)); auto. apply refers_bound.
  - intros C n Hn. destruct (equal_twins atom_eq classes heap T HT HD n (VR x) (VR y)) as [H1 _]; [now constructor|].
    pose proof (C77_eq_ends n x y Hn (or_introl C)) as H2. destruct (equal atom_eq classes heap n (VR x) (VR y)) as [[|]|]; congruence.
Qed.
End Props.

(** Of two different objects, whether [==] ends depends on the order of the declarations. *)
Theorem C77_order_refuted : exists (heap : list (node nat)) (p q : prop),
  let declared l := fun _ : nat => Cls l [] in
  equal Nat.eqb (declared [p; q]) heap 2 (VR 0) (VR 1) = Some false /\
  forall n, equal Nat.eqb (declared [q; p]) heap n (VR 0) (VR 1) = None.
Proof.
  exists [Rec 0 [(0, VA 1); (1, VR 0)]; Rec 0 [(0, VA 2); (1, VR 1)]], (Prp 0 false true), (Prp 1 false true). split; [reflexivity|].
  induction n as [|n IH]; [reflexivity|]. cbn in *. now rewrite IH.
Qed.

(** Objects that are shared are done again for each path that leads to them: with [k] + 1 objects this may be 2^[k] times
    (and one is enough to hold them all). *)
Fixpoint ladder (k : nat) : list (node nat) :=
  match k with
  | 0 => [Rec 0 []]
  | S k => ladder k ++ [Rec 0 [(0, VR k); (1, VR k)]]
  end.
Definition two_props : nat -> cls := fun _ => Cls [Prp 0 false true; Prp 1 false true] [].
Lemma ladder_length k : length (ladder k) = S k.
Proof. induction k; cbn; [reflexivity|]. rewrite app_length, IHk. cbn. lia. Qed.
Lemma ladder_nth k j : j <= k -> nth_error (ladder k) j = Some (match j with 0 => Rec 0 [] | S i => Rec 0 [(0, VR i); (1, VR i)] end).
Proof.
  induction k as [|k IH]; intros Le; [replace j with 0 by lia; reflexivity|]. cbn.
  destruct (Nat.eq_dec j (S k)) as [->|].
  - rewrite nth_error_app2; rewrite ladder_length; [|lia]. now rewrite Nat.sub_diag.
  - rewrite nth_error_app1; [apply IH; lia|rewrite ladder_length; lia].
Qed.
Theorem C77_shared_exponential : forall k e, length (ladder k) = S k /\ json_of two_props (ladder k) e (S k) k <> None /\
  2 ^ k <= calls two_props (ladder k) (json_props e) (S k) (VR k).
Proof.
  intros k e. split; [apply ladder_length|].
  assert (G : forall j, j <= k -> json_of two_props (ladder k) e (S j) j <> None /\ 2 ^ j <= calls two_props (ladder k) (json_props e) (S j) (VR j)).
  { induction j as [|j IH]; intros Le.
    - unfold json_of. cbn [walk calls]. rewrite ladder_nth by lia. destruct e; cbn; split; try discriminate; lia.
    - destruct IH as [IH1 IH2]; [lia|]. unfold json_of in *.
      assert (N : nth_error (ladder k) (S j) = Some (Rec 0 [(0, VR j); (1, VR j)])) by (rewrite ladder_nth by lia; reflexivity).
      assert (Sel : parts two_props (json_props e) (Rec 0 [(0, VR j); (1, VR j)] : node nat) = [(0, VR j); (1, VR j)]) by (destruct e; reflexivity).
      assert (Ew : walk two_props (ladder k) (json_props e) (S (S j)) (VR (S j)) =
        option_map (TN 0) (each (walk two_props (ladder k) (json_props e) (S j)) [(0, VR j); (1, VR j)])).
      { change (match nth_error (ladder k) (S j) with None => Some TBad | Some x => option_map (TN (class_of x)) (each (walk two_props (ladder k) (json_props e) (S j)) (parts two_props (json_props e) x)) end
          = option_map (TN 0) (each (walk two_props (ladder k) (json_props e) (S j)) [(0, VR j); (1, VR j)])). rewrite N. now rewrite Sel. }
      assert (Ec : calls two_props (ladder k) (json_props e) (S (S j)) (VR (S j)) = 1 + (calls two_props (ladder k) (json_props e) (S j) (VR j) + (calls two_props (ladder k) (json_props e) (S j) (VR j) + 0))).
      { change (match nth_error (ladder k) (S j) with None => 1 | Some x => 1 + list_sum (map (fun kv => calls two_props (ladder k) (json_props e) (S j) (snd kv)) (parts two_props (json_props e) x)) end
          = 1 + (calls two_props (ladder k) (json_props e) (S j) (VR j) + (calls two_props (ladder k) (json_props e) (S j) (VR j) + 0))). rewrite N. now rewrite Sel. }
      rewrite Ew, Ec. unfold each. destruct (walk two_props (ladder k) (json_props e) (S j) (VR j)) as [t|]; [|congruence].
      split; [discriminate|]. rewrite Nat.pow_succ_r'. lia. }
  apply (G k). lia.
Qed.

(** Cases: a parent (0) with a list (1) of children (2, 3) which refer to their parent, a copy of all that (4 .. 7), and two spouses (8, 9). *)
Module Ex.
Definition classes (c : nat) : cls :=
  match c with
  | 0 => Cls [Prp 0 false true; Prp 1 false true] [0]           (* parent: name, children; key: name *)
  | 1 => Cls [Prp 0 false true; Prp 2 true false] []            (* child: name, parent, extraneous and without JSON *)
  | _ => Cls [Prp 0 false true; Prp 3 false true] []            (* spouse *)
  end.
Definition heap : list (node nat) :=
  [Rec 0 [(0, VA 10); (1, VR 1)]; Lst 5 [VR 2; VR 3]; Rec 1 [(0, VA 11); (2, VR 0)]; Rec 1 [(0, VA 12); (2, VR 0)];
   Rec 0 [(0, VA 10); (1, VR 5)]; Lst 5 [VR 6; VR 7]; Rec 1 [(0, VA 11); (2, VR 4)]; Rec 1 [(0, VA 12); (2, VR 4)];
   Rec 2 [(0, VA 20); (3, VR 9)]; Rec 2 [(0, VA 21); (3, VR 8)]].
Definition copies (x y : nat) : Prop := x < 4 /\ y = x + 4.
End Ex.
Example C77_ex :
  json_of Ex.classes Ex.heap true 3 0 = Some (TN 0 [(0, TA 10); (1, TN 5 [(0, TN 1 [(0, TA 11)]); (1, TN 1 [(0, TA 12)])])]) /\
  id_of Ex.classes Ex.heap 1 0 = Some (TN 0 [(0, TA 10)]) /\
  cyclic (refers Ex.classes Ex.heap (json_prop true)) 8 /\
  cyclic (refers Ex.classes Ex.heap key_prop) 9 /\
  cyclic_through (refers Ex.classes Ex.heap any_prop) (no_dict Ex.heap) 3.
Proof.
  split; [reflexivity|]. split; [reflexivity|].
  assert (S8 : forall P : cls -> prop -> Prop, P (Ex.classes 2) (Prp 3 false true) -> refers Ex.classes Ex.heap P 8 9).
  { intros P H. eapply by_slot with (p := Prp 3 false true); [reflexivity|right; now left|exact H|reflexivity]. }
  assert (S9 : forall P : cls -> prop -> Prop, P (Ex.classes 2) (Prp 3 false true) -> refers Ex.classes Ex.heap P 9 8).
  { intros P H. eapply by_slot with (p := Prp 3 false true); [reflexivity|right; now left|exact H|reflexivity]. }
  split; [|split].
  - exists 8, [8; 9]. split; [exists []; constructor|]. split; [discriminate|].
    econstructor; [apply S8; split; auto|]. econstructor; [apply S9; split; auto|constructor].
  - exists 8, [8; 9]. split; [exists [9]; econstructor; [apply S9; left; auto|constructor]|]. split; [discriminate|].
    econstructor; [apply S8; left; auto|]. econstructor; [apply S9; left; auto|constructor].
  - exists 0, [0; 1; 2].
    assert (S3 : forall x, x = 2 \/ x = 3 -> refers Ex.classes Ex.heap any_prop x 0).
    { intros x [->| ->]; eapply by_slot with (p := Prp 2 true false); try reflexivity; try exact I; right; now left. }
    split; [exists [3]; econstructor; [apply S3; auto|constructor]|]. split; [discriminate|]. split.
    + econstructor; [eapply by_slot with (p := Prp 1 false true); [reflexivity|right; now left|exact I|reflexivity]|].
      econstructor; [eapply by_item; [reflexivity|now left]|]. econstructor; [apply S3; auto|constructor].
    + intros z [<-|[<-|[<-|[]]]] c l Z; discriminate Z.
Qed.
(** The copy is equal to the original, as the parents are extraneous. *)
Example C77_ex_copy : twins Ex.heap Nat.eqb Ex.copies /\ dicts_ok Ex.heap /\ Ex.copies 0 4 /\ equal Nat.eqb Ex.classes Ex.heap 3 (VR 0) (VR 4) = Some true.
Proof.
  split; [|split; [|split; [split; lia|reflexivity]]].
  - assert (At : forall a, vtwin Nat.eqb Ex.copies (VA a) (VA a)) by (intros; constructor; apply Nat.eqb_refl).
    assert (Rf : forall x, x < 4 -> vtwin Nat.eqb Ex.copies (VR x) (VR (x + 4))) by (intros; constructor; split; auto).
    intros x y [Lt ->]. split; [lia|].
    assert (Sl : forall k c d (v w : val nat) e f, vtwin Nat.eqb Ex.copies v w -> vtwin Nat.eqb Ex.copies e f ->
      otwin Nat.eqb Ex.copies (slot [(c, v); (d, e)] k) (slot [(c, w); (d, f)] k)).
    { intros k c d v w e f H1 H2. cbn. destruct (Nat.eqb c k); [now constructor|]. destruct (Nat.eqb d k); now constructor. }
    destruct x as [|[|[|[|]]]]; [| | | |lia]; eexists; eexists; (split; [reflexivity|]); (split; [reflexivity|]).
    + constructor. intros k. apply Sl; auto. apply (Rf 1). lia.
    + constructor. repeat constructor; lia.
    + constructor. intros k. apply Sl; auto. apply (Rf 0). lia.
    + constructor. intros k. apply Sl; auto. apply (Rf 0). lia.
  - intros x c l Z. do 10 (destruct x as [|x]; [discriminate Z|]). destruct x; discriminate Z.
Qed.
(** A list is compared by its items, and an item is equal to itself without a look; a record has no such rule. *)
Example C77_ex_itself : equal Nat.eqb Ex.classes Ex.heap 2 (VR 1) (VR 1) = Some true /\ equal Nat.eqb Ex.classes Ex.heap 50 (VR 8) (VR 8) = None.
Proof. split; reflexivity. Qed.
(** A record in a dict to which it refers is printed, with dots. *)
Example C77_ex_dict : let heap : list (node nat) := [Rec 9 [(3, VR 1)]; Dct 7 [(0, VR 0)]] in
  repr_of Ex.classes heap 4 0 = Some (TN 9 [(3, TN 7 [(0, TN 9 [(3, TDots)])])]) /\ json_of Ex.classes heap true 50 0 = None.
Proof. split; reflexivity. Qed.

Print Assumptions C77_json_depth.
Print Assumptions C77_hash_depth.
Print Assumptions C77_json.
Print Assumptions C77_hash.
Print Assumptions C77_repr.
Print Assumptions C77_eq_ends.
Print Assumptions C77_eq_copy.
Print Assumptions C77_order_refuted.
Print Assumptions C77_shared_exponential.
