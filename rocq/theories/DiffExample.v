(** A concrete world for the examples about comparing. *)
From Coq Require Import String List Arith NArith ZArith Bool Lia Permutation.
From Verif Require Import Prelude SelPathModel FSModel PySeq MFSModel ValModel EqModel EqProofs SeqDiffModel SeqDiffProofs
  FuzzyModel DiffModel DiffProofs DiffSwap.
Import ListNotations.

Notation V := (val nat nat).

(** structural equality *)
Fixpoint vb (x y : V) {struct x} : bool :=
  let list_b := (fix go (l m : list V) : bool :=
      match l, m with [], [] => true | u :: l, v :: m => vb u v && go l m | _, _ => false end) in
  let pair_b := fun K (keq : K -> K -> bool) => (fix go (l m : list (K * V)) : bool :=
      match l, m with
      | [], [] => true
      | (i, u) :: l, (j, v) :: m => keq i j && vb u v && go l m
      | _, _ => false
      end) in
  match x, y with
  | VNothing, VNothing | VNone, VNone => true
  | VText s, VText t => str_eqb s t
  | VAtom a, VAtom b => Nat.eqb a b
  | VSeq t l, VSeq u m => Bool.eqb t u && list_b l m
  | VMap l, VMap m => pair_b elem elem_eqb l m
  | VRec c l, VRec d m => Nat.eqb c d && pair_b str str_eqb l m
  | VLC c s l, VLC d t m => Nat.eqb c d && pair_b str str_eqb s t && list_b l m
  | VDC c s l, VDC d t m => Nat.eqb c d && pair_b str str_eqb s t && pair_b elem elem_eqb l m
  | _, _ => false
  end.

Definition lb : list V -> list V -> bool :=
  fix go l m := match l, m with [], [] => true | u :: l, v :: m => vb u v && go l m | _, _ => false end.
Definition pb {K} (keq : K -> K -> bool) : list (K * V) -> list (K * V) -> bool :=
  fix go l m := match l, m with [], [] => true | (i, u) :: l, (j, v) :: m => keq i j && vb u v && go l m | _, _ => false end.

Lemma lb_eq l : Forall (fun x => forall y, vb x y = true <-> x = y) l -> forall m, lb l m = true <-> l = m.
Proof.
  induction 1 as [|x l Hx _ IH]; intros [|y m]; cbn [lb]; try (split; congruence).
  fold (lb l m). rewrite andb_true_iff, Hx, IH. split; [intros [-> ->]; auto|]. intros E. inversion E; auto.
Qed.
Lemma pb_eq {K} (keq : K -> K -> bool) (Hk : forall i j, keq i j = true <-> i = j) l :
  Forall (fun x => forall y, vb (snd x) y = true <-> snd x = y) l -> forall m, pb keq l m = true <-> l = m.
Proof.
  induction 1 as [|[i x] l Hx _ IH]; intros [|[j y] m]; cbn [pb]; try (split; congruence).
  fold (pb keq l m). cbn [snd] in Hx. rewrite !andb_true_iff, Hk, Hx, IH.
  split; [intros [[-> ->] ->]; auto|]. intros E. inversion E; auto.
Qed.

Lemma vb_eq : forall x y, vb x y = true <-> x = y.
Proof.
  induction x using val_ind'; intros y; destruct y; cbn [vb]; try (split; congruence).
  - rewrite str_eqb_eq. split; congruence.
  - rewrite Nat.eqb_eq. split; congruence.
  - change (Bool.eqb b tup && lb l l0 = true <-> VSeq b l = VSeq tup l0).
    rewrite andb_true_iff, Bool.eqb_true_iff, lb_eq by auto. split; [intros [-> ->]; auto|intros E; inversion E; auto].
  - change (pb elem_eqb l l0 = true <-> VMap (C := nat) l = VMap l0).
    rewrite (pb_eq elem_eqb elem_eqb_iff) by auto. split; congruence.
  - change (Nat.eqb c c0 && pb str_eqb sl sl0 = true <-> VRec c sl = VRec c0 sl0).
    rewrite andb_true_iff, Nat.eqb_eq, (pb_eq str_eqb str_eqb_eq) by auto.
    split; [intros [-> ->]; auto|intros E; inversion E; auto].
  - change (Nat.eqb c c0 && pb str_eqb sl sl0 && lb l l0 = true <-> VLC c sl l = VLC c0 sl0 l0).
    rewrite !andb_true_iff, Nat.eqb_eq, (pb_eq str_eqb str_eqb_eq), lb_eq by auto.
    split; [intros [[-> ->] ->]; auto|intros E; inversion E; auto].
  - change (Nat.eqb c c0 && pb str_eqb sl sl0 && pb elem_eqb l l0 = true <-> VDC c sl l = VDC c0 sl0 l0).
    rewrite !andb_true_iff, Nat.eqb_eq, (pb_eq str_eqb str_eqb_eq), (pb_eq elem_eqb elem_eqb_iff) by auto.
    split; [intros [[-> ->] ->]; auto|intros E; inversion E; auto].
Qed.

(** Classes: 0 an order line; 1 the list of them; 2 an order; 3 a record with any one slot;
    4 a dict of lines; 5 a line with a primary key; 6 the list of these. *)
Definition P (n : string) (vt : option (list (option nat))) : prop nat nat := mkProp (s2l n) false vt None.
Definition XP (n : string) : prop nat nat := mkProp (s2l n) true None None.
Definition W2 : classes nat nat := mkClasses
  (fun c => match c with 1 | 6 => KList | 4 => KDict | _ => KRec end)
  (fun c => match c with
            | 0 => [P "sku" None; P "qty" None; XP "seen"]
            | 2 => [P "no" None; P "lines" (Some [Some 1]); P "tags" None; P "extra" None; XP "touched"]
            | 3 => [P "x" None; P "y" None]
            | 5 => [P "sku" None; P "qty" None]
            | _ => []
            end)
  (fun c => match c with 5 => [P "sku" None] | _ => [] end)
  (fun c => match c with 1 | 4 => IRec 0 | 6 => IRec 5 | _ => IPlain end)
  (fun _ => None)
  (fun _ v => Ok v).

Definition t (s : string) : V := VText (s2l s).
Definition line (sku : string) (q : nat) : V := VRec 0 [(s2l "sku", t sku); (s2l "qty", VAtom q)].
Definition kline (sku : string) (q : nat) : V := VRec 5 [(s2l "sku", t sku); (s2l "qty", VAtom q)].
Definition order (no : nat) (ls : list V) (tags : list string) : V :=
  VRec 2 [(s2l "no", VAtom no); (s2l "lines", VLC 1 [] ls); (s2l "tags", VSeq false (map t tags))].

(** identity of records as in EqModel; every set is iterated in order of insertion, or backwards *)
Definition nrm (opt : options) : normalizer := Some (fun v p o => normalize_slot (A := nat) (C := nat) opt v p o).
Definition id2 (opt : options) : rtype nat -> option mfs -> V -> res V :=
  rid (H := unit) W2 (fun l => l) (fun _ _ => Err TypeErr) (fun _ => true) (fun _ => Ok tt) tt tt (fun _ => tt) (fun _ => tt) 9 (nrm opt).
Definition in_order : list elem -> list elem -> dorders (A := nat) (C := nat) := fun _ _ =>
  {| so_seq := {| o_unchanged := fun l => l; o_removed := fun l => l; o_added := fun l => l; o_modified := fun l => l |};
     so_keys := fun l => l; so_common := fun l => l; so_fuzzy_a := fun l => l; so_fuzzy_b := fun l => l;
     so_unchanged := fun l => l; so_removed := fun l => l; so_added := fun l => l |}.
Definition backwards : list elem -> list elem -> dorders (A := nat) (C := nat) := fun _ _ =>
  {| so_seq := {| o_unchanged := @rev _; o_removed := @rev _; o_added := @rev _; o_modified := @rev _ |};
     so_keys := @rev _; so_common := @rev _; so_fuzzy_a := @rev _; so_fuzzy_b := @rev _;
     so_unchanged := @rev _; so_removed := @rev _; so_added := @rev _ |}.

Lemma in_order_ok fa fb : orders_ok (in_order fa fb).
Proof. repeat split; intros; apply Permutation_refl. Qed.
Lemma backwards_ok fa fb : orders_ok (backwards fa fb).
Proof. repeat split; intros; apply Permutation_sym, Permutation_rev. Qed.

Definition diff2 (o : list elem -> list elem -> dorders) (opt : options) (x y : V) : res (list dentry) :=
  diff_iter W2 Nat.eqb vb (fun _ => true) (fun _ => s2l "?") (fun _ => true) (Nat.eqb 0) (fun _ => Err TypeErr) opt (id2 opt) o 9 x y.

(** the default options, apart from the normalisation of text *)
Definition defaults : options := mkOptions (fun s => s) false false false false false false None true false.

Definition o1 := order 7 [line "pen" 2; line "ink" 1] ["a"; "b"]%string.
Definition o2 := order 7 [line "ink" 1; line "pen" 3; line "cap" 1] ["b"; "c"; "d"]%string.
