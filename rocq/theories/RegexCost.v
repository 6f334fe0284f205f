(** A step-counting version of the backtracking engine of [Regex.v], in continuation
    passing style: [k] is "the rest of the pattern"; one tick per character test and per
    visit of a loop head.  [mt_fst] shows that it finds the same matches as [run]. *)
From Coq Require Import List Arith NArith Bool Lia.
From Verif Require Import Prelude Regex.
Import ListNotations.

Section Cost.
  Context {X : Type}.
  Definition kont := caps -> str -> option X * nat.

  (** try the first; if it fails try the second; ticks add up *)
  Definition orelse (a b : option X * nat) : option X * nat :=
    match fst a with
    | Some x => a
    | None => (fst b, snd a + snd b)
    end.

  Section Star.
    Variable body : caps -> str -> kont -> option X * nat.
    Fixpoint mt_star (fuel : nat) (c : caps) (s : str) (k : kont) : option X * nat :=
      match fuel with
      | O => k c s
      | S n =>
          orelse
            (body c s (fun c' s' =>
               if Nat.ltb (length s') (length s) then mt_star n c' s' k else (None, 1)))
            (k c s)
      end.
  End Star.

  Fixpoint mt (r : re) (c : caps) (s : str) (k : kont) : option X * nat :=
    match r with
    | REps => k c s
    | RSet p => match s with
                | [] => (None, 1)
                | x :: t => if p x then (fst (k c t), S (snd (k c t))) else (None, 1)
                end
    | RSeq a b => mt a c s (fun c' s' => mt b c' s' k)
    | RAlt a b => orelse (mt a c s k) (mt b c s k)
    | RStar a => mt_star (mt a) (length s) c s k
    | RGrp g a => mt a c s (fun c' s' => k ((g, firstn (length s - length s') s) :: c') s')
    | RDollar => match s with
                 | [] => k c s
                 | [x] => if N.eqb x 10 then k c s else (None, 1)
                 | _ => (None, 1)
                 end
    end.

  Definition sum (l : list nat) : nat := fold_right Nat.add 0 l.

  Lemma sum_app l1 l2 : sum (l1 ++ l2) = sum l1 + sum l2.
  Proof. induction l1; simpl; auto. rewrite IHl1. lia. Qed.

  (** [f] behaves like trying [k] on each element of [l] in turn. *)
  Definition tries (f : option X * nat) (k : kont) (l : list (caps * str)) : Prop :=
    fst f = firstm (fun x => fst (k (fst x) (snd x))) l /\
    (fst f = None -> sum (map (fun x => snd (k (fst x) (snd x))) l) <= snd f).

  Lemma tries_app a b k l1 l2 : tries a k l1 -> tries b k l2 -> tries (orelse a b) k (l1 ++ l2).
  Proof.
    intros [Ha1 Ha2] [Hb1 Hb2]. unfold tries, orelse. rewrite firstm_app, map_app, sum_app.
    rewrite <- Ha1. destruct (fst a) eqn:E.
    - split; [exact E | congruence].
    - cbn [fst snd]. split; [exact Hb1|]. intros H. specialize (Ha2 eq_refl).
      specialize (Hb2 H). lia.
  Qed.

  Lemma tries_one k c s : tries (k c s) k [(c, s)].
  Proof.
    unfold tries. cbn. split; [destruct (fst (k c s)); reflexivity|]. intros. lia.
  Qed.

  (** substituting: if [f] tries [k1] on [l], and [k1] tries [k] on [g x], then [f] tries [k]
      on the concatenation *)
  Lemma tries_bind f (k1 k : kont) l g :
    tries f k1 l -> (forall x, In x l -> tries (k1 (fst x) (snd x)) k (g x)) ->
    tries f k (flat_map g l).
  Proof.
    intros [H1 H2] Hk. unfold tries.
    assert (E : firstm (fun x => fst (k (fst x) (snd x))) (flat_map g l)
                = firstm (fun x => fst (k1 (fst x) (snd x))) l).
    { clear H1 H2. induction l as [|x l IH]; [reflexivity|].
      cbn [flat_map firstm]. rewrite firstm_app.
      destruct (Hk x) as [Hx _]; [simpl; auto|]. rewrite <- Hx.
      rewrite IH by (intros; apply Hk; simpl; auto).
      reflexivity. }
    split; [now rewrite E, H1|].
    intros Hn. specialize (H2 Hn).
    assert (Hall : forall x, In x l -> fst (k1 (fst x) (snd x)) = None).
    { rewrite H1 in Hn. clear - Hn. induction l as [|y l IH]; intros x Hx; [destruct Hx|].
      cbn [firstm] in Hn. destruct (fst (k1 (fst y) (snd y))) eqn:E; [discriminate|].
      destruct Hx as [<-|Hx]; auto. }
    eapply Nat.le_trans; [|exact H2].
    clear E H1 H2 Hn. induction l as [|x l IH]; [reflexivity|].
    cbn [flat_map map]. rewrite map_app, sum_app. cbn [sum fold_right].
    destruct (Hk x) as [_ Hx]; [simpl; auto|].
    specialize (Hx (Hall x (or_introl eq_refl))).
    fold (sum (map (fun x0 => snd (k1 (fst x0) (snd x0))) l)).
    specialize (IH (fun y Hy => Hk y (or_intror Hy)) (fun y Hy => Hall y (or_intror Hy))).
    lia.
  Qed.

  Lemma tries_nil k n : tries (None, n) k [].
  Proof. unfold tries. cbn. split; [reflexivity|lia]. Qed.

  Lemma star_tries r :
    (forall c s k, tries (mt r c s k) k (run r c s)) ->
    forall n c s k, tries (mt_star (mt r) n c s k) k (star (run r) n c s).
  Proof.
    intros Hr. induction n as [|n IH]; intros c s k.
    - apply tries_one.
    - cbn [mt_star star]. apply tries_app; [|apply tries_one].
      eapply tries_bind; [apply Hr|]. intros x Hx. cbn beta.
      destruct (Nat.ltb (length (snd x)) (length s)); [apply IH | apply tries_nil].
  Qed.

  Lemma mt_tries : forall r c s k, tries (mt r c s k) k (run r c s).
  Proof.
    induction r; intros c s k; cbn [mt run].
    - apply tries_one.
    - destruct s as [|x t]; [apply tries_nil|]. destruct (p x); [|apply tries_nil].
      destruct (tries_one k c t) as [H1 H2]. split; cbn [fst snd]; auto.
    - eapply tries_bind; [apply IHr1|]. intros x _. apply IHr2.
    - apply tries_app; auto.
    - apply star_tries. exact IHr.
    - assert (H : forall (h : caps * str -> caps * str) l, map h l = flat_map (fun x => [h x]) l).
      { intros h l. induction l; simpl; congruence. }
      rewrite H. eapply tries_bind; [apply IHr|]. intros x _. cbn beta.
      apply tries_one.
    - destruct s as [|x [|y t]]; try apply tries_one; try apply tries_nil.
      destruct (N.eqb x 10); [apply tries_one | apply tries_nil].
  Qed.

  (** The cost of a failing continuation: at least one tick per way of matching. *)
  Lemma mt_cost r c s (k : kont) :
    (forall c s, fst (k c s) = None) -> (forall c s, 1 <= snd (k c s)) ->
    length (run r c s) <= snd (mt r c s k).
  Proof.
    intros Hn Hk. destruct (mt_tries r c s k) as [H1 H2].
    assert (E : fst (mt r c s k) = None).
    { rewrite H1. clear H1 H2. induction (run r c s) as [|x l IH]; [reflexivity|]. cbn [firstm]. now rewrite Hn. }
    specialize (H2 E). eapply Nat.le_trans; [|exact H2].
    clear - Hk. induction (run r c s) as [|x l IH]; [reflexivity|].
    cbn. specialize (Hk (fst x) (snd x)). unfold sum in IH. lia.
  Qed.
End Cost.

(** A whole [re.match]: result and ticks. *)
Definition match_cost (r : re) (s : str) : option (caps * str) * nat :=
  mt r [] s (fun c s' => (Some (c, s'), 1)).

Lemma match_cost_fst r s : fst (match_cost r s) = re_match r s.
Proof.
  unfold match_cost, re_match.
  destruct (mt_tries r [] s (fun c s' => (Some (c, s'), 1))) as [H _].
  rewrite H. cbn [fst snd]. destruct (run r [] s) as [|[c t] l]; reflexivity.
Qed.
