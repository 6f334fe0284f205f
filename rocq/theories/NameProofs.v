From Coq Require Import String List NArith Arith Bool Lia.
From Verif Require Import Prelude SelPathModel FSModel PySeq MFSModel ValModel EqModel NameModel NameSpec.
Import ListNotations.
Local Open Scope list_scope.

Section Camel.
Variable other_digit : N -> bool.
Hypothesis od : forall c, other_digit c = true -> (128 <= c)%N.
Notation lower := (lower (fun c => other_digit c = true)).
Notation solid := (solid (fun c => other_digit c = true)).
Notation ends_lower := (ends_lower (fun c => other_digit c = true)).
Notation words := (words (fun c => other_digit c = true)).
Notation small := (small other_digit).
Notation with_commas := (with_commas other_digit).
Notation name_parts := (name_parts other_digit).

Lemma small_lower c : small c = true <-> lower c.
Proof. unfold NameModel.small, NameSpec.lower. rewrite !orb_true_iff, !andb_true_iff, !N.leb_le. tauto. Qed.
Lemma capital_upper c : capital c = true <-> upper c.
Proof. unfold capital, upper. rewrite andb_true_iff, !N.leb_le. tauto. Qed.
Lemma apart c : capital c = true -> small c = false.
Proof.
  intros H. apply capital_upper in H. destruct (small c) eqn:E; auto. exfalso. apply small_lower in E. unfold upper in H. destruct E as [E|[E|E]]; [lia|lia|]. apply od in E. lia.
Qed.

Fixpoint cut (s : str) : list str :=
  match s with
  | [] => [[]]
  | a :: r => match r with
              | [] => [[a]]
              | b :: t => if small a && capital b then [a] :: cut r else match cut r with p :: ps => (a :: p) :: ps | [] => [[a]] end
              end
  end.
Lemma cut_cons s : exists p ps, cut s = p :: ps.
Proof. destruct s as [|a [|b t]]; cbn; eauto. destruct (small a && capital b); eauto. destruct (match t with [] => _ | _ :: _ => _ end); eauto. Qed.
Lemma commas_seam a b t : small a && capital b = true -> with_commas (a :: b :: t) = a :: 44%N :: with_commas (b :: t).
Proof.
  intros H. cbn [NameModel.with_commas]. rewrite H. apply andb_true_iff in H as [_ H]. apply apart in H. destruct t as [|c t]; [reflexivity|]. now rewrite H.
Qed.
Lemma parts_cut s : ~ In 44%N s -> name_parts s = cut s.
Proof.
  unfold NameModel.name_parts. induction s as [|a r IH]; intros N; [reflexivity|]. assert (Na : N.eqb a 44 = false) by (apply N.eqb_neq; intros ->; apply N; now left).
  assert (Nr : ~ In 44%N r) by (intros I; apply N; now right). specialize (IH Nr).
  destruct r as [|b t]; [cbn; now rewrite Na|]. change (cut (a :: b :: t)) with (if small a && capital b then [a] :: cut (b :: t) else match cut (b :: t) with p :: ps => (a :: p) :: ps | [] => [[a]] end).
  destruct (small a && capital b) eqn:E.
  - rewrite commas_seam by exact E. change (split_commas (a :: 44%N :: with_commas (b :: t))) with
      (if N.eqb a 44 then [] :: ([] :: split_commas (with_commas (b :: t))) else [a] :: split_commas (with_commas (b :: t))). rewrite Na, IH. reflexivity.
  - cbn [NameModel.with_commas]. rewrite E. fold NameModel.with_commas.
    change (split_commas (a :: NameModel.with_commas other_digit (b :: t)) = match cut (b :: t) with [] => [[a]] | p :: ps => (a :: p) :: ps end). revert IH. generalize (NameModel.with_commas other_digit (b :: t)). intros w IH. cbn [split_commas].
    rewrite Na, IH. destruct (cut (b :: t)); reflexivity.
Qed.

Lemma solid_one a : solid [a].
Proof. intros x y c d E. destruct x as [|? [|? x]]; discriminate E. Qed.
Lemma solid_cons a b p : small a && capital b = false -> solid (b :: p) -> solid (a :: b :: p).
Proof.
  intros H S x y c d E [L U]. destruct x as [|x0 x].
  - injection E as -> -> ->. apply small_lower in L. apply capital_upper in U. now rewrite L, U in H.
  - injection E as -> E. exact (S x y c d E (conj L U)).
Qed.
Lemma cut_words s : words (cut s) s.
Proof.
  induction s as [|a r IH]; [constructor; intros x y c d E; destruct x; discriminate E|].
  destruct r as [|b t]; [constructor; apply solid_one|].
  change (cut (a :: b :: t)) with (if small a && capital b then [a] :: cut (b :: t) else match cut (b :: t) with p :: ps => (a :: p) :: ps | [] => [[a]] end).
  destruct (small a && capital b) eqn:E.
  - apply andb_true_iff in E as [E1 E2]. apply (words_cons _ [a] _ (b :: t)); [apply solid_one|exists [], a; split; [reflexivity|now apply small_lower]|exists b, t; split; [reflexivity|now apply capital_upper]|exact IH].
  - revert IH. destruct (cut (b :: t)) as [|p ps]; intros IH; [inversion IH|]. inversion IH as [p' Sp E1 E2|p' ps' s Sp El Su Ws E1 E2]; subst.
    + constructor. now apply solid_cons.
    + destruct El as (x & c & -> & L). assert (Hb : exists q, x ++ [c] = b :: q).
      { destruct x as [|x0 x]; cbn in E2; injection E2 as -> E2; [exists []|exists (x ++ [c])]; reflexivity. }
      destruct Hb as (q & Hq). change (a :: (x ++ [c]) ++ s) with (([a] ++ x ++ [c]) ++ s). apply (words_cons _ ([a] ++ x ++ [c])).
      * rewrite Hq. apply solid_cons; auto. now rewrite <- Hq.
      * exists ([a] ++ x), c. split; [now rewrite app_assoc|exact L].
      * exact Su.
      * exact Ws.
Qed.
Lemma words_concat ps s : words ps s -> concat ps = s.
Proof. induction 1; cbn; [apply app_nil_r|]. now rewrite IHwords. Qed.
(** the words are determined *)
Lemma words_unique ps s : words ps s -> cut s = ps.
Proof.
  assert (Solid : forall p, solid p -> cut p = [p]).
  { induction p as [|a r IH]; intros S; [reflexivity|]. destruct r as [|b t]; [reflexivity|].
    change (cut (a :: b :: t)) with (if small a && capital b then [a] :: cut (b :: t) else match cut (b :: t) with p :: ps => (a :: p) :: ps | [] => [[a]] end).
    destruct (small a && capital b) eqn:E.
    - exfalso. apply andb_true_iff in E as [E1 E2]. exact (S [] t a b eq_refl (conj (proj1 (small_lower a) E1) (proj1 (capital_upper b) E2))).
    - rewrite IH; auto. intros x y c d Ex. apply (S (a :: x) y). now rewrite Ex. }
  induction 1 as [p Sp|p ps s Sp El Su Ws IH]; [now apply Solid|].
  destruct El as (x & c & -> & L), Su as (b & y & -> & U). rewrite <- app_assoc. cbn [app].
  assert (G : forall z, solid (z ++ [c]) -> cut (z ++ c :: b :: y) = (z ++ [c]) :: ps); [|now apply G].
  induction z as [|a z IHz]; intros S.
  - cbn [app]. change (cut (c :: b :: y)) with (if small c && capital b then [c] :: cut (b :: y) else match cut (b :: y) with p :: ps => (c :: p) :: ps | [] => [[c]] end).
    rewrite (proj2 (small_lower c) L), (proj2 (capital_upper b) U). cbn [andb]. now rewrite IH.
  - assert (S' : solid (z ++ [c])) by (intros x' y' e f E; apply (S (a :: x') y'); cbn; now rewrite E).
    specialize (IHz S'). cbn [app]. destruct (z ++ c :: b :: y) as [|e r] eqn:Er; [destruct z; discriminate Er|].
    change (cut (a :: e :: r)) with (if small a && capital e then [a] :: cut (e :: r) else match cut (e :: r) with p :: ps => (a :: p) :: ps | [] => [[a]] end).
    rewrite IHz. destruct (small a && capital e) eqn:E; [|reflexivity]. exfalso. apply andb_true_iff in E as [E1 E2].
    destruct z as [|z0 z]; cbn in Er; injection Er as -> Er.
    + exact (S [] [] a e eq_refl (conj (proj1 (small_lower a) E1) (proj1 (capital_upper e) E2))).
    + exact (S [] (z ++ [c]) a e eq_refl (conj (proj1 (small_lower a) E1) (proj1 (capital_upper e) E2))).
Qed.

Lemma mem_spec x l : existsb (str_eqb x) l = true <-> In x l.
Proof. rewrite existsb_exists. split; [intros (y & I & E); apply str_eqb_eq in E; now subst|intros I; exists x; split; auto; now apply str_eqb_eq]. Qed.

(** every word but the last ends in a lower case letter; every one but the first starts with a capital *)
Lemma words_shape ps s : words ps s -> starts_upper s -> ends_lower s -> forall p, In p ps -> solid p /\ starts_upper p /\ ends_lower p.
Proof.
  induction 1 as [p Sp|p ps s Sp El Su Ws IH]; intros H1 H2 q [<-|I]; try now destruct I.
  - split; [auto|]. split; [|auto]. destruct El as (x & c & -> & L), H1 as (b & y & E & U). destruct x as [|x0 x]; injection E as -> E; eexists; eexists; (split; [reflexivity|auto]).
  - apply IH; auto. destruct H2 as (x & a & E & L), Su as (b & y & -> & U). destruct (@exists_last _ (b :: y)) as (z & e & Ez); [discriminate|].
    exists z, e. split; [exact Ez|]. rewrite Ez, app_assoc in E. apply app_inj_tail in E as [_ ->]. exact L.
Qed.
Lemma words_join qs ps s : (forall q, In q qs -> solid q /\ starts_upper q /\ ends_lower q) -> starts_upper s -> words ps s -> words (qs ++ ps) (concat qs ++ s) /\ starts_upper (concat qs ++ s).
Proof.
  intros F Su Ws. induction qs as [|q qs IH]; [auto|]. destruct IH as [I1 I2]; [intros; apply F; now right|]. destruct (F q (or_introl eq_refl)) as (Q1 & Q2 & Q3).
  cbn [concat app]. rewrite <- app_assoc. split; [now apply words_cons|]. destruct Q2 as (b & y & -> & U). exists b, (y ++ concat qs ++ s). auto.
Qed.
End Camel.
