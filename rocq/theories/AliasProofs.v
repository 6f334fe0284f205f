From Coq Require Import String List Arith Bool NArith Lia.
From Verif Require Import Prelude AliasModel AliasSpec.
Import ListNotations.
Local Open Scope list_scope.

Section Proofs.
Context {A C : Type}.
Notation val := (val A).
Notation heap := (heap A C).
Variable W : C -> kind C.
Variable unknown_extra : C -> bool.
Variable isinst : C -> C -> bool.
Variable is_none : A -> bool.
Variable out : A -> A.
Variable json_error : A -> bool.
Notation load := (load W isinst is_none).
Notation dump := (dump W unknown_extra out json_error).

(** ** only new objects *)
Definition ext (h h' : heap) : Prop := exists e, h' = h ++ e.
Lemma ext_refl h : ext h h. Proof. exists []. now rewrite app_nil_r. Qed.
Lemma ext_trans h h' h'' : ext h h' -> ext h' h'' -> ext h h''.
Proof. intros [e ->] [e' ->]. exists (e ++ e'). now rewrite app_assoc. Qed.
Lemma ext_alloc h x : ext h (h ++ [x]). Proof. now exists [x]. Qed.
Lemma ext_nth h h' i x : ext h h' -> nth_error h i = Some x -> nth_error h' i = Some x.
Proof. intros [e ->] E. rewrite nth_error_app1; auto. apply nth_error_Some. congruence. Qed.
Lemma ext_length h h' : ext h h' -> length h <= length h'.
Proof. intros [e ->]. rewrite app_length. lia. Qed.

Section Each.
Context {X Y : Type}.
Variable f : X -> heap -> option (Y * heap).
Lemma each_ext l : (forall x h y h', In x l -> f x h = Some (y, h') -> ext h h') -> forall h ys h', each f l h = Some (ys, h') -> ext h h'.
Proof.
  induction l as [|x l IH]; intros F h ys h' E; cbn in E; [injection E as <- <-; apply ext_refl|].
  destruct (f x h) as [[y h1]|] eqn:E1; [|discriminate]. destruct (each f l h1) as [[ys' h2]|] eqn:E2; [|discriminate]. injection E as <- <-.
  apply (ext_trans _ h1); [eapply F; eauto; now left|]. eapply IH; eauto. intros. eapply F; eauto. now right.
Qed.
Lemma each_inv (I : heap -> Prop) (P : Y -> Prop) l : (forall x h y h', In x l -> I h -> f x h = Some (y, h') -> I h' /\ P y) ->
  forall h ys h', I h -> each f l h = Some (ys, h') -> I h' /\ forall y, In y ys -> P y.
Proof.
  induction l as [|x l IH]; intros F h ys h' Ih E; cbn in E; [injection E as <- <-; split; [auto|intros y []]|].
  destruct (f x h) as [[y h1]|] eqn:E1; [|discriminate]. destruct (each f l h1) as [[ys' h2]|] eqn:E2; [|discriminate]. injection E as <- <-.
  destruct (F x h y h1 (or_introl eq_refl) Ih E1) as [I1 P1]. destruct (IH (fun x' => fun h y h' i => F x' h y h' (or_intror i)) h1 ys' h2 I1 E2) as [I2 P2].
  split; auto. intros z [<-|Iz]; auto.
Qed.
(** every element is handled, in some heap on the way *)
Lemma each_reach l : (forall x h y h', In x l -> f x h = Some (y, h') -> ext h h') -> forall h ys h' x, each f l h = Some (ys, h') -> In x l ->
  exists h1 y h2, ext h h1 /\ f x h1 = Some (y, h2) /\ ext h2 h' /\ In y ys.
Proof.
  induction l as [|z l IH]; intros F h ys h' x E Ix; [destruct Ix|]. destruct Ix as [->|Ix].
  - cbn in E. destruct (f x h) as [[y h1]|] eqn:E1; [|discriminate]. destruct (each f l h1) as [[ys' h2]|] eqn:E2; [|discriminate]. injection E as <- <-.
    exists h, y, h1. split; [apply ext_refl|]. split; [exact E1|]. split; [|now left]. eapply each_ext; [|exact E2]. intros. eapply F; eauto. now right.
  - cbn in E. destruct (f z h) as [[y h1]|] eqn:E1; [|discriminate]. destruct (each f l h1) as [[ys' h2]|] eqn:E2; [|discriminate]. injection E as <- <-.
    destruct (IH (fun x' => fun h y h' i => F x' h y h' (or_intror i)) h1 ys' h2 x E2 Ix) as (h3 & y3 & h4 & H1 & H2 & H3 & H4).
    exists h3, y3, h4. split; [eapply ext_trans; [|exact H1]; eapply F; eauto; now left|]. split; auto. split; auto. now right.
Qed.
End Each.
Lemma keyed_some {X} (f : X -> heap -> option (val * heap)) kx h r h' : keyed f kx h = Some (r, h') -> exists w, f (snd kx) h = Some (w, h') /\ r = (fst kx, w).
Proof. unfold keyed. destruct (f (snd kx) h) as [[w h1]|]; [|discriminate]. intros E. injection E as <- <-. eauto. Qed.

Ltac some E := match type of E with context [match ?X with Some _ => _ | None => _ end] => let p := fresh "p" in let H := fresh "Es" in destruct X as [p|] eqn:H; [|try discriminate E] end.

Lemma copy_ext n : forall v h w h', copy n v h = Some (w, h') -> ext h h'.
Proof.
  induction n as [|n IH]; intros v h w h' E; [discriminate|]. cbn in E. destruct v as [a|i]; [injection E as <- <-; apply ext_refl|].
  assert (K : forall (kx : str * val) h y h', keyed (copy n) kx h = Some (y, h') -> ext h h') by (intros kx g y g' Ek; apply keyed_some in Ek as (u & Eu & _); eauto).
  destruct (nth_error h i) as [[l|l|c l|c l|c l]|]; try discriminate;
    (match type of E with context [each ?f l h] => destruct (each f l h) as [[ws h1]|] eqn:E1 end; [|discriminate]); unfold alloc in E; injection E as <- <-;
    (apply (ext_trans _ h1); [eapply each_ext; [|exact E1]; eauto|apply ext_alloc]).
Qed.
Definition one (n : nat) (tx : option C * val) : heap -> option (val * heap) :=
  match fst tx with Some d => load n d (snd tx) | None => fun h => Some (snd tx, h) end.
Lemma load_ext n : forall c v h w h', load n c v h = Some (w, h') -> ext h h'.
Proof.
  induction n as [|n IH]; intros c v h w h' E; [discriminate|]. cbn [AliasModel.load] in E.
  assert (It : forall it x h y h', load_item isinst (load n) it x h = Some (y, h') -> ext h h').
  { intros [d|] x g y g' Ei; cbn in Ei; [|injection Ei as <- <-; apply ext_refl].
    destruct (cell_of g x) as [[l|l|e l|e l|e l]|]; eauto; destruct (isinst e d); eauto; injection Ei as <- <-; apply ext_refl. }
  destruct (W c) as [ps|it|it], v as [a|i].
  - destruct (is_none a); [|discriminate]. unfold alloc in E. injection E as <- <-. apply ext_alloc.
  - destruct (nth_error h i) as [[l|l|e l|e l|e l]|]; try discriminate.
    match type of E with context [each ?f (found ps l) h] => destruct (each f (found ps l) h) as [[sl h1]|] eqn:E1 end; [|discriminate].
    assert (X1 : ext h h1).
    { eapply each_ext; [|exact E1]. intros x g y g' _ Ek. apply keyed_some in Ek as (u & Eu & _). destruct (fst (snd x)); eauto. injection Eu as <- <-. apply ext_refl. }
    destruct (filter (fun kx => negb (known ps (fst kx))) l) as [|kx rest] eqn:Er; [unfold alloc in E; injection E as <- <-; eapply ext_trans; [exact X1|apply ext_alloc]|].
    destruct (each (keyed (copy n)) (kx :: rest) h1) as [[us h2]|] eqn:E2; [|discriminate]. unfold alloc in E. injection E as <- <-.
    apply (ext_trans _ h1); [exact X1|]. apply (ext_trans _ h2); [eapply each_ext; [|exact E2]; intros x g y g' _ Ek; apply keyed_some in Ek as (u & Eu & _); eapply copy_ext; eauto|].
    eapply ext_trans; apply ext_alloc.
  - destruct (is_none a); [|discriminate]. unfold alloc in E. injection E as <- <-. apply ext_alloc.
  - destruct (nth_error h i) as [[l|l|e l|e l|e l]|]; try discriminate.
    match type of E with context [each ?f l h] => destruct (each f l h) as [[ws h1]|] eqn:E1 end; [|discriminate]. unfold alloc in E. injection E as <- <-.
    apply (ext_trans _ h1); [eapply each_ext; [|exact E1]; eauto|apply ext_alloc].
  - destruct (is_none a); [|discriminate]. unfold alloc in E. injection E as <- <-. apply ext_alloc.
  - destruct (nth_error h i) as [[l|l|e l|e l|e l]|]; try discriminate.
    match type of E with context [each ?f l h] => destruct (each f l h) as [[ws h1]|] eqn:E1 end; [|discriminate]. unfold alloc in E. injection E as <- <-.
    apply (ext_trans _ h1); [eapply each_ext; [|exact E1]; intros x g y g' _ Ek; apply keyed_some in Ek as (u & Eu & _); eauto|apply ext_alloc].
Qed.

(** ** what the new objects refer to *)
Section Inv.
Variable h0 : heap.
Variable E : val -> Prop.
Definition okv (w : val) : Prop := forall j, w = Ref j -> length h0 <= j \/ E w.
Definition inv (h : heap) : Prop := exists e, h = h0 ++ e /\ forall x, In x e -> forall w, In w (inside x) -> okv w.
Lemma inv_start : inv h0.
Proof. exists []. split; [now rewrite app_nil_r|intros x []]. Qed.
Lemma inv_ext h : inv h -> ext h0 h.
Proof. intros (e & -> & _). now exists e. Qed.
Lemma inv_alloc h x : inv h -> (forall w, In w (inside x) -> okv w) -> inv (h ++ [x]) /\ okv (Ref (length h)).
Proof.
  intros (e & -> & F) O. split.
  - exists (e ++ [x]). split; [now rewrite app_assoc|]. intros y Iy. apply in_app_or in Iy as [Iy|[<-|[]]]; [exact (F y Iy)|exact O].
  - intros j Ej. injection Ej as <-. left. rewrite app_length. lia.
Qed.
Lemma okv_atom a : okv (Atom a). Proof. intros j Ej. discriminate. Qed.
Lemma snd_ok (ws : list (str * val)) : (forall y, In y ws -> okv (snd y)) -> forall w, In w (map snd ws) -> okv w.
Proof. intros F w I. apply in_map_iff in I as (y & <- & I). auto. Qed.
Lemma keyed_inv {X} (f : X -> heap -> option (val * heap)) kx h r h' : (forall w h', f (snd kx) h = Some (w, h') -> inv h' /\ okv w) -> keyed f kx h = Some (r, h') -> inv h' /\ okv (snd r).
Proof. intros F Ek. apply keyed_some in Ek as (w & Ew & ->). now apply F. Qed.

Lemma copy_inv n : forall v h w h', inv h -> copy n v h = Some (w, h') -> inv h' /\ okv w.
Proof.
  induction n as [|n IH]; intros v h w h' I Ec; [discriminate|]. cbn in Ec. destruct v as [a|i]; [injection Ec as <- <-; split; [auto|apply okv_atom]|].
  destruct (nth_error h i) as [[l|l|c l|c l|c l]|]; try discriminate;
    (match type of Ec with context [each ?f l h] => destruct (each f l h) as [[ws h1]|] eqn:E1 end; [|discriminate]); unfold alloc in Ec; injection Ec as <- <-;
    first [destruct (each_inv (copy n) inv okv l (fun x g y g' _ => IH x g y g') h ws h1 I E1) as [I1 P1]
          |destruct (each_inv (keyed (copy n)) inv (fun y => okv (snd y)) l (fun x g y g' _ Ig => keyed_inv (copy n) x g y g' (fun w' h' => IH (snd x) g w' h' Ig)) h ws h1 I E1) as [I1 P1]; pose proof (snd_ok ws P1)];
    (apply inv_alloc; [exact I1|]; auto).
Qed.

Lemma put_in {X} k (x : X) l y : In y (put k x l) -> y = (k, x) \/ In y l.
Proof.
  induction l as [|[k' z] l IH]; cbn; [intros [<-|[]]; auto|]. destruct (str_eqb k k'); cbn; intros [<-|I]; auto. destruct (IH I); auto.
Qed.
Lemma puts_in {X} (l acc : list (str * X)) y : In y (fold_left (fun a kx => put (fst kx) (snd kx) a) l acc) -> In y l \/ In y acc.
Proof.
  revert acc. induction l as [|[k x] l IH]; intros acc I; cbn in *; [auto|]. apply IH in I as [I|I]; auto. apply put_in in I as [->|I]; auto.
Qed.
Lemma merge_in (us jd : list (str * val)) y : In y (merge jd us) -> In y jd \/ In y us.
Proof.
  unfold merge. revert jd. induction us as [|[k x] us IH]; intros jd I; cbn in *; [auto|]. apply IH in I as [I|I]; auto. cbn in I. destruct (get k jd); auto. apply put_in in I as [->|I]; auto.
Qed.
Lemma dump_inv n extra : forall v h w h', inv h -> dump n extra v h = Some (w, h') -> inv h' /\ okv w.
Proof.
  induction n as [|n IH]; intros v h w h' I Ec; [discriminate|]. cbn [AliasModel.dump] in Ec.
  destruct v as [a|i]; [destruct (json_error a); [discriminate|]; injection Ec as <- <-; split; [auto|apply okv_atom]|].
  assert (K : forall l h ws h1, inv h -> each (keyed (dump n extra)) l h = Some (ws, h1) -> inv h1 /\ forall y, In y ws -> okv (snd y)).
  { intros l g ws g1 Ig E1. refine (each_inv (keyed (dump n extra)) inv (fun y => okv (snd y)) l _ g ws g1 Ig E1).
    intros x g2 y g3 _ Ig2. apply keyed_inv. intros w' h2. now apply IH. }
  assert (AD : forall ws h1, inv h1 -> (forall y, In y ws -> okv (snd y)) -> inv (h1 ++ [DDict ws]) /\ okv (Ref (length h1))).
  { intros ws g Ig P. apply inv_alloc; auto. cbn. now apply snd_ok. }
  unfold alloc in Ec. destruct (nth_error h i) as [[l|l|c sl|c l|c l]|]; try discriminate.
  - destruct (each (dump n extra) l h) as [[ws h1]|] eqn:E1; [|discriminate]. injection Ec as <- <-.
    destruct (each_inv (dump n extra) inv okv l (fun x g y g' _ => IH x g y g') h ws h1 I E1) as [I1 P1]. now apply inv_alloc.
  - destruct (each (keyed (dump n extra)) l h) as [[ws h1]|] eqn:E1; [|discriminate]. injection Ec as <- <-. destruct (K _ _ _ _ I E1). now apply AD.
  - match type of Ec with context [each ?f ?l h] => destruct (each f l h) as [[jd h1]|] eqn:E1 end; [|discriminate]. destruct (K _ _ _ _ I E1) as [I1 P1].
    set (jd' := fold_left (fun a kx => put (fst kx) (snd kx) a) jd []) in *.
    assert (P2 : forall y, In y jd' -> okv (snd y)) by (intros y Iy; apply puts_in in Iy as [Iy|[]]; auto).
    assert (Plain : Some (Ref (length h1), h1 ++ [DDict jd']) = Some (w, h') -> inv h' /\ okv w) by (intros Ea; injection Ea as <- <-; now apply AD).
    destruct (get unknown sl) as [[a|u]|]; [exact (Plain Ec)| |exact (Plain Ec)]. destruct (extra || negb (unknown_extra c)); [|exact (Plain Ec)].
    destruct (nth_error h1 u) as [[ | us | | | ]|]; try discriminate.
    match type of Ec with context [each ?f ?l h1] => destruct (each f l h1) as [[us' h2]|] eqn:E2 end; [|discriminate]. destruct (K _ _ _ _ I1 E2) as [I2 P3]. injection Ec as <- <-.
    apply AD; [exact I2|]. intros y Iy. apply merge_in in Iy as [Iy|Iy]; auto.
  - destruct (each (dump n extra) l h) as [[ws h1]|] eqn:E1; [|discriminate]. injection Ec as <- <-.
    destruct (each_inv (dump n extra) inv okv l (fun x g y g' _ => IH x g y g') h ws h1 I E1) as [I1 P1]. now apply inv_alloc.
  - destruct (each (keyed (dump n extra)) l h) as [[ws h1]|] eqn:E1; [|discriminate]. injection Ec as <- <-. destruct (K _ _ _ _ I E1). now apply AD.
Qed.
End Inv.

(** ** no dangling references *)
Lemma sound_ext (h h' : heap) (v : val) : ext h h' -> sound_val h v -> sound_val h' v.
Proof. intros X S j E. apply ext_length in X. specialize (S j E). lia. Qed.
Lemma sound_alloc (h : heap) (x : cell A C) : sound h -> (forall w, In w (inside x) -> sound_val h w) -> sound (h ++ [x]) /\ sound_val (h ++ [x]) (Ref (length h)).
Proof.
  intros S F. split.
  - intros i y j E I. rewrite app_length. cbn. destruct (lt_dec i (length h)) as [L|L].
    + rewrite nth_error_app1 in E by exact L. specialize (S i y j E I). lia.
    + rewrite nth_error_app2 in E by lia. destruct (i - length h) as [|m]; [|destruct m; discriminate E]. injection E as <-. specialize (F (Ref j) I j eq_refl). lia.
  - intros j E. injection E as <-. rewrite app_length. cbn. lia.
Qed.
Lemma each_sound {X Y} (f : X -> heap -> option (Y * heap)) (vl : Y -> val) l :
  (forall x h y h', In x l -> f x h = Some (y, h') -> ext h h') -> forall hb,
  (forall x h y h', In x l -> ext hb h -> sound h -> f x h = Some (y, h') -> sound h' /\ sound_val h' (vl y)) ->
  forall h ys h', ext hb h -> sound h -> each f l h = Some (ys, h') -> sound h' /\ forall y, In y ys -> sound_val h' (vl y).
Proof.
  intros X0 hb. induction l as [|x l IH]; intros F h ys h' Xb S E; cbn in E; [injection E as <- <-; split; [exact S|intros y []]|].
  destruct (f x h) as [[y h1]|] eqn:E1; [|discriminate]. destruct (each f l h1) as [[ys' h2]|] eqn:E2; [|discriminate]. injection E as <- <-.
  destruct (F x h y h1 (or_introl eq_refl) Xb S E1) as [S1 V1]. pose proof (X0 x h y h1 (or_introl eq_refl) E1) as X1.
  destruct (IH (fun x' h y h' i => X0 x' h y h' (or_intror i)) (fun x' h y h' i => F x' h y h' (or_intror i)) h1 ys' h2 (ext_trans _ _ _ Xb X1) S1 E2) as [S2 V2].
  split; [exact S2|]. intros z [<-|Iz]; [|auto]. eapply sound_ext; [|exact V1]. eapply each_ext; [|exact E2]. intros; eapply X0; eauto. now right.
Qed.
Lemma sound_in (h : heap) i x w : sound h -> nth_error h i = Some x -> In w (inside x) -> sound_val h w.
Proof. intros S E I j ->. eapply S; eauto. Qed.
Lemma snd_sound (h : heap) (ws : list (str * val)) : (forall y, In y ws -> sound_val h (snd y)) -> forall w, In w (map snd ws) -> sound_val h w.
Proof. intros F w I. apply in_map_iff in I as (y & <- & I). auto. Qed.
Lemma keyed_sound {X} (f : X -> heap -> option (val * heap)) kx h r h' : (forall w h', f (snd kx) h = Some (w, h') -> sound h' /\ sound_val h' w) -> keyed f kx h = Some (r, h') -> sound h' /\ sound_val h' (snd r).
Proof. intros F E. apply keyed_some in E as (w & Ew & ->). now apply F. Qed.
Lemma keyed_ext {X} (f : X -> heap -> option (val * heap)) kx h r h' : (forall w h', f (snd kx) h = Some (w, h') -> ext h h') -> keyed f kx h = Some (r, h') -> ext h h'.
Proof. intros F E. apply keyed_some in E as (w & Ew & ->). eapply F; eauto. Qed.
Lemma copy_sound n : forall v (h : heap) w h', sound h -> sound_val h v -> copy n v h = Some (w, h') -> sound h' /\ sound_val h' w.
Proof.
  induction n as [|n IH]; intros v h w h' S Sv E; [discriminate|]. cbn in E. destruct v as [a|i]; [injection E as <- <-; split; [auto|intros j Ej; discriminate]|].
  assert (L : forall (l ws : list val) h1, (forall x, In x l -> sound_val h x) -> each (copy n) l h = Some (ws, h1) -> sound h1 /\ forall y, In y ws -> sound_val h1 y).
  { intros l ws h1 F E1. refine (each_sound (copy n) (fun y => y) l (fun x g y g' _ => copy_ext n x g y g') h _ h ws h1 (ext_refl h) S E1).
    intros x g y g' Ix Xg Sg. apply IH; auto. eapply sound_ext; eauto. }
  assert (K : forall (l ws : list (str * val)) h1, (forall x, In x (map snd l) -> sound_val h x) -> each (keyed (copy n)) l h = Some (ws, h1) -> sound h1 /\ forall y, In y (map snd ws) -> sound_val h1 y).
  { intros l ws h1 F E1. destruct (each_sound (keyed (copy n)) snd l (fun x g y g' _ => keyed_ext (copy n) x g y g' (fun w h' => copy_ext n (snd x) g w h')) h) with (h := h) (ys := ws) (h' := h1) as [S1 P1]; auto; [|apply ext_refl|].
    - intros x g y g' Ix Xg Sg. apply keyed_sound. intros u g2. apply IH; auto. eapply sound_ext; eauto. apply F. now apply in_map.
    - split; [exact S1|now apply snd_sound]. }
  pose proof (fun x w Ex => sound_in h i x w S Ex) as Si. unfold alloc in E.
  destruct (nth_error h i) as [[l|l|c l|c l|c l]|]; try discriminate; pose proof (fun w => Si _ w eq_refl) as Sl; cbn in Sl;
    (match type of E with context [each ?f l h] => destruct (each f l h) as [[ws h1]|] eqn:E1 end; [|discriminate]); injection E as <- <-;
    first [destruct (L _ _ _ Sl E1) as [S1 P1]|destruct (K _ _ _ Sl E1) as [S1 P1]]; (apply sound_alloc; [exact S1|exact P1]).
Qed.
Lemma item_ext n it x g y g' : load_item isinst (load n) it x g = Some (y, g') -> ext g g'.
Proof.
  destruct it as [d|]; cbn; intros Ei; [|injection Ei as <- <-; apply ext_refl].
  destruct (cell_of g x) as [[k|k|e k|e k|e k]|]; try (eapply load_ext; exact Ei); destruct (isinst e d); try (eapply load_ext; exact Ei); injection Ei as <- <-; apply ext_refl.
Qed.
Lemma item_sound n it x (g : heap) y (g' : heap) : (forall d x (g : heap) y (g' : heap), sound g -> sound_val g x -> load n d x g = Some (y, g') -> sound g' /\ sound_val g' y) -> sound g -> sound_val g x ->
  load_item isinst (load n) it x g = Some (y, g') -> sound g' /\ sound_val g' y.
Proof.
  intros F S Sx. destruct it as [d|]; cbn; intros Ei; [|injection Ei as <- <-; auto].
  destruct (cell_of g x) as [[k|k|e k|e k|e k]|]; try (eapply F; eauto; fail); destruct (isinst e d); try (eapply F; eauto; fail); injection Ei as <- <-; auto.
Qed.
Lemma get_in {X} k (l : list (str * X)) x : get k l = Some x -> In x (map snd l).
Proof. induction l as [|[k' y] l IH]; [discriminate|]. cbn. destruct (str_eqb k k'); [intros E; injection E as ->; now left|auto]. Qed.
Lemma found_snd (ps : list (prop C)) (l : list (str * val)) y : In y (found ps l) -> In (snd (snd y)) (map snd l).
Proof.
  induction ps as [|p ps IH]; [intros []|]. cbn. destruct (p_json p) as [k|]; auto. destruct (get k l) as [x|] eqn:Eg; auto. intros [<-|I]; auto. cbn. eapply get_in; eauto.
Qed.
Lemma load_sound n : forall c v (h : heap) w h', sound h -> sound_val h v -> load n c v h = Some (w, h') -> sound h' /\ sound_val h' w.
Proof.
  induction n as [|n IH]; intros c v h w h' S Sv E; [discriminate|]. cbn [AliasModel.load] in E. unfold alloc in E.
  assert (None_ : forall x a, inside x = [] -> (if is_none a then Some (Ref (length h), h ++ [x]) else None) = Some (w, h') -> sound h' /\ sound_val h' w).
  { intros x a Ex Ea. destruct (is_none a); [|discriminate]. injection Ea as <- <-. apply sound_alloc; auto. rewrite Ex. intros ? []. }
  destruct (W c) as [ps|it|it], v as [a|i]; try (eapply None_; [|exact E]; reflexivity); pose proof (fun x w Ex => sound_in h i x w S Ex) as Si.
  - destruct (nth_error h i) as [[l|l|e l|e l|e l]|]; try discriminate. pose proof (fun w => Si _ w eq_refl) as Sl; cbn in Sl.
    match type of E with context [each ?f (found ps l) h] => destruct (each f (found ps l) h) as [[sl h1]|] eqn:E1 end; [|discriminate].
    match type of E1 with each (keyed ?f) _ _ = _ => assert (XF : forall x g y g', In x (found ps l) -> keyed f x g = Some (y, g') -> ext g g') end.
    { intros x g z g' _ Ek. apply keyed_some in Ek as (u & Eu & _). cbv beta in Eu. destruct (fst (snd x)) as [d|]; [eapply load_ext; exact Eu|]. injection Eu as <- <-. apply ext_refl. }
    assert (P : sound h1 /\ forall y, In y sl -> sound_val h1 (snd y)).
    { refine (each_sound _ snd _ XF h _ h sl h1 (ext_refl h) S E1). intros x g y g' Ix Xg Sg. apply keyed_sound. cbv beta. intros u g2 Eu.
      assert (Sx : sound_val g (snd (snd x))) by (eapply sound_ext; [exact Xg|]; apply Sl; eapply found_snd; exact Ix).
      destruct (fst (snd x)) as [d|]; [eapply IH; eauto|]. injection Eu as <- <-. auto. }
    destruct P as [S1 P1]. pose proof (each_ext _ _ XF _ _ _ E1) as X1.
    destruct (filter (fun kx => negb (known ps (fst kx))) l) as [|kx rest] eqn:Er; [injection E as <- <-; apply sound_alloc; auto; cbn; now apply snd_sound|].
    destruct (each (keyed (copy n)) (kx :: rest) h1) as [[us h2]|] eqn:E2; [|discriminate]. injection E as <- <-.
    assert (XC : forall x g y g', In x (kx :: rest) -> keyed (copy n) x g = Some (y, g') -> ext g g') by (intros x g y g' _; apply keyed_ext; intros; eapply copy_ext; eauto).
    assert (P : sound h2 /\ forall y, In y us -> sound_val h2 (snd y)).
    { refine (each_sound _ snd _ XC h1 _ h1 us h2 (ext_refl h1) S1 E2). intros x g y g' Ix Xg Sg. apply keyed_sound. intros u g2. apply copy_sound; auto.
      eapply sound_ext; [eapply ext_trans; [exact X1|exact Xg]|]. apply Sl, in_map. rewrite <- Er in Ix. apply filter_In in Ix as [Ix _]. exact Ix. }
    destruct P as [S2 P2]. destruct (sound_alloc h2 (DDict us) S2 (snd_sound h2 us P2)) as [S3 V3]. apply sound_alloc; auto. cbn. apply snd_sound.
    intros y Iy. apply in_app_or in Iy as [Iy|[<-|[]]]; [|exact V3]. eapply sound_ext; [|exact (P1 y Iy)]. eapply ext_trans; [eapply each_ext; [exact XC|exact E2]|apply ext_alloc].
  - destruct (nth_error h i) as [[l|l|e l|e l|e l]|]; try discriminate. pose proof (fun w => Si _ w eq_refl) as Sl; cbn in Sl.
    match type of E with context [each ?f l h] => destruct (each f l h) as [[ws h1]|] eqn:E1 end; [|discriminate]. injection E as <- <-.
    assert (P : sound h1 /\ forall y, In y ws -> sound_val h1 y).
    { refine (each_sound _ (fun y => y) _ (fun x g y g' _ => item_ext n it x g y g') h _ h ws h1 (ext_refl h) S E1). intros x g y g' Ix Xg Sg. apply item_sound; auto. eapply sound_ext; eauto. }
    destruct P as [S1 P1]. now apply sound_alloc.
  - destruct (nth_error h i) as [[l|l|e l|e l|e l]|]; try discriminate. pose proof (fun w => Si _ w eq_refl) as Sl; cbn in Sl.
    match type of E with context [each ?f l h] => destruct (each f l h) as [[ws h1]|] eqn:E1 end; [|discriminate]. injection E as <- <-.
    assert (P : sound h1 /\ forall y, In y ws -> sound_val h1 (snd y)).
    { refine (each_sound _ snd _ (fun x g y g' _ => keyed_ext _ x g y g' (fun w h' => item_ext n it (snd x) g w h')) h _ h ws h1 (ext_refl h) S E1).
      intros x g y g' Ix Xg Sg. apply keyed_sound. intros u g2. apply item_sound; auto. eapply sound_ext; eauto. apply Sl. now apply in_map. }
    destruct P as [S1 P1]. apply sound_alloc; auto. cbn. now apply snd_sound.
Qed.

(** ** loading *)
Lemma found_in (ps : list (prop C)) (l : list (str * val)) n t x : In (n, (t, x)) (found ps l) <-> exists p k, In p ps /\ p_name p = n /\ p_json p = Some k /\ p_type p = t /\ get k l = Some x.
Proof.
  induction ps as [|p ps IH]; cbn; [split; [intros []|intros (p & k & [] & _)]|].
  assert (Skip : (p_json p = None \/ exists k, p_json p = Some k /\ get k l = None) ->
    (In (n, (t, x)) (found ps l) <-> exists q k, (p = q \/ In q ps) /\ p_name q = n /\ p_json q = Some k /\ p_type q = t /\ get k l = Some x)).
  { intros Sk. rewrite IH. split; intros (q & k & I & Hq); exists q, k; [split; auto|]. destruct I as [<-|I]; [|split; auto]. exfalso. destruct Hq as (_ & Hj & _ & Hg), Sk as [Sk|(k' & Sk & Sg)]; congruence. }
  destruct (p_json p) as [k|] eqn:Ej; [|apply Skip; auto]. destruct (get k l) as [y|] eqn:Eg; [|apply Skip; eauto]. cbn. split.
  - intros [E|I]; [injection E as <- <- <-; exists p, k; auto 10|]. apply IH in I as (q & k' & I & Hq). exists q, k'. auto.
  - intros (q & k' & [<-|I] & H1 & H2 & H3 & H4); [left|right; apply IH; exists q, k'; auto 10]. rewrite Ej in H2. injection H2 as <-. congruence.
Qed.
Lemma leads_ext (h h' : heap) v j : ext h h' -> leads h v j -> leads h' v j.
Proof. intros X. induction 1; [constructor|]. eapply leads_in; eauto. eapply ext_nth; eauto. Qed.
Lemma leads_alloc (h : heap) (x : cell A C) w j : In w (inside x) -> leads h w j -> leads (h ++ [x]) (Ref (length h)) j.
Proof.
  intros I L. eapply leads_in; [|exact I|eapply leads_ext; [apply ext_alloc|exact L]]. rewrite nth_error_app2, Nat.sub_diag by lia. reflexivity.
Qed.

Section Load.
Variable h0 : heap.
Hypothesis S0 : sound h0.
Lemma old h i : ext h0 h -> sound_val h0 (Ref i) -> nth_error h i = nth_error h0 i.
Proof. intros [e ->] S. apply nth_error_app1. now apply S. Qed.
Lemma inside_sound i x w : nth_error h0 i = Some x -> In w (inside x) -> sound_val h0 w.
Proof. intros E I j ->. eapply S0; eauto. Qed.
Lemma item_cases load' d x h : ext h0 h -> sound_val h0 x ->
  (is_a isinst h0 x d /\ load_item isinst load' (Some d) x h = Some (x, h)) \/ (~ is_a isinst h0 x d /\ load_item isinst load' (Some d) x h = load' d x h).
Proof.
  intros X S. cbn. destruct x as [a|i]; cbn; [right; split; [intros (i & c & E & _); discriminate|reflexivity]|]. rewrite (old h i X S).
  assert (N : (forall c l m, nth_error h0 i <> Some (ORec c l) /\ nth_error h0 i <> Some (OList c m) /\ nth_error h0 i <> Some (ODict c l)) -> ~ is_a isinst h0 (Ref i) d).
  { intros H (k & c & Ek & _ & [[l El]|[[l El]|[l El]]]); injection Ek as <-; [destruct (H c l []) as (H1 & H2 & H3)|destruct (H c [] l) as (H1 & H2 & H3)|destruct (H c l []) as (H1 & H2 & H3)]; auto. }
  assert (Y : forall c x, nth_error h0 i = Some x -> (exists l, x = ORec c l) \/ (exists l, x = OList c l) \/ (exists l, x = ODict c l) ->
    (is_a isinst h0 (Ref i) d /\ (if isinst c d then Some (Ref i, h) else load' d (Ref i) h) = Some (Ref i, h)) \/
    (~ is_a isinst h0 (Ref i) d /\ (if isinst c d then Some (Ref i, h) else load' d (Ref i) h) = load' d (Ref i) h)).
  { intros c x Ex K. destruct (isinst c d) eqn:Ei.
    - left. split; [|reflexivity]. exists i, c. split; [reflexivity|]. split; [exact Ei|]. destruct K as [[l ->]|[[l ->]|[l ->]]]; eauto.
    - right. split; [|reflexivity]. intros (k & c' & Ek & Hi & K'). injection Ek as <-. assert (c' = c); [|congruence].
      destruct K as [[l ->]|[[l ->]|[l ->]]], K' as [[l' E']|[[l' E']|[l' E']]]; congruence. }
  destruct (nth_error h0 i) as [[l|l|c l|c l|c l]|] eqn:En; try (right; split; [apply N; intros; repeat split; discriminate|reflexivity]); eapply Y; eauto.
Qed.

Lemma load_inv E n : forall c v h w h', inv h0 E h -> sound_val h0 v -> (forall x, verbatim W isinst h0 c v x -> E x) -> load n c v h = Some (w, h') -> inv h0 E h' /\ okv h0 E w.
Proof.
  induction n as [|n IH]; intros c v h w h' I Sv V El; [discriminate|]. cbn [AliasModel.load] in El. unfold alloc in El.
  assert (None_ : forall x a, inside x = [] -> (if is_none a then Some (Ref (length h), h ++ [x]) else None) = Some (w, h') -> inv h0 E h' /\ okv h0 E w).
  { intros x a Ex Ea. destruct (is_none a); [|discriminate]. injection Ea as <- <-. apply inv_alloc; auto. rewrite Ex. intros ? []. }
  assert (Item : forall i it y x g u g', W c = KList it /\ (exists l, y = DList l) \/ W c = KDict it /\ (exists l, y = DDict l) -> v = Ref i -> nth_error h0 i = Some y -> In x (inside y) -> inv h0 E g ->
    load_item isinst (load n) it x g = Some (u, g') -> inv h0 E g' /\ okv h0 E u).
  { intros i it y x g u g' K -> Ey Ix Ig Eu. assert (Sx : sound_val h0 x) by (eapply inside_sound; eauto). destruct it as [d|].
    - destruct (item_cases (load n) d x g (inv_ext _ _ _ Ig) Sx) as [[Y Ee]|[N Ee]]; rewrite Ee in Eu.
      + injection Eu as <- <-. split; auto. intros j _. right. apply V. eapply v_done; eauto; destruct K as [[-> K]|[-> K]]; auto.
      + eapply IH; [exact Ig|exact Sx| |exact Eu]. intros z Vz. apply V. eapply v_item; eauto; destruct K as [[-> K]|[-> K]]; auto.
    - cbn in Eu. injection Eu as <- <-. split; auto. intros j _. right. apply V. eapply v_items; eauto; destruct K as [[-> K]|[-> K]]; auto. }
  destruct (W c) as [ps|it|it] eqn:Ew, v as [a|i]; try (eapply None_; [|exact El]; reflexivity); rewrite (old h i (inv_ext _ _ _ I) Sv) in El.
  - destruct (nth_error h0 i) as [[l|l|e l|e l|e l]|] eqn:En; try discriminate.
    match type of El with context [each ?f (found ps l) h] => destruct (each f (found ps l) h) as [[sl h1]|] eqn:E1 end; [|discriminate].
    assert (P : inv h0 E h1 /\ forall y, In y sl -> okv h0 E (snd y)).
    { refine (each_inv _ (inv h0 E) (fun y => okv h0 E (snd y)) _ _ h sl h1 I E1). intros [nm [t x]] g y g' Ix Ig. apply keyed_inv. cbn. intros u g2 Eu.
      apply found_in in Ix as (p & k & Ip & Hn & Hj & Ht & Hg). assert (Sx : sound_val h0 x) by (eapply inside_sound; [exact En|cbn; eapply get_in; eauto]).
      destruct t as [d|].
      - eapply IH; [exact Ig|exact Sx| |exact Eu]. intros z Vz. apply V. eapply v_typed; eauto.
      - injection Eu as <- <-. split; auto. intros j _. right. apply V. eapply v_untyped; eauto. }
    destruct P as [I1 P1]. destruct (filter (fun kx => negb (known ps (fst kx))) l) as [|kx rest] eqn:Er; [injection El as <- <-; apply inv_alloc; auto; cbn; now apply snd_ok|].
    destruct (each (keyed (copy n)) (kx :: rest) h1) as [[us h2]|] eqn:E2; [|discriminate]. injection El as <- <-.
    assert (P : inv h0 E h2 /\ forall y, In y us -> okv h0 E (snd y)).
    { refine (each_inv _ (inv h0 E) (fun y => okv h0 E (snd y)) _ _ h1 us h2 I1 E2). intros x g y g' Ix Ig. apply keyed_inv. intros u g2. now apply copy_inv. }
    destruct P as [I2 P2]. destruct (inv_alloc h0 E h2 (DDict us) I2 (snd_ok h0 E us P2)) as [I3 O3]. apply inv_alloc; auto. cbn. apply snd_ok.
    intros y Iy. apply in_app_or in Iy as [Iy|[<-|[]]]; auto.
  - destruct (nth_error h0 i) as [[l|l|e l|e l|e l]|] eqn:En; try discriminate.
    match type of El with context [each ?f l h] => destruct (each f l h) as [[ws h1]|] eqn:E1 end; [|discriminate]. injection El as <- <-.
    assert (P : inv h0 E h1 /\ forall y, In y ws -> okv h0 E y).
    { refine (each_inv _ (inv h0 E) (okv h0 E) _ _ h ws h1 I E1). intros x g y g' Ix Ig Eu. eapply (Item i it (DList l) x g y g'); eauto. }
    destruct P as [I1 P1]. now apply inv_alloc.
  - destruct (nth_error h0 i) as [[l|l|e l|e l|e l]|] eqn:En; try discriminate.
    match type of El with context [each ?f l h] => destruct (each f l h) as [[ws h1]|] eqn:E1 end; [|discriminate]. injection El as <- <-.
    assert (P : inv h0 E h1 /\ forall y, In y ws -> okv h0 E (snd y)).
    { refine (each_inv _ (inv h0 E) (fun y => okv h0 E (snd y)) _ _ h ws h1 I E1). intros x g y g' Ix Ig. apply keyed_inv. intros u g2 Eu.
      eapply (Item i it (DDict l) (snd x) g u g2); eauto. cbn. now apply in_map. }
    destruct P as [I1 P1]. apply inv_alloc; auto. cbn. now apply snd_ok.
Qed.

Lemma verbatim_rec c i ps x : W c = KRec ps -> verbatim W isinst h0 c (Ref i) x ->
  exists l p k y, nth_error h0 i = Some (DDict l) /\ In p ps /\ p_json p = Some k /\ get k l = Some y /\ match p_type p with None => x = y | Some d => verbatim W isinst h0 d y x end.
Proof.
  intros Ew V. inversion V; subst;
    try (match goal with H : _ \/ _ |- _ => destruct H as [[H _]|[H _]]; congruence end); match goal with H : W c = KRec ?q |- _ => assert (q = ps) by congruence; subst q end;
    do 4 eexists; repeat (split; [eassumption|]); match goal with H : p_type _ = _ |- _ => rewrite H end; auto.
Qed.
Lemma verbatim_coll c i it x : W c = KList it \/ W c = KDict it -> verbatim W isinst h0 c (Ref i) x ->
  exists y u, nth_error h0 i = Some y /\ In u (inside y) /\ match it with None => x = u | Some d => (is_a isinst h0 u d /\ x = u) \/ (~ is_a isinst h0 u d /\ verbatim W isinst h0 d u x) end.
Proof.
  intros Ew V. inversion V; subst; try (destruct Ew; congruence); do 2 eexists; (split; [eassumption|]); (split; [eassumption|]).
  - replace it with (@None C); [reflexivity|]. match goal with H : _ \/ _ /\ _ |- _ => destruct H as [[H _]|[H _]] end; destruct Ew; congruence.
  - replace it with (Some d); [left; auto|]. match goal with H : _ \/ _ /\ _ |- _ => destruct H as [[H _]|[H _]] end; destruct Ew; congruence.
  - replace it with (Some d); [right; auto|]. match goal with H : _ \/ _ /\ _ |- _ => destruct H as [[H _]|[H _]] end; destruct Ew; congruence.
Qed.
Lemma load_full n : forall c v h w h', ext h0 h -> sound_val h0 v -> load n c v h = Some (w, h') -> forall j, verbatim W isinst h0 c v (Ref j) -> leads h' w j.
Proof.
  induction n as [|n IH]; intros c v h w h' X Sv El j V; [discriminate|]. cbn [AliasModel.load] in El. unfold alloc in El.
  assert (XI : forall it x g y g', load_item isinst (load n) it x g = Some (y, g') -> ext g g').
  { intros [d|] x g y g' Ei; cbn in Ei; [|injection Ei as <- <-; apply ext_refl].
    destruct (cell_of g x) as [[l|l|e l|e l|e l]|]; try (eapply load_ext; exact Ei); destruct (isinst e d); try (eapply load_ext; exact Ei); injection Ei as <- <-; apply ext_refl. }
  assert (Item : forall it u g w g', sound_val h0 u ->
    match it with None => Ref j = u | Some d => (is_a isinst h0 u d /\ Ref j = u) \/ (~ is_a isinst h0 u d /\ verbatim W isinst h0 d u (Ref j)) end ->
    ext h0 g -> load_item isinst (load n) it u g = Some (w, g') -> leads g' w j).
  { intros [d|] u g w' g' Su M Xg Eu.
    - destruct (item_cases (load n) d u g Xg Su) as [[Y Ee]|[N Ee]]; rewrite Ee in Eu; destruct M as [[Y' Eq]|[N' Vu]]; try contradiction.
      + injection Eu as <- <-. subst u. constructor.
      + eapply IH; eauto.
    - cbn in Eu. injection Eu as <- <-. subst u. constructor. }
  destruct v as [a|i]; [inversion V|]. destruct (W c) as [ps|it|it] eqn:Ew; rewrite (old h i X Sv) in El.
  - destruct (verbatim_rec c i ps _ Ew V) as (l & p & k & y & En & Ip & Hj & Hg & M). rewrite En in El.
    match type of El with context [each ?f (found ps l) h] => destruct (each f (found ps l) h) as [[sl h1]|] eqn:E1 end; [|discriminate].
    match type of E1 with each (keyed ?f) _ _ = _ => assert (XF : forall x g y g', In x (found ps l) -> keyed f x g = Some (y, g') -> ext g g') end.
    { intros x g z g' _ Ek. apply keyed_some in Ek as (u & Eu & _). cbv beta in Eu. destruct (fst (snd x)) as [d|]; [eapply load_ext; exact Eu|]. injection Eu as <- <-. apply ext_refl. }
    assert (If : In (p_name p, (p_type p, y)) (found ps l)) by (apply found_in; exists p, k; auto 10).
    destruct (each_reach _ _ XF h sl h1 _ E1 If) as (g1 & r & g2 & X1 & Er & X2 & Ir). apply keyed_some in Er as (u & Eu & ->). cbn in Eu.
    assert (L : leads h1 u j).
    { apply (leads_ext g2); auto. destruct (p_type p) as [d|].
      - eapply IH; [|eapply inside_sound; [exact En|cbn; eapply get_in; exact Hg]|exact Eu|exact M]. eapply ext_trans; eauto.
      - injection Eu as <- <-. subst y. constructor. }
    assert (Iu : In u (map snd sl)) by (apply in_map_iff; eexists; split; [|exact Ir]; reflexivity).
    destruct (filter (fun kx => negb (known ps (fst kx))) l) as [|kx rest] eqn:Ef; [injection El as <- <-; apply (leads_alloc h1 (ORec c sl) u); auto|].
    destruct (each (keyed (copy n)) (kx :: rest) h1) as [[us h2]|] eqn:E2; [|discriminate]. injection El as <- <-.
    apply (leads_alloc _ (ORec c (sl ++ [(unknown, Ref (length h2))])) u); [cbn; rewrite map_app; apply in_or_app; auto|].
    eapply leads_ext; [|exact L]. apply (ext_trans _ h2); [|apply ext_alloc]. eapply each_ext; [|exact E2]. intros x g z g' _ Ek. apply keyed_some in Ek as (t & Et & _). eapply copy_ext; eauto.
  - destruct (verbatim_coll c i it _ (or_introl Ew) V) as (y & u & En & Iu & M). rewrite En in El. destruct y as [l|l|e l|e l|e l]; try discriminate.
    match type of El with context [each ?f l h] => destruct (each f l h) as [[ws h1]|] eqn:E1 end; [|discriminate]. injection El as <- <-.
    destruct (each_reach _ _ (fun x g z g' _ => XI it x g z g') h ws h1 u E1 Iu) as (g1 & r & g2 & X1 & Er & X2 & Ir).
    apply (leads_alloc h1 (OList c ws) r); auto. apply (leads_ext g2); auto. eapply Item; [eapply inside_sound; eauto|exact M| |exact Er]. eapply ext_trans; eauto.
  - destruct (verbatim_coll c i it _ (or_intror Ew) V) as (y & u & En & Iu & M). rewrite En in El. destruct y as [l|l|e l|e l|e l]; try discriminate.
    match type of El with context [each ?f l h] => destruct (each f l h) as [[ws h1]|] eqn:E1 end; [|discriminate]. injection El as <- <-.
    cbn in Iu. apply in_map_iff in Iu as ([k u'] & Eu' & Iu). cbn in Eu'. subst u'.
    assert (XK : forall x g y g', In x l -> keyed (load_item isinst (load n) it) x g = Some (y, g') -> ext g g') by (intros x g z g' _ Ek; apply keyed_some in Ek as (t & Et & _); eauto).
    destruct (each_reach _ _ XK h ws h1 (k, u) E1 Iu) as (g1 & r & g2 & X1 & Er & X2 & Ir). apply keyed_some in Er as (t & Et & ->). cbn in Et.
    apply (leads_alloc h1 (ODict c ws) t); [cbn; apply in_map_iff; eexists; split; [|exact Ir]; reflexivity|]. apply (leads_ext g2); auto.
    eapply Item; [eapply inside_sound; [exact En|cbn; apply in_map_iff; exists (k, u); auto]|exact M| |exact Et]. eapply ext_trans; eauto.
Qed.

(** from an old object one gets to old objects only, and as before *)
Lemma leads_old h v j : ext h0 h -> sound_val h0 v -> leads h v j -> leads h0 v j /\ j < length h0.
Proof.
  intros X Sv L. induction L as [j|i x w j En Iw L IH]; [split; [constructor|now apply Sv]|]. rewrite (old h i X Sv) in En.
  destruct IH as [L0 Lj]; [eapply inside_sound; eauto|]. split; auto. eapply leads_in; eauto.
Qed.
(** from what is new, only through what was taken *)
Lemma leads_new E h v j : inv h0 E h -> okv h0 E v -> (forall x, E x -> sound_val h0 x) -> leads h v j -> length h0 <= j \/ exists x, E x /\ leads h0 x j.
Proof.
  intros I Ov SE L. assert (G : okv h0 E v -> length h0 <= j \/ exists x, E x /\ leads h0 x j); [|auto]. clear Ov.
  induction L as [j|i x w j En Iw L IH]; intros Ov.
  - destruct (Ov j eq_refl) as [Lj|Ej]; auto. right. exists (Ref j). split; [auto|constructor].
  - destruct (Ov i eq_refl) as [Li|Ei].
    + apply IH. destruct I as (e & -> & F). rewrite nth_error_app2 in En by exact Li. apply nth_error_In in En. exact (F x En w Iw).
    + right. exists (Ref i). split; auto. eapply leads_old; [apply (inv_ext _ _ _ I)|auto|]. eapply leads_in; eauto.
Qed.
Lemma verbatim_sound c v x : sound_val h0 v -> verbatim W isinst h0 c v x -> sound_val h0 x.
Proof.
  intros Sv V. revert Sv. induction V; intros Sv; try (eapply inside_sound; eauto; cbn; eapply get_in; eauto; fail).
  - apply IHV. eapply inside_sound; [eassumption|]. cbn. eapply get_in; eauto.
  - apply IHV. eapply inside_sound; eauto.
Qed.

(** ** writing reads only what it leads to *)
Section Frame.
Variable g0 : heap.
Hypothesis LG : length g0 = length h0.
Definition agree (v : val) : Prop := forall j, leads h0 v j -> nth_error g0 j = nth_error h0 j.
(** [f] gives the same from both heaps, and adds the same to both *)
Definition same {X Y} (f : X -> heap -> option (Y * heap)) (x : X) : Prop :=
  forall e f', length e = length f' -> forall y h', f x (h0 ++ e) = Some (y, h') -> exists z, h' = h0 ++ e ++ z /\ f x (g0 ++ f') = Some (y, g0 ++ f' ++ z).
Lemma same_each {X Y} (f : X -> heap -> option (Y * heap)) l : (forall x, In x l -> same f x) -> same (fun l => each f l) l.
Proof.
  induction l as [|x l IH]; intros F e f' L y h' E; cbn in E |- *.
  - injection E as <- <-. exists []. now rewrite !app_nil_r.
  - destruct (f x (h0 ++ e)) as [[y1 h1]|] eqn:E1; [|discriminate]. destruct (each f l h1) as [[ys h2]|] eqn:E2; [|discriminate]. injection E as <- <-.
    destruct (F x (or_introl eq_refl) e f' L _ _ E1) as (z1 & -> & ->).
    destruct (IH (fun x' i => F x' (or_intror i)) (e ++ z1) (f' ++ z1)) with (y := ys) (h' := h2) as (z2 & -> & ->); [rewrite !app_length; lia|exact E2|].
    exists (z1 ++ z2). now rewrite !app_assoc.
Qed.
Lemma same_keyed {X} (f : X -> heap -> option (val * heap)) kx : same f (snd kx) -> same (keyed f) kx.
Proof.
  intros F e f' L y h' E. apply keyed_some in E as (w & Ew & ->). destruct (F e f' L _ _ Ew) as (z & -> & E). exists z. split; auto. unfold keyed. now rewrite E.
Qed.
Lemma agree_in i x w : agree (Ref i) -> nth_error h0 i = Some x -> In w (inside x) -> agree w.
Proof. intros Ag E I j L. apply Ag. eapply leads_in; eauto. Qed.
Lemma read i e f' : sound_val h0 (Ref i) -> agree (Ref i) -> nth_error (h0 ++ e) i = nth_error h0 i /\ nth_error (g0 ++ f') i = nth_error h0 i.
Proof.
  intros S Ag. specialize (S i eq_refl). split; [now apply nth_error_app1|]. rewrite nth_error_app1 by lia. apply Ag. constructor.
Qed.
Lemma alloc_same (x : cell A C) e f' w h' : length e = length f' -> Some (alloc x (h0 ++ e)) = Some (w, h') -> h' = h0 ++ e ++ [x] /\ Some (alloc x (g0 ++ f')) = Some (w, g0 ++ f' ++ [x]).
Proof. intros L E. unfold alloc in *. injection E as <- <-. rewrite !app_length, LG, L, !app_assoc. auto. Qed.
Lemma written_in extra (ps : list (prop C)) (sl : list (str * val)) y : In y (written extra ps sl) -> In (snd y) (map snd sl).
Proof.
  induction ps as [|p ps IH]; [intros []|]. cbn. destruct (p_json p) as [j|]; auto. destruct (get (p_name p) sl) as [x|] eqn:Eg; auto. destruct (p_extra p && negb extra); auto.
  intros [<-|I]; auto. cbn. eapply get_in; eauto.
Qed.
Lemma dump_same n extra : forall v, sound_val h0 v -> agree v -> same (dump n extra) v.
Proof.
  induction n as [|n IH]; intros v Sv Ag e f' L w h' E; [discriminate|]. cbn [AliasModel.dump] in E |- *.
  destruct v as [a|i]; [destruct (json_error a); [discriminate|]; injection E as <- <-; exists []; now rewrite !app_nil_r|].
  destruct (read i e f' Sv Ag) as [R1 R2]. rewrite R1 in E. rewrite R2. destruct (nth_error h0 i) as [x|] eqn:En; [|discriminate].
  assert (In_ : forall u, In u (inside x) -> same (dump n extra) u) by (intros u I; apply IH; [eapply inside_sound; eauto|eapply agree_in; eauto]).
  assert (Lst : forall l (mk : list val -> cell A C), inside x = l -> match each (dump n extra) l (h0 ++ e) with Some (ws, h) => Some (alloc (mk ws) h) | None => None end = Some (w, h') ->
    exists z, h' = h0 ++ e ++ z /\ match each (dump n extra) l (g0 ++ f') with Some (ws, h) => Some (alloc (mk ws) h) | None => None end = Some (w, g0 ++ f' ++ z)).
  { intros l mk El Em. destruct (each (dump n extra) l (h0 ++ e)) as [[ws h1]|] eqn:E1; [|discriminate].
    destruct (same_each (dump n extra) l) with (e := e) (f' := f') (y := ws) (h' := h1) as (z & -> & ->); [rewrite <- El; exact In_|exact L|exact E1|].
    destruct (alloc_same (mk ws) (e ++ z) (f' ++ z) w h') as [-> ->]; [rewrite !app_length; lia|exact Em|]. exists (z ++ [mk ws]). now rewrite !app_assoc. }
  assert (Kd : forall l, (forall y, In y l -> In (snd y) (inside x)) -> same (fun l => each (keyed (dump n extra)) l) l).
  { intros l F. apply same_each. intros y Iy. apply same_keyed. auto. }
  assert (Dct : forall l, inside x = map snd l -> match each (keyed (dump n extra)) l (h0 ++ e) with Some (ws, h) => Some (alloc (DDict ws) h) | None => None end = Some (w, h') ->
    exists z, h' = h0 ++ e ++ z /\ match each (keyed (dump n extra)) l (g0 ++ f') with Some (ws, h) => Some (alloc (DDict ws) h) | None => None end = Some (w, g0 ++ f' ++ z)).
  { intros l El Em. destruct (each (keyed (dump n extra)) l (h0 ++ e)) as [[ws h1]|] eqn:E1; [|discriminate].
    destruct (Kd l) with (e := e) (f' := f') (y := ws) (h' := h1) as (z & -> & ->); [intros y Iy; rewrite El; now apply in_map|exact L|exact E1|].
    destruct (alloc_same (@DDict A C ws) (e ++ z) (f' ++ z) w h') as [-> ->]; [rewrite !app_length; lia|exact Em|]. exists (z ++ [DDict ws]). now rewrite !app_assoc. }
  destruct x as [l|l|c sl|c l|c l]; [apply (Lst l (@DList A C)); auto|apply Dct; auto| |apply (Lst l (@DList A C)); auto|apply Dct; auto].
  set (wr := written extra (match W c with KRec ps => ps | _ => [] end) sl) in *.
  destruct (each (keyed (dump n extra)) wr (h0 ++ e)) as [[jd h1]|] eqn:E1; [|discriminate].
  destruct (Kd wr) with (e := e) (f' := f') (y := jd) (h' := h1) as (z & -> & ->); [intros y Iy; cbn; eapply written_in; exact Iy|exact L|exact E1|].
  set (jd' := fold_left (fun a kx => put (fst kx) (snd kx) a) jd []) in *. assert (L1 : length (e ++ z) = length (f' ++ z)) by (rewrite !app_length; lia).
  assert (Plain : Some (alloc (DDict jd') (h0 ++ e ++ z)) = Some (w, h') -> exists z', h' = h0 ++ e ++ z' /\ Some (alloc (DDict jd') (g0 ++ f' ++ z)) = Some (w, g0 ++ f' ++ z')).
  { intros Em. destruct (alloc_same (@DDict A C jd') (e ++ z) (f' ++ z) w h' L1 Em) as [-> ->]. exists (z ++ [DDict jd']). now rewrite !app_assoc. }
  destruct (get unknown sl) as [[a|u]|] eqn:Eu; [exact (Plain E)| |exact (Plain E)]. destruct (extra || negb (unknown_extra c)); [|exact (Plain E)].
  assert (Iu : In (Ref u) (inside (ORec c sl))) by (cbn; eapply get_in; eauto).
  assert (Su : sound_val h0 (Ref u)) by (eapply inside_sound; eauto). assert (Au : agree (Ref u)) by (eapply agree_in; eauto).
  destruct (read u (e ++ z) (f' ++ z) Su Au) as [Q1 Q2]. rewrite Q1 in E. rewrite Q2. destruct (nth_error h0 u) as [[ | us | | | ]|] eqn:Enu; try discriminate.
  match type of E with context [each (keyed (dump n extra)) ?l ?h] => destruct (each (keyed (dump n extra)) l h) as [[us' h2]|] eqn:E2 end; [|discriminate].
  match type of E2 with each _ ?l _ = _ => destruct (same_each (keyed (dump n extra)) l) with (e := e ++ z) (f' := f' ++ z) (y := us') (h' := h2) as (z2 & -> & ->) end;
    [intros y Iy; apply filter_In in Iy as [Iy _]; apply same_keyed, IH; [eapply inside_sound; [exact Enu|cbn; now apply in_map]|eapply agree_in; [exact Au|exact Enu|cbn; now apply in_map]]|exact L1|exact E2|].
  destruct (alloc_same (@DDict A C (merge jd' us')) ((e ++ z) ++ z2) ((f' ++ z) ++ z2) w h') as [-> ->]; [rewrite !app_length; lia|exact E|].
  exists (z ++ z2 ++ [DDict (merge jd' us')]). now rewrite <- !app_assoc.
Qed.
End Frame.
End Load.
End Proofs.
