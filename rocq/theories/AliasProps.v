(** C84: what a record shares with the document it was loaded from, and a document with the record it was written from. *)
From Coq Require Import String List Arith Bool NArith Lia.
From Verif Require Import Prelude AliasModel AliasSpec AliasProofs.
Import ListNotations.
Local Open Scope list_scope.

Section C84.
Context {A C : Type}.
Notation val := (val A).
Notation heap := (heap A C).
Variable W : C -> kind C.
Variable unknown_extra : C -> bool.
Variable isinst : C -> C -> bool.
Variable is_none : A -> bool.
Variable out : A -> A.
Variable json_error : A -> bool.
Notation load := (load W isinst is_none).
Notation dump := (dump W unknown_extra out json_error).

(** Loading changes no object, and gives a new record.  From it one gets to an old object exactly through the values which the class takes as
    they are. *)
Theorem C84_load n c v h w h' : sound h -> sound_val h v -> load n c v h = Some (w, h') ->
  (exists new, h' = h ++ new) /\ (exists i, w = Ref i /\ length h <= i)
  /\ forall j, j < length h -> (leads h' w j <-> exists x, verbatim W isinst h c v x /\ leads h x j).
Proof.
  intros S Sv E. split; [eapply load_ext; exact E|].
  assert (New : exists i, w = Ref i /\ length h <= i).
  { destruct n as [|n]; [discriminate|]. cbn [AliasModel.load] in E. unfold alloc in E.
    assert (R : forall g x, ext h g -> Some (Ref (length g), g ++ [x]) = Some (w, h') -> exists i, w = Ref i /\ length h <= i).
    { intros g x X Ex. injection Ex as <- _. eexists. split; [reflexivity|]. now apply ext_length. }
    destruct (W c) as [ps|it|it], v as [a|i]; try (destruct (is_none a); [|discriminate]; eapply R; [|exact E]; apply ext_refl); destruct (nth_error h i) as [[l|l|e l|e l|e l]|]; try discriminate.
    - match type of E with context [each ?f (found ps l) h] => destruct (each f (found ps l) h) as [[sl h1]|] eqn:E1 end; [|discriminate].
      assert (X1 : ext h h1).
      { eapply each_ext; [|exact E1]. intros x g y g' _ Ek. apply keyed_some in Ek as (u & Eu & _). cbv beta in Eu. destruct (fst (snd x)) as [d|]; [eapply load_ext; exact Eu|]. injection Eu as <- <-. apply ext_refl. }
      destruct (filter (fun kx => negb (known ps (fst kx))) l) as [|kx rest]; [eapply R; [exact X1|exact E]|].
      destruct (each (keyed (copy n)) (kx :: rest) h1) as [[us h2]|] eqn:E2; [|discriminate]. eapply R; [|exact E].
      apply (ext_trans _ h1); [exact X1|]. apply (ext_trans _ h2); [|apply ext_alloc]. eapply each_ext; [|exact E2]. intros x g z g' _ Ek. apply keyed_some in Ek as (t & Et & _). eapply copy_ext; eauto.
    - match type of E with context [each ?f l h] => destruct (each f l h) as [[ws h1]|] eqn:E1 end; [|discriminate]. eapply R; [|exact E]. eapply each_ext; [|exact E1].
      intros x g y g' _ Ei. destruct it as [d|]; cbn in Ei; [|injection Ei as <- <-; apply ext_refl].
      destruct (cell_of g x) as [[k|k|e k|e k|e k]|]; try (eapply load_ext; exact Ei); destruct (isinst e d); try (eapply load_ext; exact Ei); injection Ei as <- <-; apply ext_refl.
    - match type of E with context [each ?f l h] => destruct (each f l h) as [[ws h1]|] eqn:E1 end; [|discriminate]. eapply R; [|exact E]. eapply each_ext; [|exact E1].
      intros x g y g' _ Ek. apply keyed_some in Ek as (u & Ei & _). destruct it as [d|]; cbn in Ei; [|injection Ei as <- <-; apply ext_refl].
      destruct (cell_of g (snd x)) as [[k|k|e k|e k|e k]|]; try (eapply load_ext; exact Ei); destruct (isinst e d); try (eapply load_ext; exact Ei); injection Ei as <- <-; apply ext_refl. }
  split; [exact New|]. intros j Lj. split.
  - intros L. destruct (load_inv W isinst is_none h S (verbatim W isinst h c v) n c v h w h' (inv_start h _) Sv (fun x V => V) E) as [I O].
    destruct (leads_new h S _ h' w j I O (fun x => verbatim_sound W isinst h S c v x Sv) L) as [H|H]; [lia|exact H].
  - intros (x & V & L). destruct x as [a|i]; [inversion L|]. pose proof (load_full W isinst is_none h S n c v h w h' (ext_refl h) Sv E i V) as Li.
    assert (T : forall u k, leads h' u k -> forall m, leads h' (Ref k) m -> leads h' u m) by (induction 1; intros; [auto|eapply leads_in; eauto]).
    eapply T; [exact Li|]. eapply leads_ext; [eapply load_ext; exact E|exact L].
Qed.

(** Where the class and the classes it refers to give every property and item a record type, and the document has no records in it, the record
    and the document have nothing in common. *)
Theorem C84_apart (good : C -> Prop) n c v h w h' : sound h -> sound_val h v -> load n c v h = Some (w, h') ->
  (forall d, good d -> typed_class W good d) -> good c -> (forall i d l m, nth_error h i <> Some (ORec d l) /\ nth_error h i <> Some (OList d m) /\ nth_error h i <> Some (ODict d l)) ->
  forall j, leads h' w j -> length h <= j.
Proof.
  intros S Sv E G Gc N j L. destruct (le_lt_dec (length h) j) as [H|H]; [exact H|]. exfalso.
  destruct (C84_load n c v h w h' S Sv E) as (_ & _ & X). apply X in L as (x & V & L); auto. clear - G Gc N V.
  revert Gc. induction V; intros Gc; pose proof (G _ Gc) as T; unfold typed_class in T.
  - rewrite H in T. destruct (T p H1) as (d & Ed & _); [congruence|]. congruence.
  - rewrite H in T. destruct (T p H1) as (d' & Ed & Gd); [congruence|]. apply IHV. congruence.
  - destruct H1 as [[-> _]|[-> _]]; rewrite H in T; destruct T as (d & Ed & _); discriminate.
  - destruct H3 as (m & e & -> & _ & [[l El]|[[l El]|[l El]]]); [destruct (N m e l []) as (N1 & N2 & N3)|destruct (N m e [] l) as (N1 & N2 & N3)|destruct (N m e l []) as (N1 & N2 & N3)]; auto.
  - apply IHV. destruct H1 as [[-> _]|[-> _]]; rewrite H in T; destruct T as (d' & Ed & Gd); congruence.
Qed.

(** Writing changes no object, and from the document one gets to new objects only: it shares nothing with anything. *)
Theorem C84_dump n extra v h w h' : sound h -> dump n extra v h = Some (w, h') ->
  (exists new, h' = h ++ new) /\ forall j, leads h' w j -> length h <= j.
Proof.
  intros S E. destruct (dump_inv W unknown_extra out json_error h (fun _ => False) n extra v h w h' (inv_start h _) E) as [I O]. split; [apply (inv_ext _ _ _ I)|].
  intros j L. destruct (leads_new h S _ h' w j I O (fun x F => match F with end) L) as [H|(x & [] & _)]. exact H.
Qed.

(** Later changes.  What is written depends only on what the value leads to: *)
Theorem C84_later n extra v h g w h' : sound h -> sound_val h v -> length g = length h -> (forall j, leads h v j -> nth_error g j = nth_error h j) ->
  dump n extra v h = Some (w, h') -> exists new, h' = h ++ new /\ dump n extra v g = Some (w, g ++ new).
Proof.
  intros S Sv L Ag E. destruct (dump_same W unknown_extra out json_error h S g L n extra v Sv Ag [] [] eq_refl w h') as (z & -> & Ez); [now rewrite app_nil_r|].
  cbn in *. rewrite app_nil_r in Ez. eauto.
Qed.
(** so no change of the document, but to values which were taken as they are, changes what the record writes, *)
Theorem C84_document_later n c v h w h' : sound h -> sound_val h v -> load n c v h = Some (w, h') ->
  sound h' /\ sound_val h' w /\
  forall g m extra d h2, length g = length h' -> 
    (forall j, (length h <= j \/ exists x, verbatim W isinst h c v x /\ leads h x j) -> nth_error g j = nth_error h' j) ->
    dump m extra w h' = Some (d, h2) -> exists new, h2 = h' ++ new /\ dump m extra w g = Some (d, g ++ new).
Proof.
  intros S Sv E. destruct (load_sound W isinst is_none n c v h w h' S Sv E) as [S' V']. split; [exact S'|]. split; [exact V'|].
  intros g m extra d h2 L Ag. apply C84_later; auto. intros j Lj. apply Ag. destruct (le_lt_dec (length h) j) as [H|H]; [now left|right].
  destruct (C84_load n c v h w h' S Sv E) as (_ & _ & X). now apply X.
Qed.
(** and no change of a written document does. *)
Theorem C84_written_later n extra v h w h' : sound h -> sound_val h v -> dump n extra v h = Some (w, h') ->
  forall g m b d h2, length g = length h' -> (forall j, ~ leads h' w j -> nth_error g j = nth_error h' j) ->
    dump m b v h' = Some (d, h2) -> exists new, h2 = h' ++ new /\ dump m b v g = Some (d, g ++ new).
Proof.
  intros S Sv E g m b d h2 L Ag E2. destruct (C84_dump n extra v h w h' S E) as [[e ->] F].
  assert (Lg : length (firstn (length h) g) = length h) by (rewrite firstn_length, L, app_length; lia).
  destruct (dump_same W unknown_extra out json_error h S (firstn (length h) g) Lg m b v Sv) with (e := e) (f' := skipn (length h) g) (y := d) (h' := h2) as (z & Hz & Ez).
  - intros j Lj. assert (Hj : j < length h) by (eapply (leads_old h S h v j); [apply ext_refl|exact Sv|exact Lj]).
    transitivity (nth_error g j).
    + rewrite <- (firstn_skipn (length h) g) at 2. symmetry. apply nth_error_app1. lia.
    + rewrite Ag; [now apply nth_error_app1|]. intros Q. apply F in Q. lia.
  - rewrite skipn_length, L, app_length. lia.
  - exact E2.
  - exists z. rewrite Hz, app_assoc. split; [reflexivity|]. now rewrite app_assoc, firstn_skipn in Ez.
Qed.
End C84.

(** object [i] is replaced *)
Fixpoint set_nth {X} (i : nat) (x : X) (l : list X) : list X := match l, i with [], _ => [] | _ :: t, 0 => x :: t | y :: t, S i => y :: set_nth i x t end.
(** A world: 0 an order with "no" and "tags" without types, "lines" of type 1 and an extraneous "seen"; 1 a list of lines; 2 a line with "sku" of type 3; 3 a record
    without properties; 4 a dict of anything *)
Notation P n t := (Prop_ (s2l n) (Some (s2l n)) t false).
Definition W84 (c : nat) : kind nat :=
  match c with
  | 0 => KRec [P "no" None; P "tags" None; P "lines" (Some 1); Prop_ (s2l "seen") (Some (s2l "at")) None true]
  | 1 => KList (Some 2)
  | 2 => KRec [P "sku" (Some 3)]
  | 4 => KDict None
  | _ => KRec []
  end.
Notation load84 := (load (A := nat) W84 Nat.eqb (Nat.eqb 0) 9).
Notation dump84 := (dump (A := nat) W84 (fun _ => false) (fun a => a) (fun _ => false) 9 true).
Definition k (s : string) (v : val nat) : str * val nat := (s2l s, v).
(** {no: 7, tags: [5], lines: [{sku: {x: [8]}}], more: [6]} *)
Definition doc : heap nat nat :=
  [DDict [k "no" (Atom 7); k "tags" (Ref 1); k "lines" (Ref 2); k "more" (Ref 3)]; DList [Atom 5]; DList [Ref 4]; DList [Atom 6]; DDict [k "sku" (Ref 5)]; DDict [k "x" (Ref 6)]; DList [Atom 8]].
Definition loaded : heap nat nat := doc ++
  [DList [Atom 8]; DDict [k "x" (Ref 7)]; ORec 3 [k "unknown_json_keys" (Ref 8)]; ORec 2 [k "sku" (Ref 9)]; OList 1 [Ref 10];
   DList [Atom 6]; DDict [k "more" (Ref 12)]; ORec 0 [k "no" (Atom 7); k "tags" (Ref 1); k "lines" (Ref 11); k "unknown_json_keys" (Ref 13)]].
Lemma doc_sound : sound doc.
Proof. intros i x j E I. do 7 (destruct i as [|i]; [cbn in E; injection E as <-; cbn in I; repeat (destruct I as [I|I]; [try discriminate I; injection I as <-; cbn; lia|]); destruct I|]). destruct i; discriminate E. Qed.
Example C84_ex : sound doc /\ sound_val doc (Ref 0) /\ load84 0 (Ref 0) doc = Some (Ref 14, loaded)
  /\ verbatim W84 Nat.eqb doc 0 (Ref 0) (Ref 1) /\ leads loaded (Ref 14) 1
  /\ exists new, dump84 (Ref 14) loaded = Some (Ref 21, loaded ++ new) /\ nth_error (loaded ++ new) 21 = Some (DDict [k "no" (Atom 7); k "tags" (Ref 15); k "lines" (Ref 19); k "more" (Ref 20)]).
Proof.
  split; [apply doc_sound|]. split; [intros j E; injection E as <-; cbn; lia|]. split; [vm_compute; reflexivity|].
  split; [eapply (v_untyped W84 Nat.eqb doc 0 0); [reflexivity|reflexivity|right; left; reflexivity|reflexivity|reflexivity|reflexivity]|].
  split; [eapply leads_in; [reflexivity|right; left; reflexivity|constructor]|].
  exists [DList [Atom 5]; DList [Atom 8]; DDict [k "x" (Ref 16)]; DDict [k "sku" (Ref 17)]; DList [Ref 18]; DList [Atom 6]; DDict [k "no" (Atom 7); k "tags" (Ref 15); k "lines" (Ref 19); k "more" (Ref 20)]].
  split; vm_compute; reflexivity.
Qed.
(** the lines of the document are changed; the tags are not *)
Definition changed : heap nat nat := set_nth 6 (DList []) (set_nth 3 (DList []) (set_nth 2 (DList [Atom 1]) (set_nth 0 (DDict []) loaded))).
Example C84_ex_later : length changed = length loaded /\ (forall j, (7 <= j \/ exists x, verbatim W84 Nat.eqb doc 0 (Ref 0) x /\ leads doc x j) -> nth_error changed j = nth_error loaded j)
  /\ changed <> loaded.
Proof.
  split; [reflexivity|]. split; [|discriminate].
  assert (R : load84 0 (Ref 0) doc = Some (Ref 14, loaded)) by (vm_compute; reflexivity).
  assert (Sv : sound_val doc (Ref 0)) by (intros j E; injection E as <-; cbn; lia).
  destruct (C84_load W84 Nat.eqb (Nat.eqb 0) 9 0 (Ref 0) doc _ _ doc_sound Sv R) as (_ & _ & X).
  intros j Hj. destruct (le_lt_dec 7 j) as [L|L].
  - do 7 (destruct j as [|j]; [lia|]). reflexivity.
  - destruct Hj as [Hj|Hj]; [lia|]. apply X in Hj; [|exact L].
    assert (Q : forall i j, leads loaded (Ref i) j -> i <> 0 -> 7 <= i \/ i = 1 -> j = 1 \/ 7 <= j).
    { intros i m Q. remember (Ref i) as r. revert i Heqr. induction Q as [m|i' x u m En Iu Q IH]; intros i Er _ Hi; injection Er as ->; [lia|].
      destruct u as [a|u]; [inversion Q|]. apply (IH u eq_refl).
      all: do 15 (destruct i as [|i]; [try lia; cbn in En; injection En as <-; cbn in Iu; repeat (destruct Iu as [Iu|Iu]; [try discriminate Iu; injection Iu as <-; lia|]); destruct Iu|]); destruct i; discriminate En. }
    destruct (Q 14 j Hj) as [-> | H]; [lia|lia|reflexivity|lia].
Qed.
(** the list of lines alone shares nothing *)
Example C84_ex_apart : (forall d, (d = 1 \/ d = 2 \/ d = 3) -> typed_class W84 (fun d => d = 1 \/ d = 2 \/ d = 3) d)
  /\ (forall i d l m, nth_error doc i <> Some (ORec d l) /\ nth_error doc i <> Some (OList d m) /\ nth_error doc i <> Some (ODict d l))
  /\ exists h', load84 1 (Ref 2) doc = Some (Ref 11, h').
Proof.
  split; [|split].
  - intros d Hd. destruct Hd as [Hd | [Hd | Hd]]; subst d; cbn; [exists 2; auto| |].
    + intros p [<-|[]] _. exists 3. auto.
    + intros p [].
  - intros i d l m. do 7 (destruct i as [|i]; [repeat split; discriminate|]). destruct i; repeat split; discriminate.
  - eexists. vm_compute. reflexivity.
Qed.

(** A record is not independent of its document: what is done to the document afterwards changes the record *)
Theorem C84_independent_refuted : exists c v (h : heap nat nat) w h' i x, load84 c v h = Some (w, h') /\ leads h v i /\ i < length h
  /\ exists d g d' g' j, dump84 w h' = Some (d, g) /\ dump84 w (set_nth i x h') = Some (d', g') /\ nth_error g j = Some (DList [Atom 5]) /\ nth_error g' j = Some (DList []) /\ leads g d j /\ d = d'.
Proof.
  exists 0, (Ref 0), doc, (Ref 14), loaded, 1, (DList []). split; [vm_compute; reflexivity|].
  split; [eapply leads_in; [reflexivity|right; left; reflexivity|constructor]|]. split; [cbn; lia|].
  do 4 eexists. exists 15. split; [vm_compute; reflexivity|]. split; [vm_compute; reflexivity|]. split; [reflexivity|]. split; [reflexivity|]. split; [|reflexivity].
  eapply leads_in; [reflexivity|right; left; reflexivity|constructor].
Qed.

Print Assumptions C84_load.
Print Assumptions C84_apart.
Print Assumptions C84_dump.
Print Assumptions C84_later.
Print Assumptions C84_document_later.
Print Assumptions C84_written_later.
Print Assumptions C84_independent_refuted.
