(** * C70: what was loaded from a document can be written and loaded again

    JsonRecord, JsonRecordList and JsonRecordDict (normalize/record/json.py:40-501) as modelled in
    [JsonModel]. *)
From Coq Require Import String List NArith ZArith Arith Bool Lia.
From Verif Require Import Prelude GenModel PickleModel AutoModel JsonModel JsonSpec JsonProofs JsonPath JsonKeys JsonProps
  JsonOutSpec JsonAgainSpec JsonAgainProofs.
Import ListNotations.
Local Open Scope string_scope.
Local Open Scope list_scope.

(** Whatever a class loads from a document, or from a text that is parsed to one, is a record that JSON can
    represent. *)
Theorem C70_fits W parse by_key show Good : steady W show Good -> (forall s j, parse s = Ok j -> document j) ->
  forall n c j v, Good c -> document j -> call W parse by_key n c j = Val v -> fits W show c v.
Proof. intros ST HP n c j v. exact (fits_loaded W parse by_key show Good ST HP n c j v). Qed.

(** So it can be written, and what is written loads as the same record, whichever way it is loaded. *)
Theorem C70_again W parse by_key show Good : steady W show Good -> (forall s j, parse s = Ok j -> document j) ->
  forall n c j v, Good c -> document j -> call W parse by_key n c j = Val v ->
  exists j' N, json_data W show true v = Ok j' /\
    forall m, N <= m -> call W parse by_key m c j' = Val v /\
                        from_json W parse by_key (call W parse by_key m) c j' = Val v.
Proof.
  intros ST HP n c j v G D E. apply C37_round_trip. exact (C70_fits W parse by_key show Good ST HP n c j v G D E).
Qed.

(** Properties without a type are steady, if they are in JSON, have no conversions and have no default
    other than a document. *)
Theorem C70_plain_prop W show Good p : q_type p = TAny -> conv_in p = None -> conv_out p = None -> json_key p <> None ->
  (forall d, q_default p = Some (Ok d) -> document d) -> steady_prop W show Good p.
Proof.
  intros QT CI CO KP DD.
  assert (V : forall y, document y -> steady_value show p y).
  { intros y D. split; [|rewrite QT; intros _ []]. intros x S _ N. unfold comes_back. rewrite QT in *. cbn in S. subst x.
    exists y, y. rewrite CI, CO. repeat split; auto. constructor. now apply document_jdata. }
  constructor; [tauto|]. rewrite QT. split; [eauto|]. rewrite CI. intros j y D ->. auto.
Qed.

(** So are properties of a type all of whose instances are documents, like int of at most 50 bits, str or
    bool, provided that no value is coerced to None when there is a default. *)
Theorem C70_typed_prop W show Good p isa co : q_type p = TPrim isa co -> conv_in p = None -> conv_out p = None ->
  json_key p <> None -> (forall x, isa x = true -> document x) ->
  (has_init p -> isa PNone = true \/ forall y, isa y = false -> co y <> Val PNone) -> steady_prop W show Good p.
Proof.
  intros QT CI CO KP DI DN.
  assert (V : forall y, steady_value show p y).
  { intros y. split.
    - intros x S _ _. unfold comes_back. rewrite QT in *. exists x, x. rewrite CI, CO.
      assert (I : isa x = true) by (destruct S as [[? ->]|(? & ? & ?)]; auto).
      repeat split; [constructor; apply document_jdata; auto|left; auto|]. intros (_ & X & _). discriminate.
    - intros HI. rewrite QT. intros (A & B & C). destruct (DN HI) as [X|X]; [congruence|exact (X y A B)]. }
  constructor; [tauto|]. rewrite QT. split; auto.
Qed.

(** ** Examples *)
Definition is_small_int (v : pyv) : bool := match v with PInt z => Z.leb (Z.abs z) (2 ^ 50) | _ => false end.
(** like [int]: of true and false, and of the text "7" *)
Definition to_int (v : pyv) : out pyv :=
  match v with
  | PBool b => Val (PInt (if b then 1 else 0))
  | PStr s => if str_eqb s (s2l "7") then Val (PInt 7) else Exc [] (OtherErr 3)
  | _ => Exc [] (OtherErr 3)
  end.
Definition field (n : string) (t : vtype) (d : option (res pyv)) : prop :=
  {| q_name := s2l n; q_json := true; q_jname := Some (s2l n); q_in := None; q_out := None; q_type := t;
     q_check := fun _ => true; q_required := false; q_default := d; q_extraneous := false |}.
Definition unknown_field : prop :=
  {| q_name := s2l "unknown_json_keys"; q_json := true; q_jname := None; q_in := None; q_out := None; q_type := TAny;
     q_check := fun _ => true; q_required := false; q_default := None; q_extraneous := true |}.
(* 0: a person with a name, an age, 18 if not given, and friends; 1: a list of persons *)
Definition people : world :=
  {| w_kind := fun c => match c with 0 => KJson | _ => KJsonList end;
     w_props := fun c => match c with
       | 0 => [field "name" TAny None; field "age" (TPrim is_small_int to_int) (Some (Ok (PInt 18)));
               field "friends" (TCls 1 None) None; unknown_field]
       | _ => [unknown_field] end;
     w_item := fun _ => TCls 0 None; w_sub := Nat.eqb |}.
Definition no_text (s : str) : res pyv := Err (OtherErr 5).
Definition any_show (z : Z) : str := s2l "1125899906842625".

Example C70_ex_steady : steady people any_show (fun c => c <= 1).
Proof.
  assert (T : tidy_class people 0).
  { constructor; [reflexivity|simpl; repeat (constructor; [simpl; intuition discriminate|]); constructor| |].
    - intros p p' k I I' K K'. simpl in I, I'.
      destruct I as [<-|[<-|[<-|[<-|[]]]]]; destruct I' as [<-|[<-|[<-|[<-|[]]]]]; auto; cbn in K, K'; try discriminate;
        rewrite <- K in K'; discriminate K'.
    - exists unknown_field. split; [simpl; auto 6|]. repeat split. intros [X|X]; [discriminate|]. now apply X. }
  constructor.
  - intros [|c] _; exact I.
  - intros c _. apply Nat.eqb_refl.
  - intros [|c] _ K; [|discriminate K]. split; [exact T|].
    intros p I N. simpl in I. destruct I as [<-|[<-|[<-|[<-|[]]]]]; [| | |exfalso; now apply N].
    + apply C70_plain_prop; try reflexivity; discriminate.
    + apply (C70_typed_prop _ _ _ _ is_small_int to_int); try reflexivity; [discriminate| |].
      * intros [] X; try discriminate X. constructor. now apply Z.leb_le.
      * intros _. right. intros [] _; try discriminate. cbn. destruct (str_eqb _ _); discriminate.
    + constructor; [discriminate|]. cbn. repeat split; auto. discriminate.
  - intros [|c] G K; [exfalso; now apply K|]. split; [|simpl; lia].
    intros p I. simpl in I. destruct I as [<-|[]]. intros [X|X]; [discriminate|]. now apply X.
Qed.

(** The age is text here and a number there; the friend's age is not given; one key is not known. *)
Definition letter : pyv :=
  PDict [(s2l "name", PStr (s2l "Ann")); (s2l "age", PStr (s2l "7"));
         (s2l "friends", PList [PDict [(s2l "name", PNone); (s2l "town", PBool true)]])].
Example C70_ex_letter : document letter.
Proof.
  assert (A : forall k, document (PDict [(k, PBool true)])).
  { intros k. constructor; [repeat constructor; auto|]. intros k' x [E|[]]. injection E as _ <-. constructor. }
  unfold letter. constructor; [simpl; repeat (constructor; [simpl; intuition discriminate|]); constructor|].
  intros k x [E|[E|[E|[]]]]; injection E as _ <-; try constructor.
  intros y [<-|[]]. constructor; [simpl; repeat (constructor; [simpl; intuition discriminate|]); constructor|].
  intros k' z [E|[E|[]]]; injection E as _ <-; constructor.
Qed.
Example C70_ex_again :
  exists v j', call people no_text (fun l => l) 4 0 letter = Val v /\ json_data people any_show true v = Ok j' /\
    j' = PDict [(s2l "name", PStr (s2l "Ann")); (s2l "age", PInt 7);
                (s2l "friends", PList [PDict [(s2l "name", PNone); (s2l "age", PInt 18); (s2l "town", PBool true)]])] /\
    call people no_text (fun l => l) 4 0 j' = Val v.
Proof. do 2 eexists. repeat split; vm_compute; reflexivity. Qed.

(** ** Where it fails *)

(** A number that is unset when the text for it is empty, but 5 by default. *)
Definition or_none (v : pyv) : out pyv :=
  match v with PStr [] => Val PNone | _ => Exc [] (OtherErr 3) end.
Definition counted : world :=
  {| w_kind := fun _ => KJson;
     w_props := fun _ => [field "count" (TPrim is_small_int or_none) (Some (Ok (PInt 5))); unknown_field];
     w_item := fun _ => TAny; w_sub := Nat.eqb |}.

(** Without the condition on defaults the claim is false: an attribute that the document leaves unset is
    not written, and comes back with its default. *)
Theorem C70_default_refuted : exists W c doc v doc' v',
  tidy_class W c /\ document doc /\
  (forall parse by_key n, call W parse by_key (S n) c doc = Val v) /\
  (forall show, json_data W show true v = Ok doc') /\
  (forall parse by_key n, call W parse by_key (S n) c doc' = Val v') /\ v' <> v.
Proof.
  exists counted, 0, (PDict [(s2l "count", PStr [])]), (PObj 0 []), (PDict []), (PObj 0 [(s2l "count", PInt 5)]).
  split; [|split; [|split; [|split; [|split]]]].
  - constructor; [reflexivity|simpl; repeat (constructor; [simpl; intuition discriminate|]); constructor| |].
    + intros p p' k I I' K K'. simpl in I, I'.
      destruct I as [<-|[<-|[]]]; destruct I' as [<-|[<-|[]]]; auto; discriminate.
    + exists unknown_field. split; [simpl; auto|]. repeat split. intros [X|X]; [discriminate|]. now apply X.
  - constructor; [repeat constructor; auto|]. intros k x [E|[]]. injection E as _ <-. constructor.
  - reflexivity.
  - reflexivity.
  - reflexivity.
  - discriminate.
Qed.

Print Assumptions C70_fits.
Print Assumptions C70_again.
Print Assumptions C70_plain_prop.
Print Assumptions C70_typed_prop.
Print Assumptions C70_default_refuted.
