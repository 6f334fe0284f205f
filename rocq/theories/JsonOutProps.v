(** * C69: marshalling out gives JSON documents, without what is extraneous if so asked

    to_json and json_data (normalize/record/json.py:167-336) as modelled in [JsonModel]. *)
From Coq Require Import String List NArith ZArith Arith Bool Lia.
From Verif Require Import Prelude GenModel PickleModel AutoModel JsonModel JsonSpec JsonProofs JsonKeys JsonProps JsonOutSpec JsonOutProofs.
Import ListNotations.
Local Open Scope string_scope.
Local Open Scope list_scope.

(** Whatever is marshalled, if it succeeds at all, gives a document. *)
Theorem C69_document W show : outs_are_documents W -> forall v extraneous j, proper v ->
  (to_json W show extraneous v = Ok j \/ json_data W show extraneous v = Ok j) -> document j.
Proof. intros HO v ex j HP [E|E]; eapply (marshal_document W show HO v HP); exact E. Qed.

(** A document is not changed by marshalling it, so marshalling twice is the same as once. *)
Theorem C69_again W show j : document j -> forall extraneous,
  to_json W show extraneous j = Ok j /\ json_data W show extraneous j = Ok j.
Proof. intros D ex. split; apply (document_again W show j D). Qed.

(** Without extraneous data one gets what one would get with it if the extraneous attributes were not set,
    in the value itself and in all it contains. *)
Theorem C69_extraneous W show : (forall c, NoDup (map q_name (w_props W c))) ->
  (forall c p, In p (w_props W c) -> q_name p = s2l "unknown_json_keys" -> conv_out p = None) ->
  forall v, json_data W show false v = json_data W show true (strip W v) /\
            to_json W show false v = to_json W show true (strip W v).
Proof. intros N U v. split; apply (strip_marshal W show N U v). Qed.


(** ** Examples *)
Definition plain_prop (n : string) (extraneous : bool) (t : vtype) : prop :=
  {| q_name := s2l n; q_json := true; q_jname := Some (s2l n); q_in := None; q_out := None; q_type := t;
     q_check := fun _ => true; q_required := false; q_default := None; q_extraneous := extraneous |}.
Definition unknown_prop' : prop :=
  {| q_name := s2l "unknown_json_keys"; q_json := true; q_jname := None; q_in := None; q_out := None; q_type := TAny;
     q_check := fun _ => true; q_required := false; q_default := None; q_extraneous := true |}.
(* 0: a person with a name, a secret, and friends; 1: a list of persons *)
Definition out_world : world :=
  {| w_kind := fun c => match c with 0 => KJson | _ => KJsonList end;
     w_props := fun c => match c with
       | 0 => [plain_prop "name" false TAny; plain_prop "secret" true TAny; plain_prop "friends" false (TCls 1 None); unknown_prop']
       | _ => [unknown_prop'] end;
     w_item := fun _ => TCls 0 None; w_sub := Nat.eqb |}.
Definition out_show (z : Z) : str := s2l "1125899906842625".
Definition person (n : Z) (l : list pyv) : pyv :=
  PObj 0 [(s2l "name", PTuple [PInt n]); (s2l "secret", PBool true);
          (s2l "friends", PObj 1 [(s2l "_values", PList l)]);
          (s2l "unknown_json_keys", PDict [(s2l "k", PInt 3)])].
Definition pair_ := person 1125899906842625 [person 1 []].

Example C69_ex_world : outs_are_documents out_world /\ (forall c, NoDup (map q_name (w_props out_world c))) /\
  (forall c p, In p (w_props out_world c) -> q_name p = s2l "unknown_json_keys" -> conv_out p = None).
Proof.
  assert (N : forall c p, In p (w_props out_world c) -> conv_out p = None).
  { intros [|c] p i; simpl in i; repeat (destruct i as [<-|i]; [reflexivity|]); destruct i. }
  split; [|split].
  - intros c p f x j i e. rewrite (N c p i) in e. discriminate.
  - intros [|c]; simpl; repeat (constructor; [simpl; intuition discriminate|]); constructor.
  - intros c p i _. eauto.
Qed.
Example C69_ex_proper : proper pair_.
Proof.
  assert (P : forall n l, (forall x, In x l -> proper x) -> proper (person n l)).
  { intros n l h. apply pr_obj. intros m x [E|[E|[E|[E|[]]]]]; injection E as <- <-.
    - apply pr_tuple. intros x [<-|[]]. now apply pr_leaf.
    - now apply pr_leaf.
    - apply pr_obj. intros m x [E|[]]. injection E as <- <-. now apply pr_list.
    - apply pr_dict; [simpl; repeat (constructor; [simpl; intuition|]); constructor|]. intros k x [E|[]]. injection E as <- <-. now apply pr_leaf. }
  apply P. intros x [<-|[]]. apply P. intros x [].
Qed.
Example C69_ex_output :
  json_data out_world out_show true pair_ =
    Ok (PDict [(s2l "name", PList [PStr (s2l "1125899906842625")]); (s2l "secret", PBool true);
               (s2l "friends", PList [PDict [(s2l "name", PList [PInt 1]); (s2l "secret", PBool true);
                                             (s2l "friends", PList []); (s2l "k", PInt 3)]]);
               (s2l "k", PInt 3)]) /\
  json_data out_world out_show false pair_ =
    Ok (PDict [(s2l "name", PList [PStr (s2l "1125899906842625")]);
               (s2l "friends", PList [PDict [(s2l "name", PList [PInt 1]); (s2l "friends", PList [])]])]).
Proof. split; vm_compute; reflexivity. Qed.
Example C69_ex_strip : strip out_world pair_ =
  PObj 0 [(s2l "name", PTuple [PInt 1125899906842625]);
          (s2l "friends", PObj 1 [(s2l "_values", PList [
             PObj 0 [(s2l "name", PTuple [PInt 1]); (s2l "friends", PObj 1 [(s2l "_values", PList [])])]])])].
Proof. reflexivity. Qed.

(** ** What does not hold *)

(** What json_out returns goes into the output as it is: a tuple, a record or anything else. *)
Theorem C69_json_out_refuted : exists p, forall show x v, q_out p = Some (fun v => Ok v) /\
  json_data (one_class [p; unknown_prop']) show x (PObj 0 [(q_name p, v)]) = Ok (PDict [(q_name p, v)]).
Proof.
  exists {| q_name := s2l "r"; q_json := true; q_jname := Some (s2l "r"); q_in := None;
            q_out := Some (fun v => Ok v); q_type := TAny; q_check := fun _ => true;
            q_required := false; q_default := None; q_extraneous := false |}.
  intros show x v. split; [reflexivity|]. destruct x; reflexivity.
Qed.

(** And json_out is not told whether extraneous data is wanted: one that recurses into json_data, as its
    documentation says, puts the extraneous attributes of the records within into every output. *)
Theorem C69_json_out_extraneous_refuted : exists W show v j, 
  outs_are_documents W /\ proper v /\ json_data W show false v = Ok (PDict [(s2l "r", PDict [(s2l "secret", j)])]) /\
  (exists p, In p (w_props W 0) /\ q_name p = s2l "secret" /\ q_extraneous p = true).
Proof.
  set (secret := plain_prop "secret" true TAny).
  set (out := fun v => match v with PObj _ [(_, PBool b)] => Ok (PDict [(s2l "secret", PBool b)]) | _ => Err AttrErr end).
  set (p := {| q_name := s2l "r"; q_json := true; q_jname := Some (s2l "r"); q_in := None;
            q_out := Some out; q_type := TCls 0 None; q_check := fun _ => true;
            q_required := false; q_default := None; q_extraneous := false |}).
  exists (one_class [secret; p]), out_show, (PObj 0 [(s2l "r", PObj 0 [(s2l "secret", PBool true)])]), (PBool true).
  split; [|split; [|split]].
  - intros c q f x j i e E. simpl in i. destruct i as [<-|[<-|[]]]; [discriminate|]. simpl in e. injection e as <-. unfold out in E.
    destruct x as [ |?|?|?|?|?|?|?|c' [|[n [ |b|?|?|?|?|?|?|? ?|?]] [|? ?]]|?]; try discriminate. injection E as <-.
    constructor; [simpl; repeat (constructor; [simpl; intuition|]); constructor|]. intros k x [E|[]]. injection E as <- <-. constructor.
  - apply pr_obj. intros n x [E|[]]. injection E as <- <-. apply pr_obj. intros n x [E|[]]. injection E as <- <-. now apply pr_leaf.
  - vm_compute. reflexivity.
  - exists secret. split; [simpl; auto|]. split; reflexivity.
Qed.

Print Assumptions C69_document.
Print Assumptions C69_again.
Print Assumptions C69_extraneous.
Print Assumptions C69_json_out_refuted.
Print Assumptions C69_json_out_extraneous_refuted.
