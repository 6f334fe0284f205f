(** A small model of Python's [re]: backtracking with ordered alternatives.
    [run r c s] is the list of *all* ways the pattern matches a prefix of [s], in
    the order the backtracking engine tries them: the engine's answer is the head
    of the list, and when the continuation of a pattern fails the whole list is
    tried.  This is the documented priority semantics (leftmost alternative first,
    greedy repetition).  Simplification: the empty-body loop guard of a star simply
    stops (no pattern of the library has a nullable star body). *)
From Coq Require Import List Arith NArith Bool Lia.
From Verif Require Import Prelude.
Import ListNotations.

Inductive re : Type :=
| REps
| RSet (p : char -> bool)          (* one character of a class *)
| RSeq (a b : re)
| RAlt (a b : re)
| RStar (a : re)                   (* greedy *)
| RGrp (g : nat) (a : re)          (* capturing group *)
| RDollar.                         (* $ : at the end, or before one final newline *)

Definition caps := list (nat * str).

Definition plus (a : re) : re := RSeq a (RStar a).
Definition lit (x : char) : re := RSet (N.eqb x).

Section Star.
  Variable body : caps -> str -> list (caps * str).
  Fixpoint star (fuel : nat) (c : caps) (s : str) : list (caps * str) :=
    match fuel with
    | O => [(c, s)]
    | S n =>
        flat_map (fun x =>
          if Nat.ltb (length (snd x)) (length s) then star n (fst x) (snd x) else [])
          (body c s) ++ [(c, s)]
    end.
End Star.

Fixpoint run (r : re) (c : caps) (s : str) : list (caps * str) :=
  match r with
  | REps => [(c, s)]
  | RSet p => match s with
              | [] => []
              | x :: t => if p x then [(c, t)] else []
              end
  | RSeq a b => flat_map (fun x => run b (fst x) (snd x)) (run a c s)
  | RAlt a b => run a c s ++ run b c s
  | RStar a => star (run a) (length s) c s
  | RGrp g a => map (fun x => ((g, firstn (length s - length (snd x)) s) :: fst x, snd x))
                    (run a c s)
  | RDollar => match s with
               | [] => [(c, s)]
               | [x] => if N.eqb x 10 then [(c, s)] else []
               | _ => []
               end
  end.

(** [re.match] *)
Definition re_match (r : re) (s : str) : option (caps * str) := hd_error (run r [] s).

Fixpoint group (g : nat) (c : caps) : option str :=
  match c with
  | [] => None
  | (g', x) :: t => if Nat.eqb g g' then Some x else group g t
  end.

(** Left-to-right scan for non-overlapping matches; characters not covered by a match
    are kept as [Skip].  [re.finditer], [re.sub] and [re.split] are all read off this
    list.  Empty matches are not reported (no pattern used here can match empty). *)
Inductive piece : Type :=
| Skip (x : char)
| Hit (c : caps).

Fixpoint scan (fuel : nat) (r : re) (s : str) : list piece :=
  match fuel with
  | O => []
  | S n =>
      match s with
      | [] => []
      | x :: t =>
          match re_match r s with
          | Some (c, s') =>
              if Nat.ltb (length s') (length s) then Hit c :: scan n r s'
              else Skip x :: scan n r t
          | None => Skip x :: scan n r t
          end
      end
  end.

Definition scan_all (r : re) (s : str) : list piece := scan (S (length s)) r s.

(** [re.finditer]: the group dictionaries of the successive matches. *)
Definition finditer (r : re) (s : str) : list caps :=
  flat_map (fun p => match p with Hit c => [c] | Skip _ => [] end) (scan_all r s).

(** [re.sub] with a function of the match. *)
Definition re_sub (r : re) (f : caps -> str) (s : str) : str :=
  flat_map (fun p => match p with Hit c => f c | Skip x => [x] end) (scan_all r s).

(** [re.split] (pattern without groups). *)
Fixpoint split_pieces (l : list piece) (cur : str) : list str :=
  match l with
  | [] => [rev cur]
  | Skip x :: t => split_pieces t (x :: cur)
  | Hit _ :: t => rev cur :: split_pieces t []
  end.

Definition re_split (r : re) (s : str) : list str := split_pieces (scan_all r s) [].

(** Everything below is proof infrastructure about [run]. *)

(** Suffixes reachable by a starred character class, longest match first. *)
Fixpoint spans (p : char -> bool) (s : str) : list str :=
  match s with
  | [] => [[]]
  | x :: t => if p x then spans p t ++ [x :: t] else [x :: t]
  end.

Lemma star_set p : forall n c s, length s <= n ->
  star (run (RSet p)) n c s = map (pair c) (spans p s).
Proof.
  induction n as [|n IH]; intros c s Hl.
  - destruct s; simpl in *; [reflexivity|lia].
  - destruct s as [|x t]; simpl; [reflexivity|].
    simpl in Hl. destruct (p x) eqn:Hp; simpl; [|reflexivity].
    replace (Nat.ltb (length t) (S (length t))) with true
      by (symmetry; apply Nat.ltb_lt; lia).
    rewrite app_nil_r.
    rewrite IH by lia. rewrite map_app. reflexivity.
Qed.

Lemma run_star_set p c s : run (RStar (RSet p)) c s = map (pair c) (spans p s).
Proof. simpl. now apply star_set. Qed.

Definition spans1 (p : char -> bool) (s : str) : list str :=
  match s with
  | [] => []
  | x :: t => if p x then spans p t else []
  end.

Lemma run_plus_set p c s : run (plus (RSet p)) c s = map (pair c) (spans1 p s).
Proof.
  unfold plus. cbn [run]. destruct s as [|x t]; simpl; [reflexivity|].
  destruct (p x); simpl; [|reflexivity].
  rewrite app_nil_r. now apply star_set.
Qed.

Fixpoint drop_while (p : char -> bool) (s : str) : str :=
  match s with
  | [] => []
  | x :: t => if p x then drop_while p t else s
  end.

Lemma hd_spans p s : hd_error (spans p s) = Some (drop_while p s).
Proof.
  induction s as [|x t IH]; simpl; auto.
  destruct (p x); auto.
  rewrite hd_error_app, IH. reflexivity.
Qed.

Lemma drop_while_app p u v :
  forallb p u = true -> drop_while p (u ++ v) = drop_while p v.
Proof.
  induction u as [|x t IH]; simpl; auto.
  intros H. apply andb_true_iff in H as [Hx Ht]. rewrite Hx. auto.
Qed.

Lemma drop_while_stop p v :
  (match v with [] => True | x :: _ => p x = false end) -> drop_while p v = v.
Proof. destruct v; simpl; auto. intros ->. reflexivity. Qed.

Lemma firstm_spans_cons p {B} (f : str -> option B) x t :
  p x = true ->
  firstm f (spans p (x :: t)) =
  match firstm f (spans p t) with Some b => Some b | None => f (x :: t) end.
Proof.
  intros Hp. cbn [spans]. rewrite Hp, firstm_app. cbn [firstm].
  destruct (firstm f (spans p t)); auto. destruct (f (x :: t)); auto.
Qed.
