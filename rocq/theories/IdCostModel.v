(** How often record_id (identity.py:23-112) is called: [EqModel.rid] and [EqModel.hash] once more, with a count of the
    calls of record_id, those made by Record.__hash__ (record/__init__.py:138-150) among them.  [C74_counted] shows that these compute the same. *)
From Coq Require Import List Arith NArith ZArith Bool.
From Verif Require Import Prelude SelPathModel FSModel PySeq MFSModel ValModel EqModel.
Import ListNotations.

(** A computation and its number of calls *)
Definition tally (X : Type) : Type := (res X * nat)%type.
Definition done {X} (r : res X) : tally X := (r, 0).
Definition later {X Y} (m : tally X) (f : X -> tally Y) : tally Y :=
  match m with
  | (Ok x, n) => let (r, k) := f x in (r, n + k)
  | (Err e, n) => (Err e, n)
  end.
Definition tick {X} (m : tally X) : tally X := (fst m, S (snd m)).
Notation "'dot' x <- m ; k" := (later m (fun x => k)) (at level 61, x pattern, m at next level, right associativity).
Fixpoint mapT {X Y} (f : X -> tally Y) (l : list X) : tally (list Y) :=
  match l with
  | [] => done (Ok [])
  | x :: t => dot y <- f x; dot ys <- mapT f t; done (Ok (y :: ys))
  end.

Section Cost.
Context {A C H : Type}.
Variable W : classes A C.
Variable sort_items : list (elem * val A C) -> list (elem * val A C).
Variable alien_atom : C -> A -> res (list (elem * val A C)).
Variable a_hash : A -> bool.
Variable ahash : A -> res H.
Variables hnothing hnone : H.
Variable htext : str -> H.
Variable htuple : list H -> H.
Notation val := (val A C).

(** The loop identity.py:82-96 over the declared types *)
Definition best_of (id : C -> tally val) (vts : list (option C)) (start : tally (list val * nat)) : tally (list val * nat) :=
  fold_left (fun acc vt =>
    dot (vp, cnt) <- acc;
    match vt with
    | None => done (Ok (vp, cnt))
    | Some d =>
        dot i <- id d;
        match i with
        | VSeq _ l =>
            let k := length (filter not_none l) in
            if Nat.eqb (length vp) 0 || Nat.ltb cnt k then done (Ok (l, k)) else done (Ok (vp, cnt))
        | _ => done (Err TypeErr)
        end
    end) vts start.

(** record_id; the definition is that of [EqModel.rid], line for line *)
Fixpoint ridc (n : nat) (f : normalizer) (ty : rtype C) (sel : option mfs) (v : val) {struct n} : tally val :=
  match n with
  | O => done (Err RecursionErr)
  | S n => tick
      match (match ty with
             | RAuto => match class_of v with Some c => RClass c | None => RPlain end
             | _ => ty
             end) with
      | RAuto | RPlain => done (if has_hash a_hash v then Ok v else Err IdentityCrisis)
      | RClass c =>
          let pk0 := pkey W c in
          let pk := if sel_true sel && negb (forallb (fun p => sel_true (sel_path sel (EStr (p_name p)))) pk0)
                    then [] else pk0 in
          match pk, kind W c with
          | [], KList | [], KDict =>
              dot gen <- done match tuples v with Some l => Ok l | None => alien_tuples W sort_items alien_atom c v end;
              dot ids <- (if sel_true sel then
                           mapT (fun kv => ridc n f (item_rtype W c) (sel_item sel (fst kv)) (snd kv))
                                (filter (fun kv => sel_true (sel_path sel (fst kv))) gen)
                         else mapT (fun kv => ridc n f (item_rtype W c) None (snd kv)) gen);
              done (Ok (VSeq true ids))
          | _, _ =>
              let ps := match pk with
                        | [] => if sel_true sel
                                then filter (fun p => sel_true (sel_path sel (EStr (p_name p)))) (sorted_properties W c)
                                else sorted_properties W c
                        | _ => pk
                        end in
              dot ids <- mapT (fun p =>
                  let u := normal f (match slot v (p_name p) with Some u => u | None => VNone end) p v in
                  let u0 := normal f VNone p v in
                  match p_valuetype p with
                  | Some vts =>
                      if is_same u u0 then done (Ok u)
                      else
                        dot best <- best_of (fun d => ridc n f (RClass d)
                                       (if sel_true sel then sel_item sel (EStr (p_name p)) else None) u) vts (done (Ok ([], 0)));
                        let i := match fst best with [] => u | l => VSeq true l end in
                        match hashc n i with
                        | (Ok _, k) => (Ok i, k)
                        | (Err e, k) => (Err (if is_type_error e then KeyHashError else e), k)
                        end
                  | None => done (Ok u)
                  end) ps;
              done (Ok (VSeq true ids))
          end
      end
  end
(** hash(), that of [EqModel.hash] *)
with hashc (n : nat) (v : val) {struct n} : tally H :=
  match n with
  | O => done (Err RecursionErr)
  | S n =>
      match v with
      | VNothing => done (Ok hnothing)
      | VNone => done (Ok hnone)
      | VText s => done (Ok (htext s))
      | VAtom a => done (if a_hash a then ahash a else Err TypeErr)
      | VSeq true l => dot hs <- mapT (hashc n) l; done (Ok (htuple hs))
      | VRec c _ => dot i <- ridc n None (RClass c) None v; hashc n i
      | VSeq false _ | VMap _ | VLC _ _ _ | VDC _ _ _ => done (Err TypeErr)
      end
  end.
End Cost.
