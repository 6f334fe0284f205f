(** What reports of differences are to say, written without the functions that print them. *)
From Coq Require Import String List Arith NArith ZArith Bool.
From Verif Require Import Prelude SelPathModel ValModel SeqDiffModel.
Import ListNotations.

(** [shows t p q k f]: an entry of type [t] at [p] in the base and [q] in the other belongs
    under heading [k], where it is represented by the field [f]. *)
Inductive shows : dtype -> list elem -> list elem -> str -> list elem -> Prop :=
| sh_added p q : shows Added p q (s2l "+NEW") q
| sh_removed p q : shows Removed p q (s2l "-OLD") p
| sh_modified p : shows Modified p p (s2l "<>X") p
| sh_old p q : p <> q -> shows Modified p q (s2l "<->OLD") p
| sh_new p q : p <> q -> shows Modified p q (s2l "<+>NEW") q
| sh_same p q : shows NoChange p q (s2l "==X") p.

(** The text of several texts: separated by "; " *)
Inductive listing : list str -> str -> Prop :=
| li_one t : listing [t] t
| li_more t ts s : listing ts s -> listing (t :: ts) (t ++ s2l "; " ++ s).

(** The frame of the report: type names, number of entries, headings with their texts *)
Inductive framed (bt ot n : str) : list (str * str) -> str -> Prop :=
| fr_none w : (bt = ot -> w = bt) -> (bt <> ot -> w = bt ++ s2l " vs " ++ ot) ->
    framed bt ot n [] (s2l "<Diff [" ++ w ++ s2l "]; " ++ n ++ s2l " diff(s)>")
| fr_some w gs s : (bt = ot -> w = bt) -> (bt <> ot -> w = bt ++ s2l " vs " ++ ot) ->
    listing (map (fun g => fst g ++ s2l "(" ++ snd g ++ s2l ")") gs) s ->
    framed bt ot n gs (s2l "<Diff [" ++ w ++ s2l "]; " ++ n ++ s2l " diff(s): " ++ s ++ s2l ">").

(** Values in which no dict has the key None, anywhere inside *)
Section Named.
Context {A C : Type}.
Notation val := (val A C).
Inductive named : val -> Prop :=
| nm_nothing : named VNothing
| nm_none : named VNone
| nm_text s : named (VText s)
| nm_atom a : named (VAtom a)
| nm_seq t l : (forall v, In v l -> named v) -> named (VSeq t l)
| nm_map l : (forall k v, In (k, v) l -> k <> ENone /\ named v) -> named (VMap l)
| nm_rec c sl : (forall k v, In (k, v) sl -> named v) -> named (VRec c sl)
| nm_lc c sl l : (forall k v, In (k, v) sl -> named v) -> (forall v, In v l -> named v) -> named (VLC c sl l)
| nm_dc c sl l : (forall k v, In (k, v) sl -> named v) ->
    (forall k v, In (k, v) l -> k <> ENone /\ named v) -> named (VDC c sl l).
End Named.
