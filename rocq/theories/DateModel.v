(** Dates and times: normalize/property/types.py:20-51, 103-168. *)
From Coq Require Import String List NArith Arith Bool.
From Verif Require Import Prelude PropModel SubModel.
Import ListNotations.
Local Open Scope list_scope.
Local Open Scope N_scope.

(** [datetime.date]; Python only makes valid ones ([valid_date]). *)
Record date := mkDate { d_year : N; d_month : N; d_day : N }.

(** [datetime.datetime]: a date, a time, and the offset of the time zone in hours and minutes, if
    any ([true]: negative).  Offsets with seconds are not modelled. *)
Record datetime := mkDatetime {
  t_date : date; t_hour : N; t_minute : N; t_second : N; t_micro : N;
  t_zone : option (bool * N * N)
}.

(** The checks of the constructors [datetime.date] and [datetime.datetime]. *)
Definition leap (y : N) : bool :=
  (y mod 4 =? 0) && (negb (y mod 100 =? 0) || (y mod 400 =? 0)).
Definition days_in (y m : N) : N :=
  match m with
  | 2 => if leap y then 29 else 28
  | 4 | 6 | 9 | 11 => 30
  | _ => 31
  end.
Definition valid_date (d : date) : bool :=
  (1 <=? d_year d) && (d_year d <=? 9999) && (1 <=? d_month d) && (d_month d <=? 12)
  && (1 <=? d_day d) && (d_day d <=? days_in (d_year d) (d_month d)).
Definition valid_datetime (t : datetime) : bool :=
  valid_date (t_date t) && (t_hour t <? 24) && (t_minute t <? 60) && (t_second t <? 60)
  && (t_micro t <? 1000000)
  && match t_zone t with None => true | Some (_, h, m) => (h <? 24) && (m <? 60) end.

Definition midnight (d : date) : datetime := mkDatetime d 0 0 0 0 None.

(** [%02d], [%04d], [%06d] of numbers with at most that many digits. *)
Definition digit_char (n : N) : N := 48 + n mod 10.
Definition two (n : N) : str := [digit_char (n / 10); digit_char n].
Definition four (n : N) : str := two (n / 100) ++ two (n mod 100).
Definition six (n : N) : str := two (n / 10000) ++ four (n mod 10000).

(** [date.isoformat()], [datetime.isoformat()]: the json_out of both property types
    (types.py:143, 157) *)
Definition date_iso (d : date) : str :=
  four (d_year d) ++ s2l "-" ++ two (d_month d) ++ s2l "-" ++ two (d_day d).
Definition datetime_iso (t : datetime) : str :=
  date_iso (t_date t) ++ s2l "T" ++ two (t_hour t) ++ s2l ":" ++ two (t_minute t) ++ s2l ":"
  ++ two (t_second t)
  ++ (if t_micro t =? 0 then [] else s2l "." ++ six (t_micro t))
  ++ match t_zone t with
     | None => []
     | Some (neg, h, m) => (if neg then s2l "-" else s2l "+") ++ two h ++ s2l ":" ++ two m
     end.

Section Date.
(** The value of the decimal digits of Unicode other than 0-9: [\d] and [int] know them, too. *)
Variable other_digit : N -> option N.

(** ** [datetime.strptime] (CPython, Lib/_strptime.py) for the directives used here *)
Inductive directive := D_Y | D_y | D_m | D_d | D_H | D_M | D_S | Lit (c : N).

Definition is_ascii_digit (c : N) : bool := N.leb 48 c && N.leb c 57.
Definition digit (c : N) : option N :=
  if is_ascii_digit c then Some (c - 48) else other_digit c.
(** a range of ASCII digits *)
Definition in_range (a b c : N) : option N :=
  if N.leb (48 + a) c && N.leb c (48 + b) then Some (c - 48) else None.

(** One alternative: a sequence of digit classes; its value and the rest of the text. *)
Fixpoint alt (cs : list (N -> option N)) (acc : N) (s : str) : option (N * str) :=
  match cs with
  | [] => Some (acc, s)
  | p :: t => match s with
              | c :: r => match p c with Some k => alt t (10 * acc + k) r | None => None end
              | [] => None
              end
  end.

(** The alternatives of the directives, in their order; [" [1-9]"] of %d is the last. *)
Definition alts (d : directive) : list (list (N -> option N)) :=
  match d with
  | D_Y => [[digit; digit; digit; digit]]
  | D_y => [[digit; digit]]
  | D_m => [[in_range 1 1; in_range 0 2]; [in_range 0 0; in_range 1 9]; [in_range 1 9]]
  | D_d => [[in_range 3 3; in_range 0 1]; [in_range 1 2; digit]; [in_range 0 0; in_range 1 9];
            [in_range 1 9]; [(fun c => if N.eqb c 32 then Some 0 else None); in_range 1 9]]
  | D_H => [[in_range 2 2; in_range 0 3]; [in_range 0 1; digit]; [digit]]
  | D_M => [[in_range 0 5; digit]; [digit]]
  | D_S => [[in_range 6 6; in_range 0 1]; [in_range 0 5; digit]; [digit]]
  | Lit _ => []
  end.

(** All matches, in the order in which the backtracking matcher finds them.  Letters match in either
    case. *)
Fixpoint matches (ds : list directive) (s : str) : list (list N * str) :=
  match ds with
  | [] => [([], s)]
  | Lit c :: t => match s with
                  | x :: r => if N.eqb x c || (N.eqb c 90 && N.eqb x 122) then matches t r else []
                  | [] => []
                  end
  | d :: t =>
      flat_map (fun a => match alt a 0 s with
                         | Some (v, r) => map (fun m => (v :: fst m, snd m)) (matches t r)
                         | None => []
                         end) (alts d)
  end.

(** The fields found; %y: POSIX, 00-68 are of this century. *)
Fixpoint assign (ds : list directive) (vs : list N) (t : datetime) : datetime :=
  let d := t_date t in
  match ds, vs with
  | Lit _ :: ds', _ => assign ds' vs t
  | D_Y :: ds', v :: vs' =>
      assign ds' vs' (mkDatetime (mkDate v (d_month d) (d_day d)) (t_hour t) (t_minute t) (t_second t) 0 None)
  | D_y :: ds', v :: vs' =>
      assign ds' vs' (mkDatetime (mkDate (if v <=? 68 then 2000 + v else 1900 + v) (d_month d) (d_day d))
                        (t_hour t) (t_minute t) (t_second t) 0 None)
  | D_m :: ds', v :: vs' =>
      assign ds' vs' (mkDatetime (mkDate (d_year d) v (d_day d)) (t_hour t) (t_minute t) (t_second t) 0 None)
  | D_d :: ds', v :: vs' =>
      assign ds' vs' (mkDatetime (mkDate (d_year d) (d_month d) v) (t_hour t) (t_minute t) (t_second t) 0 None)
  | D_H :: ds', v :: vs' => assign ds' vs' (mkDatetime d v (t_minute t) (t_second t) 0 None)
  | D_M :: ds', v :: vs' => assign ds' vs' (mkDatetime d (t_hour t) v (t_second t) 0 None)
  | D_S :: ds', v :: vs' => assign ds' vs' (mkDatetime d (t_hour t) (t_minute t) v 0 None)
  | _, _ => t
  end.

(** The first match counts; if it leaves something over, or the fields are no date, ValueError. *)
Definition strptime (ds : list directive) (s : str) : res datetime :=
  match matches ds s with
  | (vs, []) :: _ =>
      let t := assign ds vs (midnight (mkDate 1900 1 1)) in
      if valid_datetime t then Ok t else Err ValueErr
  | _ => Err ValueErr
  end.

(** ** types.py:27-51, the parser used when dateutil is not installed *)
Definition colon : directive := Lit 58.
Definition zulu : directive := Lit 90.
Definition formats (n : nat) : option (list directive) :=
  match n with
  | 6%nat => Some [D_y; D_m; D_d]
  | 8%nat => Some [D_Y; D_m; D_d]
  | 13%nat => Some [D_Y; D_m; D_d; D_H; colon; D_M]
  | 14%nat => Some [D_Y; D_m; D_d; D_H; colon; D_M; zulu]
  | 16%nat => Some [D_Y; D_m; D_d; D_H; colon; D_M; colon; D_S]
  | 17%nat => Some [D_Y; D_m; D_d; D_H; colon; D_M; colon; D_S; zulu]
  | _ => None
  end.

(** [.replace("-", "").replace("T", "").replace(" ", "")] *)
Definition strip (s : str) : str :=
  filter (fun c => negb (N.eqb c 45 || N.eqb c 84 || N.eqb c 32)) s.

(** UserErr: the plain [Exception] of types.py:46 *)
Definition fallback_parse (s : str) : res datetime :=
  match formats (List.length (strip s)) with
  | Some f => strptime f (strip s)
  | None => Err UserErr
  end.

(** ** Coercions *)

(** Values: dates that are not datetimes, datetimes, text, and other objects, which may have a method
    [date]. *)
Inductive tval := VDate (d : date) | VDatetime (t : datetime) | VStr (s : str) | VObj (n : nat).

(** [parse_datetime]: dateutil's or the one above *)
Variable parse : str -> res datetime.
(** [x.date()] of other objects, if there is one *)
Variable date_method : nat -> option (res (pval tval)).

(** types.py:103-113 *)
Definition coerce_datetime (v : tval) : res datetime :=
  match v with
  | VDate d => Ok (midnight d)
  | VStr s => parse s
  | _ => Err ValueErr
  end.

(** types.py:116-122 *)
Definition coerce_date (v : tval) : res (pval tval) :=
  match v with
  | VDatetime t => Ok (PV (VDate (t_date t)))
  | VObj n => match date_method n with
              | Some r => r
              | None => do t <- coerce_datetime v; Ok (PV (VDate (t_date t)))
              end
  | _ => do t <- coerce_datetime v; Ok (PV (VDate (t_date t)))
  end.

Section Props.
Variable W : Type.

(** Neither None nor [_Default] has a method [date] or is text. *)
Definition coercion (f : tval -> res (pval tval)) (v : pval tval) (w : W) : cres tval * W :=
  match v with
  | PV x => match f x with Ok y => (CRet y, w) | Err e => (CRaise e, w) end
  | _ => (CRaise ValueErr, w)
  end.

(** types.py:135-139: the subtype [date] *)
Definition is_a_date (v : pval tval) : bool :=
  match v with PV (VDate _) | PV (VDatetime _) => true | _ => false end.
Definition is_a_datetime (v : pval tval) : bool :=
  match v with PV (VDatetime _) => true | _ => false end.

(** types.py:142-154, a DateProperty *)
Definition date_prop (required : bool) : prop tval W :=
  sub_prop tval W (SBase _ _ is_a_date) (fun v => Ok (negb (is_a_datetime v))) None
    (Some (coercion coerce_date)) false required Safe None (DNone _ _) PUnset (fun _ => false).

(** types.py:155-167, a DatetimeProperty *)
Definition datetime_prop (required : bool) : prop tval W :=
  mkProp _ _ false Safe required (Some is_a_datetime)
    (coercion (fun v => do t <- coerce_datetime v; Ok (PV (VDatetime t)))) None (DNone _ _) PUnset
    (fun _ => false).
End Props.
End Date.
