(** What the reader derives from the times of the data: seasonal gap, longest
    time span, cadences, number of digits printed for times, and the report of
    the end points.  Times are real numbers; overflow of the conversion of a
    finite number to [int] is not modelled. *)
From Coq Require Import ZArith Reals List Bool.
From Verif Require Import CPrelude SortModel.
Import ListNotations.
Open Scope R_scope.

(** Array read [l[i]] at an [int] index; out of bounds, also below zero, is
    undefined behaviour. *)
Definition at_ {A} (l : list A) (i : Z) : outcome A :=
  if (i <? 0)%Z then UB else get l (Z.to_nat i).

Definition count {A} (l : list A) : Z := Z.of_nat (length l).

(** YEAR_DAY, src/allvars.h:29. *)
Definition YEAR_DAY : R := 365.25.

(** The C functions [floor] and [ceil]. *)
Definition floorZ (x : R) : Z := Int_part x.
Definition ceilZ (x : R) : Z := (- Int_part (- x))%Z.

(** cmpfunc, src/read.c:1374-1379. *)
Definition cmpfunc (a b : R) : Z :=
  if Rlt_dec b a then 1%Z else if Rlt_dec a b then (-1)%Z else 0%Z.

(** Sampling intervals, src/read.c:1402-1406. *)
Fixpoint intervals (t : list R) : list R :=
  match t with
  | a :: ((b :: _) as r) => (b - a) :: intervals r
  | _ => []
  end.

(** The loop src/read.c:1410-1414: [n] rounds, index going down from [i]. *)
Fixpoint sum_down (dt : list R) (i : Z) (n : nat) (gap : R) : outcome R :=
  match n with
  | O => Ok gap
  | S n' => v <- at_ dt i ;; sum_down dt (i - 1) n' (gap + v)
  end.

(** get_seasonal_gap, src/read.c:1386-1425; [tcad] is the global
    tcadence_con_min.  [malloc] succeeds. *)
Definition get_seasonal_gap (tcad : R) (tcon : list R) : outcome R :=
  b <- at_ tcon (count tcon - 1) ;;
  a <- at_ tcon 0 ;;
  let ny := ceilZ ((b - a) / YEAR_DAY) in
  if (1 <? ny)%Z then
    let dt := msort cmpfunc (intervals tcon) in
    gap <- sum_down dt (count tcon - 2) (Z.to_nat (ny - 1)) 0 ;;
    Ok (gap / IZR (ny - 1))
  else Ok tcad.

(** get_seasonal_gap_allset without a prior string, src/read.c:1431-1441:
    center and width of the gap of each data set. *)
Definition get_seasonal_gap_allset (tcad : R) (cons : list (list R)) : outcome (list (R * R)) :=
  mapM (fun c => w <- get_seasonal_gap tcad c ;; Ok (YEAR_DAY / 2, w / 2)) cons.

(** The times of a data set: continuum and lines, src/allvars.h (type DATASET). *)
Record times := mktimes { con_t : list R; line_t : list (list R) }.

(** One curve of the first loop, src/read.c:961-968 and 970-980; -DBL_MAX as
    start of tmax is the number [lowest]. *)
Definition span_of (c : list R) (st : R * R) : outcome (R * R) :=
  if (count c =? 0)%Z then Ok st
  else
    e <- at_ c (count c - 1) ;;
    b <- at_ c 0 ;;
    let tspan := e - b in
    Ok (if Rlt_dec (fst st) tspan then tspan else fst st, Rmax (snd st) e).

(** src/read.c:956-981: (tspan_max, tmax). *)
Definition spans (lowest : R) (sets : list times) : outcome (R * R) :=
  foldM (fun st d => st1 <- span_of (con_t d) st ;; foldM (fun s c => span_of c s) (line_t d) st1)
    sets (0, lowest).

(** src/read.c:982-985. *)
Definition upper_lag (lag_limit_upper tspan_max : R) : R :=
  if Rlt_dec lag_limit_upper 0 then tspan_max / 2 else lag_limit_upper.

(** One curve of the second loop, src/read.c:992-997 and 999-1007.  One point
    gives 0/0, a NaN, and the comparison fails. *)
Definition cadence_of (c : list R) (cad : R) : outcome R :=
  if (count c =? 0)%Z then Ok cad
  else
    e <- at_ c (count c - 1) ;;
    b <- at_ c 0 ;;
    if (count c =? 1)%Z then Ok cad
    else
      let tcad := (e - b) / IZR (count c - 1) in
      Ok (if Rlt_dec tcad cad then tcad else cad).

(** src/read.c:987-1009: (tcadence_con_min, tcadence_line_min, tcadence_min).
    The two minima do not depend on each other, so the loops are split. *)
Definition cadences (tspan_max : R) (sets : list times) : outcome (R * R * R) :=
  c <- foldM (fun s d => cadence_of (con_t d) s) sets tspan_max ;;
  l <- foldM (fun s d => foldM (fun s c => cadence_of c s) (line_t d) s) sets tspan_max ;;
  Ok (c, l, Rmin c l).

(** log10; the value at zero is -infinity. *)
Definition log10 (x : R) : R := ln x / ln 10.

(** (int)(floor(log10(x))) for x >= 0: converting an infinity to [int] is
    undefined. *)
Definition int_log10 (x : R) : outcome Z :=
  if Req_EM_T x 0 then UB else Ok (floorZ (log10 x)).

(** n_precision_time, src/read.c:1011-1013.  A zero nd_rec makes the quotient
    infinite or NaN. *)
Definition n_precision (tmax tspan_max : R) (nd_rec : Z) : outcome Z :=
  a <- int_log10 (Rabs tmax) ;;
  b <- (if (nd_rec =? 0)%Z then UB else int_log10 (tspan_max / IZR nd_rec)) ;;
  Ok (Z.max (a + 1 - b) 6).

(** What the root task reports of one set, src/read.c:1022-1033: the first and
    the last time of every curve (the fluxes and errors are read at the same
    indices). *)
Definition report_set (d : times) : outcome (list (R * R)) :=
  b <- at_ (con_t d) 0 ;;
  e <- at_ (con_t d) (count (con_t d) - 1) ;;
  ls <- foldM (fun out c =>
          if (count c =? 0)%Z then Ok out
          else b <- at_ c 0 ;; e <- at_ c (count c - 1) ;; Ok (out ++ [(b, e)]))
          (line_t d) [] ;;
  Ok ((b, e) :: ls).

(** src/read.c:1015-1035. *)
Definition report (root : bool) (sets : list times) : outcome (list (list (R * R))) :=
  if root then mapM report_set sets else Ok [].
