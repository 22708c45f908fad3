(** From the settings and the times of the data to the prior ranges of all
    parameters: src/init.c:41-137, src/read.c:956-1009, src/mc_line.c:76-80 and
    the range routines of ParamModel.  Numbers are real; [log] is only meant for
    positive arguments. *)
From Coq Require Import Reals ZArith QArith Qreals List Bool Arith.
From Verif Require Import CPrelude SemisepModel ParamModel SpanModel TagModel ParsetModel.
Import ListNotations.
Open Scope R_scope.

(** The limits among the settings, as they are after reading: a width limit is
    absent if it was not set (src/read.c:350-357). *)
Record limits := Limits
  { lag_low : R; lag_upp : R; width_low : option R; width_upp : option R;
    negative : bool; prior : nat }.

(** The numbers of the settings; infinite values and NaN are not modelled.
    flag_negative_resp == 0 is the test of src/init.c:62. *)
Definition real (x : num) : outcome R := match x with Num q => Ok (Q2R q) | _ => Stuck end.
Definition width_limit (x : num) : outcome (option R) :=
  if nlt x DMAX then r <- real x ;; Ok (Some r) else Ok None.
Definition limits_of (p : parset) : outcome limits :=
  a <- real (p_lag_low p) ;; b <- real (p_lag_upp p) ;;
  c <- width_limit (p_wid_low p) ;; d <- width_limit (p_wid_upp p) ;;
  Ok (Limits a b c d (negb (p_neg p =? 0)%Z) (Z.to_nat (p_prior p))).

(** var_range_model, src/init.c:43-51. *)
Definition var_range_model (tspan : R) (k : nat) : R * R :=
  match k with
  | O => (ln 1, ln (1 + 10))
  | 1%nat => (ln (1 / 10 ^ 4), ln 10)
  | _ => (ln 1, ln (tspan * 2 * PI))
  end.

(** line_range_model, src/init.c:55-83. *)
Definition line_range_model (tspan tcad : R) (L : limits) (k : nat) : R * R :=
  match k with
  | O => (ln 1, ln (1 + 10))
  | 1%nat => if negative L then (- 10, 10) else (ln (1 / 10 ^ 5), ln 10)
  | 2%nat => (Rmax (lag_low L) (- tspan / 2), Rmin (lag_upp L) (tspan / 2))
  | _ =>
    (match width_low L with Some w => ln w | None => ln (tcad / 10) end,
     match width_upp L with Some w => Rmin (ln w) (ln (tspan / 3)) | None => ln (tspan / 3) end)
  end.

(** width_prior, src/init.c:86-132: the pairs read from StrWidthPrior (see
    ScanModel for the reading), or the default. *)
Definition width_prior_model (upper : nat) (given : option (nat -> R * R)) (dflt : R * R) : outcome (nat -> R * R) :=
  match given with
  | None => Ok (fun _ => dflt)
  | Some f =>
    if existsb (fun k => if Rle_dec (fst (f k)) 0 then true else if Rle_dec (snd (f k)) 0 then true else false) (seq 0 upper)
    then Exit
    else Ok (fun k => (ln (fst (f k)), ln (snd (f k))))
  end.

(** what mc_pmap_init makes of them in the photometric mode, src/mc_pmap.c:211-217 *)
Definition photo_widths (upper : nat) (wp : nat -> R * R) (k : nat) : R * R :=
  if (k =? 0)%nat then (Rmin (fst (wp k)) (ln (1 / 100)), snd (wp k))
  else if (k <? upper)%nat then (Rmax (fst (wp k)) (ln 1), snd (wp k))
  else wp k.

(** type_lag_prior_pr, src/mc_line.c:76-80, src/mc_mmap.c:68-72,
    src/mc_vmap.c:72-76. *)
Definition lag_prior_pr (type_lag_prior num_gaussian : nat) : nat :=
  if (type_lag_prior =? 0)%nat && (1 <? num_gaussian)%nat then 0%nat else 1%nat.

(** The modes with priors of their own; the general and the mixed mode share
    set_par_range_line (src/dnest_mmap.c:66-76 calls it). *)
Inductive mode := General | Photo | Virtual.

Section Run.
Variable sets : list times.
(** number of data sets, and of lines of each *)
Definition n_sets : nat := length sets.
Definition n_lines (i : nat) : nat := length (line_t (nth i sets (mktimes [] []))).

(** The ranges of a run with [ng] components: src/read.c:956-1009 (lag limit,
    span and cadence), src/init.c:41-132, src/mc_*.c, then set_par_range_*.
    [var], [std]: result of the continuum fit; [lags], [ratios]: lag_prior and
    resp_ratio_prior as read; [upper] is num_gaussian_upper; [r0] is what
    par_range_model holds before. *)
Definition prior_ranges (m : mode) (lowest : R) (L : limits) (widths : option (nat -> R * R)) (lags ratios : nat -> R * R)
  (upper ng uniform : nat) (uniform_var : bool) (var std : arr) (r0 : ranges) : outcome ranges :=
  st <- spans lowest sets ;;
  let tspan := fst st in
  let L := Limits (lag_low L) (upper_lag (lag_upp L) tspan) (width_low L) (width_upp L) (negative L) (prior L) in
  cads <- cadences tspan sets ;;
  let tcad := snd cads in
  let vr := var_range_model tspan in
  let lr := line_range_model tspan tcad L in
  wp <- width_prior_model upper widths (lr 3%nat) ;;
  let given := match widths with Some _ => true | None => false end in
  let pr := lag_prior_pr (prior L) ng in
  Ok (match m with
      | General => set_par_range_line n_sets n_lines ng uniform uniform_var var std vr lr (prior L) pr lags wp given r0
      | Photo => set_par_range_pmap n_sets n_lines ng uniform uniform_var var std vr lr lags (photo_widths upper wp) ratios r0
      | Virtual => set_par_range_vmap n_sets n_lines ng uniform uniform_var vr lr (prior L) pr lags wp given r0
      end).
End Run.
