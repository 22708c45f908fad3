(** The lags that plotfig.py prints and draws for one row of the posterior sample.
    Python exceptions are [Exit]; numbers are exact reals. *)
From Coq Require Import Reals List Arith.
From Verif Require Import CPrelude PyModel.
Import ListNotations.
Open Scope R_scope.

Section Lag.
Variable row : list R.
Variable base ngau j : nat.
Notation col := (column base ngau j).

(** _get_time_lag, plotfig.py:260-269: for another type it returns None, and None
    times an array raises *)
Definition get_time_lag (idx tt : nat) : outcome R := if (tt <=? 3)%nat then at_ row (idx + 1)%nat else Exit.
(** int(typetf[k]) *)
Definition type_at (typetf : list nat) (k : nat) : outcome nat := match nth_error typetf k with Some t => Ok t | None => Exit end.

(** plotfig.py:502-508, with flagnegresp = 0: the state is sample_lag, weight_lag.  The
    branch for other values (510-511) is not reached, line 488. *)
Definition general_term (typetf : list nat) (s : R * R) (k : nat) : outcome (R * R) :=
  t <- type_at typetf k ;;
  l <- get_time_lag (col k 0%nat) t ;;
  p <- at_ row (col k 0%nat) ;;
  Ok (fst s + l * exp p, snd s + exp p).
(** plotfig.py:513-524 *)
Definition ratio_term (typetf : list nat) (s : R * R) (k : nat) : outcome (R * R) :=
  t <- type_at typetf k ;;
  l <- get_time_lag (col k 0%nat) t ;;
  p <- at_ row (col k 0%nat) ;;
  p0 <- at_ row (col 0%nat 0%nat) ;;
  Ok (fst s + l * exp (p + p0), snd s + exp (p + p0)).
(** the lag printed for this row, plotfig.py:498-526; the printed number is a quantile
    of these over the rows *)
Definition printed_lag (typemodel : nat) (typetf : list nat) : outcome R :=
  s <- match typemodel with
       | 0%nat | 2%nat | 3%nat => foldM (general_term typetf) (seq 0 ngau) (0, 0)
       | 1%nat => s0 <- general_term typetf (0, 0) 0%nat ;; foldM (ratio_term typetf) (seq 1 (ngau - 1)) s0
       | _ => Ok (0, 0)
       end ;;
  Ok (fst s / snd s).

(** the centroid drawn in the histogram, plotfig.py:783-821, for the general, virtual
    and mixed modes *)
Definition centroid_term (typetf : list nat) (s : R * R) (k : nat) : outcome (R * R) :=
  t <- type_at typetf k ;;
  p <- at_ row (col k 0%nat) ;;
  c <- at_ row (col k 1%nat) ;;
  w <- at_ row (col k 2%nat) ;;
  match t with
  | 0%nat | 1%nat => Ok (fst s + exp p, snd s + exp p * c)
  | 2%nat | 3%nat => Ok (fst s + exp p, snd s + exp p * (c + 0 * exp w))
  | _ => Ok s
  end.
Definition drawn_centroid (typetf : list nat) : outcome R :=
  s <- foldM (centroid_term typetf) (seq 0 ngau) (0, 0) ;;
  Ok (snd s / fst s).

(** the lag of component k drawn in the histogram, plotfig.py:725-741; the variable cen
    keeps the value of the component before for another type, which is left out *)
Definition drawn_peak (typetf : list nat) (k : nat) : outcome R :=
  t <- type_at typetf k ;;
  c <- at_ row (col k 1%nat) ;;
  w <- at_ row (col k 2%nat) ;;
  match t with
  | 0%nat | 1%nat => Ok c
  | 2%nat => Ok (c - exp w)
  | 3%nat => Ok (c - exp w)
  | _ => Stuck
  end.
End Lag.

(** cen_pmax, where the line for the most probable row is drawn with --show_pmax,
    plotfig.py:729, 734-735, 740-741, 756-757: the values given to axvline for the
    component at columns c and c+1.  For type 3 the width is taken from all rows. *)
Definition pmax_marks (rows : list (list R)) (best : list R) (t c : nat) : outcome (list R) :=
  cen <- at_ best c ;;
  w <- at_ best (c + 1)%nat ;;
  match t with
  | 0%nat | 1%nat => Ok [cen]
  | 2%nat => Ok [cen - exp w]
  | 3%nat => mapM (fun r => w <- at_ r (c + 1)%nat ;; Ok (cen - exp w)) rows
  | _ => Stuck
  end.
