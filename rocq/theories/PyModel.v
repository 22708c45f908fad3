(** The Python side: what the interface hands to the program as prior strings, and
    how it and the plotting scripts find the parameters of a line in the posterior
    sample and draw its transfer function.

    Python exceptions are [Exit].  Numbers are exact reals, as in the other models;
    an array over the lag grid is followed at one grid point. *)
From Coq Require Import Reals ZArith List Bool Arith Ascii.
From Verif Require Import CPrelude SemisepModel ScanModel.
Import ListNotations.
Open Scope nat_scope.

(** ** Prior strings, python/pymica/pymica.pyx:623-629, 636-642 (the same at 787-793,
    802-808, 822-828, 1045-1064, 1282-1301).  [f] is the conversion %f; n is the
    number of components; a list that is too short raises IndexError.  strcpy into
    the fixed array of the parameter set is not modelled. *)
Section Text.
Context {V : Type}.
Variable f : V -> list ascii.
Definition pair_text (p : V * V) : list ascii := f (fst p) ++ COLON :: f (snd p).
Fixpoint later_pairs (sep : list ascii) (n : nat) (ps : list (V * V)) : outcome (list ascii) :=
  match n with
  | O => Ok []
  | S n => match ps with
           | [] => Exit
           | p :: ps => r <- later_pairs sep n ps ;; Ok (sep ++ pair_text p ++ r)
           end
  end.
Definition prior_text (n : nat) (ps : list (V * V)) : outcome (list ascii) :=
  match ps with
  | [] => Exit
  | p :: ps => r <- later_pairs [COLON] (n - 1) ps ;; Ok ("["%char :: pair_text p ++ r ++ ["]"%char])
  end.
(** the gap prior, pymica.pyx:650-655 (836-841, 1072-1077, 1309-1314): all pairs
    given, and no colon between one pair and the next *)
Definition gap_text (ps : list (V * V)) : outcome (list ascii) :=
  match ps with
  | [] => Exit
  | p :: ps => r <- later_pairs [] (List.length ps) ps ;; Ok ("["%char :: pair_text p ++ r ++ ["]"%char])
  end.
End Text.

(** ** num_param_var *)
(** gmodel.setup, pymica.pyx:567-573 (the same at 520, 944, 995, 1177, 1229, 1415, 1463) *)
Definition py_num_param_var (nset : nat) (uniform_var : bool) : nat := if uniform_var then 3 else 3 * nset.
(** __cinit__, pymica.pyx:48; the class pmap, 739-852, leaves it so *)
Definition pmap_num_param_var : nat := 0.

(** ** The getters of the interface *)
(** range(0, n) *)
Definition py_range (n : Z) : list nat := seq 0 (Z.to_nat n).
(** row[a:b:3]: the entries a, a+3, ... below b, as far as the row goes *)
Definition py_slice {A : Type} (row : list A) (a b : nat) : list A :=
  flat_map (fun k => if a + 3 * k <? b then match nth_error row (a + 3 * k) with Some x => [x] | None => [] end else [])
    (seq 0 (List.length row)).
(** the index of the first parameter of the line, pymica.pyx:319-327 *)
Definition skip_sets (npv : nat) (nlset : nat -> nat) (i : nat) (set : Z) : nat :=
  fold_left (fun x j => x + (1 + i * 3) * nlset j) (py_range (set - 1)) npv.
Definition idx_timelag (npv uniform : nat) (nlset : nat -> nat) (i : nat) (set line : Z) : nat :=
  if uniform =? 1 then npv + (1 + i * 3) * Z.to_nat line
  else skip_sets npv nlset i set + (1 + i * 3) * Z.to_nat line.
(** pymica.pyx:285-296 *)
Definition idx_width (npv uniform : nat) (nlset : nat -> nat) (i : nat) (set line : Z) : nat :=
  if uniform =? 0 then skip_sets npv nlset i set + (1 + i * 3) * Z.to_nat line
  else npv + (1 + i * 3) * Z.to_nat line.
(** the checks, pymica.pyx:273-281 and 314-322 *)
Definition check_line (nset : nat) (nlset : nat -> nat) (set line : Z) : outcome unit :=
  if (Z.of_nat nset <=? set)%Z then Exit
  else if (set <? 0)%Z then Exit
  else if (Z.of_nat (nlset (Z.to_nat set)) <=? line)%Z then Exit
  else if (line <? 0)%Z then Exit
  else Ok tt.
(** get_posterior_sample_timelag, pymica.pyx:310-339, for one row of the sample with
    i components; the file and the loop over the numbers of components are left out *)
Definition posterior_timelag {A : Type} (nset : nat) (nlset : nat -> nat) (npv uniform i : nat) (set line : Z) (row : list A) : outcome (list A) :=
  _u <- check_line nset nlset set line ;;
  let idx_line := idx_timelag npv uniform nlset i set line in
  Ok (py_slice row (idx_line + 2) (idx_line + 2 + i * 3)).
(** get_posterior_sample_width, pymica.pyx:268-298 *)
Definition posterior_width {A : Type} (nset : nat) (nlset : nat -> nat) (npv uniform i : nat) (set line : Z) (row : list A) : outcome (list A) :=
  _u <- check_line nset nlset set line ;;
  let idx_line := idx_width npv uniform nlset i set line in
  Ok (py_slice row (idx_line + 3) (idx_line + 3 + i * 3)).

(** ** The plotting scripts *)
(** indx_line, plotfig.py:423-426, 457-465.  nls is the number of curves of each set
    (the lines and the continuum), the fields of its line in the header of the data. *)
Fixpoint indx_line (npv flagtran ngau : nat) (nls : nat -> nat) (m : nat) : nat :=
  match m with
  | O => npv
  | S i => if flagtran =? 1 then npv else indx_line npv flagtran ngau nls i + (nls i - 1) * (1 + ngau * 3)
  end.
(** plotdecomp.py:216-229: both flags are zero, and with a second set the name nl is
    used before it is given a value (UnboundLocalError; nl is set at line 254) *)
Definition decomp_indx_line (nd m : nat) : outcome nat :=
  if nd <=? 1 then Ok (indx_line (3 * nd) 0 0 (fun _ => 0) m) else Exit.
(** the column of value c of component k of line j (counted from 1) of set m *)
Definition column (base ngau j k c : nat) : nat := base + (j - 1) * (ngau * 3 + 1) + 1 + k * 3 + c.

(** _calculate_tran, plotfig.py:135-258, and its copy in plotdecomp.py:59-182, at one
    point tau of the grid.  The mask idx_tau is kept as the bound it was made
    with; it has no value before it is assigned.  [extra]: the copy in plotdecomp.py
    multiplies by (tau-cen) in the first exponential of the ratio mode (line 173). *)
Local Open Scope R_scope.
Definition at_ (row : list R) (i : nat) : outcome R := match nth_error row i with Some x => Ok x | None => Exit end.
Definition heaviside1 (x : R) : R := if Rlt_dec x 0 then 0 else 1.
Definition in_mask (tau cen : R) (v : R) : R := if Rle_dec cen tau then v else 0.
Definition gauss_term (amp cen sig tau : R) : R := amp / sig * exp (- (1 / 2) * (tau - cen) ^ 2 / sig ^ 2) / sqrt (2 * PI).
Definition hat_term (amp cen sig tau : R) : R := amp / sig / 2 * heaviside1 (sig - Rabs (tau - cen)).
Definition gamma_term (amp cen sig tau : R) : R := amp / sig ^ 2 * (tau - cen) * exp (- (tau - cen) / sig).
Definition exp_term (amp cen sig tau : R) : R := amp / sig * exp (- (tau - cen) / sig).

Section Tran.
Variable extra : bool.
Variable typemodel : nat.
Variable flagneg : bool.
Variable row : list R.
Variable base ngau j : nat.
Variable tau : R.
Notation col := (column base ngau j).

Definition tran_general (k ty : nat) (st : R * option R) : outcome (R * option R) :=
  let '(tran, mask) := st in
  p <- at_ row (col k 0%nat) ;;
  let amp := if flagneg then p else exp p in
  c <- at_ row (col k 1%nat) ;;
  s <- at_ row (col k 2%nat) ;;
  let sig := exp s in
  match ty with
  | 0%nat => Ok (tran + gauss_term amp c sig tau, mask)
  | 1%nat => Ok (tran + hat_term amp c sig tau, mask)
  | 2%nat => let cen := c - 2 * sig in Ok (tran + in_mask tau cen (gamma_term amp cen sig tau), Some cen)
  | _ => let cen := c - sig in Ok (tran + in_mask tau cen (exp_term amp cen sig tau), Some cen)
  end.
Definition tran_ratio (k ty : nat) (st : R * option R) : outcome (R * option R) :=
  let '(tran, mask) := st in
  p <- at_ row (col k 0%nat) ;;
  p0 <- at_ row (col 0%nat 0%nat) ;;
  let amp := if (k =? 0)%nat then exp p else exp (p + p0) in
  c <- at_ row (col k 1%nat) ;;
  s <- at_ row (col k 2%nat) ;;
  let sig := exp s in
  match ty with
  | 0%nat => Ok (tran + gauss_term amp c sig tau, mask)
  | 1%nat => Ok (tran + hat_term amp c sig tau, mask)
  | 2%nat =>
    let cen := c - 2 * sig in
    let mask := if (k =? 0)%nat then Some cen else mask in
    match mask with
    | None => Exit
    | Some b => Ok (tran + in_mask tau b (gamma_term amp cen sig tau), mask)
    end
  | _ =>
    let cen := c - sig in
    let mask := if (k =? 0)%nat then Some cen else mask in
    match mask with
    | None => Exit
    | Some b => Ok (tran + in_mask tau b ((if extra && (k =? 0)%nat then tau - cen else 1) * exp_term amp cen sig tau), mask)
    end
  end.
(** the loop over the shapes from component k on *)
Fixpoint tran_loop (k : nat) (typetf : list nat) (st : R * option R) : outcome (R * option R) :=
  match typetf with
  | [] => Ok st
  | ty :: r =>
    st <- match typemodel with
          | 0%nat | 2%nat | 3%nat => tran_general k ty st
          | 1%nat => tran_ratio k ty st
          | _ => Ok st
          end ;;
    tran_loop (S k) r st
  end.
Definition calculate_tran (typetf : list nat) : outcome R :=
  st <- tran_loop 0 typetf (0, None) ;; Ok (fst st).
End Tran.
