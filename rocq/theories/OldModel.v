(** The likelihood functions of src/mc_line.c and src/mc_vmap.c that the program keeps
    beside the ones it calls: prob_line_variability, prob_line_variability2,
    prob_line_variability3 and prob_line_variability3_vmap.  Nothing calls them.  Real
    numbers, no rounding; the work arrays (Larr, ybuf, y, yq, yave, Cq, ICq, Tmat1, Tmat2,
    IPCmat) are arrays of their own. *)
From Coq Require Import Reals List Arith ZArith.
From Verif Require Import CPrelude SemisepModel SemisepProofs KernelModel PartModel CovModel LikeModel PredModel EndModel VmapModel ConModel SetsModel.
Import ListNotations.
Open Scope R_scope.

Section Ends.
Context {IP : Type}.
Variable dsytrf : nat -> (nat -> nat -> R) -> (nat -> nat -> R) * IP.
Variable dsytri : nat -> (nat -> nat -> R) -> IP -> nat -> nat -> R.
Variable dsytri_fails : nat -> (nat -> nat -> R) -> IP -> bool.
(** LAPACKE_dgetrf and LAPACKE_dgetri as in ConModel.v; LAPACKE_dgetrs m n: factors,
    ipiv, the m x n right-hand sides; the solutions and whether the code is not zero *)
Variable dgetrf : nat -> arr -> arr * (nat -> nat) * bool.
Variable dgetri : nat -> arr -> (nat -> nat) -> arr * bool.
Variable dgetrs : nat -> nat -> arr -> (nat -> nat) -> arr -> arr * bool.

(** multiply_mat_MN_inverseA, src/mathfun.c:107-125: what is left in b; the callers copy
    a before.  error_exit ends the program. *)
Definition multiply_mat_MN_inverseA (a b : arr) (m n : nat) : outcome arr :=
  let '(f, ip, bad) := dgetrf m a in
  if bad then Exit else
  let '(x, bad) := dgetrs m n f ip b in
  if bad then Exit else Ok x.

(** The common end of the first two functions, src/mc_line.c:1938-1958 and 2051-2072:
    [prob1], then the two determinants.  [None] is the return of -DBL_MAX; info is 0
    whenever lndet_mat3 returns (src/mathfun.c:406-411). *)
Definition old_finish (nall nqall : nat) (PC ICq : arr) (sigma prob1 : R) : outcome (option R) :=
  if Rlt_dec 0 prob1 then Ok None else
  ld <- lndet_mat3 dgetrf PC nall ;;
  let lndet := fst ld + 2 * INR nall * ln sigma in
  if Z.eqb (snd ld) (-1) then Ok None else
  lq <- lndet_mat3 dgetrf ICq nqall ;;
  let lndet_ICq := fst lq - 2 * INR nqall * ln sigma in
  if Z.eqb (snd lq) (-1) then Ok None else
  Ok (Some (prob1 - 1 / 2 * lndet - 1 / 2 * lndet_ICq)).

(** prob_line_variability, src/mc_line.c:1920-1958 *)
Definition old_end1 (nall nqall : nat) (PC Larr fall : arr) (sigma : R) : outcome (option R) :=
  T2 <- multiply_mat_MN_inverseA PC Larr nall nqall ;;
  let ICq := mul_tA Larr T2 nqall nqall nall in
  let yq := mul_tA T2 fall nqall 1 nall in
  yq <- multiply_mat_MN_inverseA ICq yq nqall 1 ;;
  let yave := mul_MN Larr yq nall 1 nqall in
  let y := fun i => fall i - yave i in
  ybuf <- multiply_mat_MN_inverseA PC y nall 1 ;;
  let prob1 := - (1 / 2) * ddot nall y ybuf / (sigma * sigma) in
  old_finish nall nqall PC ICq sigma prob1.

(** prob_line_variability2, src/mc_line.c:2025-2072 *)
Definition old_end2 (nall nqall : nat) (PC Larr fall : arr) (sigma : R) : outcome (option R) :=
  IPC <- inverse_mat dgetrf dgetri PC nall ;;
  let ybuf := mul_MN IPC Larr nall nqall nall in
  let Cq := mul_tA Larr ybuf nqall nqall nall in
  let ICq := Cq in
  let ybuf := matvec IPC nall fall in
  let yq := mul_tA Larr ybuf nqall 1 nall in
  Cq <- inverse_mat dgetrf dgetri Cq nqall ;;
  let ybuf := mul_MN Cq yq nqall 1 nqall in
  let y := matvec_MN Larr nall nqall ybuf in
  let y := fun i => fall i - y i in
  let ybuf := matvec IPC nall y in
  let prob1 := - (1 / 2) * ddot nall y ybuf / (sigma * sigma) in
  old_finish nall nqall PC ICq sigma prob1.

(** prob_line_variability3, src/mc_line.c:2135-2182, and prob_line_variability3_vmap,
    src/mc_vmap.c:376-421, which has the same statements *)
Definition old_end3 (nall nqall : nat) (PC Larr fall : arr) (sigma : R) : option R :=
  let '(PC, lndet, info, sign) := inverse_symat_lndet_sign dsytrf dsytri dsytri_fails PC 0 nall in
  if (info || Z.eqb sign (-1))%bool then None else
  let lndet := lndet + 2 * INR nall * ln sigma in
  let ybuf := mul_MN PC Larr nall nqall nall in
  let Cq := mul_tA Larr ybuf nqall nqall nall in
  let ybuf := matvec PC nall fall in
  let yq := mul_tA Larr ybuf nqall 1 nall in
  let '(Cq, lndet_ICq, info, sign) := inverse_symat_lndet_sign dsytrf dsytri dsytri_fails Cq 0 nqall in
  if (info || Z.eqb sign (-1))%bool then None else
  let lndet_ICq := lndet_ICq - 2 * INR nqall * ln sigma in
  let ybuf := mul_MN Cq yq nqall 1 nqall in
  let y := matvec_MN Larr nall nqall ybuf in
  let y := fun i => fall i - y i in
  let ybuf := matvec PC nall y in
  let prob1 := - (1 / 2) * ddot nall y ybuf / (sigma * sigma) in
  if Rlt_dec 0 prob1 then None else Some (prob1 - 1 / 2 * lndet - 1 / 2 * lndet_ICq).
End Ends.

(** the loop over the sets, src/mc_line.c:1885-1961 and 1994-2074 *)
Fixpoint old_sets (l : list (outcome (option R))) (prob : R) : outcome (option R) :=
  match l with
  | [] => Ok (Some prob)
  | o :: l => p <- o ;; match p with None => Ok None | Some p => old_sets l (prob + p) end
  end.

Section Sets.
Context {IP : Type}.
Variable dsytrf : nat -> (nat -> nat -> R) -> (nat -> nat -> R) * IP.
Variable dsytri : nat -> (nat -> nat -> R) -> IP -> nat -> nat -> R.
Variable dsytri_fails : nat -> (nat -> nat -> R) -> IP -> bool.
Variable dgetrf : nat -> arr -> arr * (nat -> nat) * bool.
Variable dgetri : nat -> arr -> (nat -> nat) -> arr * bool.
Variable dgetrs : nat -> nat -> arr -> (nat -> nat) -> arr -> arr * bool.
Variable log_erfc : R -> R.
Variable type_tf : nat.
Variable flag : bool.
Variable nset : nat.
Variable ds : nat -> lcset.
Variable ng : nat.
Variable uniform : nat.
Variable uniform_var : bool.
Variable nq : nat.
Variable junk : nat -> nat -> nat.
Variable fd : nat -> found.
Notation con_index := (con_index uniform_var).
Notation line_index := (line_index nset ds ng uniform uniform_var junk).

Section One.
Variable pm : arr.
Variable k : nat.
Notation d := (ds k).
Notation f := (fd k).
Notation K := (pointers log_erfc type_tf flag con_index line_index ng pm k).
(** src/mc_line.c:1887-1889 *)
Definition old_sigma : R := exp (pm (con_index k + 1)%nat) * sqrt (exp (pm (con_index k + 2)%nat)).
(** alldata[k].n and nqall, src/mc_line.c:1891-1893 *)
Definition old_nall : nat := all_points (s_ncon d) (s_nl d) (s_nline d).
Definition old_nqall : nat := (nq * (1 + s_nl d))%nat.
(** src/mc_line.c:1895-1916 *)
Definition old_L : arr := trend_matrix nq (s_nl d) (s_ncon d) (s_tcon d) (s_nline d) (s_tline d) (f_L f).
(** PCmat after set_covar_Pmat_data_line_array, src/mc_line.c:1918 *)
Definition old_PC : arr :=
  array_matrix (s_ncon d) (s_tcon d) (s_fe d) (s_em d) (s_nl d) (s_nline d) (s_tline d) (s_fel d) (s_eml d)
    K pm (con_index k) (line_index k) (f_lc f) (f_ll f) (f_PS f) (f_mem f) (f_A f).
(** the same for the lines alone, src/mc_vmap.c:352-374; sigma without sqrt(tau) *)
Definition oldv_nall : nat := vmap_points (s_nl d) (s_nline d).
Definition oldv_L : arr := vtrend_matrix nq (s_nl d) (s_nline d) (s_tline d) (f_L f).
Definition oldv_PC : arr :=
  vmap_array_matrix (s_nl d) (s_nline d) (s_tline d) (s_fel d) (s_eml d) K pm (con_index k) (line_index k) (f_ll f) (f_PS f) (f_mem f) (f_A f).
End One.

(** src/mc_line.c:1862-1962 *)
Definition prob_line_variability (pm : arr) : outcome (option R) :=
  old_sets (map (fun k => old_end1 dgetrf dgetrs (old_nall k) (old_nqall k) (old_PC pm k) (old_L k) (s_fall (ds k)) (old_sigma pm k)) (seq 0 nset)) 0.
(** src/mc_line.c:1969-2076 *)
Definition prob_line_variability2 (pm : arr) : outcome (option R) :=
  old_sets (map (fun k => old_end2 dgetrf dgetri (old_nall k) (old_nqall k) (old_PC pm k) (old_L k) (s_fall (ds k)) (old_sigma pm k)) (seq 0 nset)) 0.
(** src/mc_line.c:2081-2186 *)
Definition prob_line_variability3 (pm : arr) : option R :=
  prob_sets (map (fun k => old_end3 dsytrf dsytri dsytri_fails (old_nall k) (old_nqall k) (old_PC pm k) (old_L k) (s_fall (ds k)) (old_sigma pm k)) (seq 0 nset)) 0.
(** src/mc_vmap.c:329-425 *)
Definition prob_line_variability3_vmap (pm : arr) : option R :=
  prob_sets (map (fun k => old_end3 dsytrf dsytri dsytri_fails (oldv_nall k) (nq * s_nl (ds k)) (oldv_PC pm k) (oldv_L k) (s_fall (ds k))
    (exp (pm (con_index k + 1)%nat))) (seq 0 nset)) 0.
End Sets.
