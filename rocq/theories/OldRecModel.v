(** The reconstructions of src/mc_line.c that the program keeps beside the one it calls:
    reconstruct_line_from_varmodel and reconstruct_line_from_varmodel2.  Nothing calls them.
    Real numbers, no rounding; the work arrays (Larr, ybuf, y, Cq, yq, yave, yuq, Larr_rec,
    PEmat1 to PEmat4, USmatT) are arrays of their own. *)
From Coq Require Import Reals List Arith ZArith.
From Verif Require Import CPrelude SemisepModel SemisepProofs KernelModel PartModel CovModel LikeModel PredModel EndModel ConModel SetsModel OutModel OldModel.
Import ListNotations.
Open Scope R_scope.

(** the transpose of USmat, src/mc_line.c:1654-1657: T x n to n x T *)
Definition old_transpose (T n : nat) (US : arr) : arr := tab T (fun j i => US (i * n + j)%nat).

Section Ends.
Context {IP : Type}.
Variable dsytrf : nat -> (nat -> nat -> R) -> (nat -> nat -> R) * IP.
Variable dsytri : nat -> (nat -> nat -> R) -> IP -> nat -> nat -> R.
(** as in OldModel.v *)
Variable dgetrf : nat -> arr -> arr * (nat -> nat) * bool.
Variable dgetri : nat -> arr -> (nat -> nat) -> arr * bool.
Variable dgetrs : nat -> nat -> arr -> (nat -> nat) -> arr -> arr * bool.

(** reconstruct_line_from_varmodel2, src/mc_line.c:1416 and 1442-1513: n data, nqall trend
    coefficients, T points; [PC] as filled, [Larr] and [Lrec] the trends of the data and of
    the points.  info of inverse_symat is not looked at. *)
Definition old_rec_end2 (n nqall T : nat) (PC Larr fall_data US AS Lrec : arr) (sigma : R) : rec_out :=
  let PC := inverse_symat dsytrf dsytri PC 0 n in
  let ybuf := mul_MN PC Larr n nqall n in
  let Cq := mul_tA Larr ybuf nqall nqall n in
  let ybuf := matvec PC n fall_data in
  let yuq := mul_tA Larr ybuf nqall 1 n in
  let Cq := inverse_symat dsytrf dsytri Cq 0 nqall in
  let yq := mul_MN Cq yuq nqall 1 nqall in
  let ybuf := matvec_MN Larr n nqall yq in
  let y := fun i => fall_data i - ybuf i in
  let ybuf := matvec PC n y in
  let fall := matvec_MN US T n ybuf in
  let yuq := matvec_MN Lrec T nqall yq in
  let fall := fun i => fall i + yuq i in
  let PE1 := mul_MN US PC T n n in
  let PE2 := mul_tB PE1 US T T n in
  let PE3 := mul_MN PE1 Larr T nqall n in
  let PE3 := fun i => PE3 i - Lrec i in
  let PE1 := mul_MN PE3 Cq T nqall nqall in
  let PE4 := mul_tB PE1 PE3 T T nqall in
  RecOut fall (fun i => sigma * sqrt (AS (i * T + i)%nat - PE2 (i * T + i)%nat + PE4 (i * T + i)%nat)) yq.

(** reconstruct_line_from_varmodel, src/mc_line.c:1601-1679 *)
Definition old_rec_end1 (n nqall T : nat) (PC Larr fall_data US AS Lrec : arr) (sigma : R) : outcome rec_out :=
  PE2 <- multiply_mat_MN_inverseA dgetrf dgetrs PC Larr n nqall ;;
  let Cq := mul_tA Larr PE2 nqall nqall n in
  let yq := mul_tA PE2 fall_data nqall 1 n in
  yq <- multiply_mat_MN_inverseA dgetrf dgetrs Cq yq nqall 1 ;;
  let yave := mul_MN Larr yq n 1 nqall in
  let y := fun i => fall_data i - yave i in
  PE2 <- multiply_mat_MN_inverseA dgetrf dgetrs PC y n 1 ;;
  let fall := matvec_MN US T n PE2 in
  let yuq := matvec_MN Lrec T nqall yq in
  let fall := fun i => fall i + yuq i in
  let UST := old_transpose T n US in
  PE2 <- multiply_mat_MN_inverseA dgetrf dgetrs PC UST n T ;;
  let PE1 := mul_MN US PE2 T T n in
  let PE3 := mul_tA PE2 Larr T nqall n in
  let PE3 := fun i => PE3 i - Lrec i in
  Cq <- inverse_mat dgetrf dgetri Cq nqall ;;
  let PE2 := mul_MN PE3 Cq T nqall nqall in
  let PE4 := mul_tB PE2 PE3 T T nqall in
  Ok (RecOut fall (fun i => sigma * sqrt (AS (i * T + i)%nat - PE1 (i * T + i)%nat + PE4 (i * T + i)%nat)) yq).
End Ends.

Section Sets.
Context {IP : Type}.
Variable dsytrf : nat -> (nat -> nat -> R) -> (nat -> nat -> R) * IP.
Variable dsytri : nat -> (nat -> nat -> R) -> IP -> nat -> nat -> R.
Variable dgetrf : nat -> arr -> arr * (nat -> nat) * bool.
Variable dgetri : nat -> arr -> (nat -> nat) -> arr * bool.
Variable dgetrs : nat -> nat -> arr -> (nat -> nat) -> arr -> arr * bool.
Variable log_erfc : R -> R.
Variable type_tf : nat.
Variable flag : bool.
Variable nset : nat.
Variable ds : nat -> lcset.
Variable ng : nat.
Variable uniform : nat.
Variable uniform_var : bool.
Variable nq : nat.
Variable junk : nat -> nat -> nat.
Notation con_index := (con_index uniform_var).
Notation line_index := (line_index nset ds ng uniform uniform_var junk).
(** parameters, number of points of every curve, their times, what is found in memory *)
Variable pm : arr.
Variable nall : nat -> nat.
Variable tall : arr.
Variable f : found.
Variable r : rec_found.
Variable k : nat.
Notation d := (ds k).
Notation K := (pointers log_erfc type_tf flag con_index line_index ng pm k).
(** ntall, src/mc_line.c:1389-1391 and 1546-1548 *)
Definition old_ntall : nat := line_start (nall 0%nat) (fun j => nall (1 + j)%nat) (s_nl d).
(** PCmat, USmat and ASmat, src/mc_line.c:1410-1414 and 1571-1575 *)
Definition old_PC_scalar : arr :=
  scalar_matrix (s_ncon d) (s_tcon d) (s_fe d) (s_em d) (s_nl d) (s_nline d) (s_tline d) (s_fel d) (s_eml d) K pm (con_index k) (line_index k) (f_PS f) (f_mem f) (f_A f).
Definition old_US : arr :=
  set_covar_Umat_line (s_ncon d) (s_tcon d) (s_nl d) (s_nline d) (s_tline d) pm (con_index k) (k_lc K) (k_ll K) (k_ll2 K) (old_nall ds k) nall tall (r_US r).
Definition old_AS : arr := set_covar_Amat_line (s_nl d) pm (con_index k) (k_lc K) (k_ll K) (k_ll2 K) nall tall (r_AS r).
(** Larr and Larr_rec, src/mc_line.c:1418-1440, 1466-1491 and 1577-1599, 1622-1647 *)
Definition old_Larr : arr := trend_matrix nq (s_nl d) (s_ncon d) (s_tcon d) (s_nline d) (s_tline d) (f_L f).
Definition old_Lrec : arr := rec_trend nq (s_nl d) nall tall (r_L r).
(** src/mc_line.c:1373-1523 *)
Definition reconstruct_line_from_varmodel2 : rec_out :=
  old_rec_end2 dsytrf dsytri (old_nall ds k) (old_nqall ds nq k) old_ntall old_PC_scalar old_Larr (s_fall d) old_US old_AS old_Lrec (old_sigma uniform_var pm k).
(** src/mc_line.c:1530-1686 *)
Definition reconstruct_line_from_varmodel : outcome rec_out :=
  old_rec_end1 dgetrf dgetri dgetrs (old_nall ds k) (old_nqall ds nq k) old_ntall old_PC_scalar old_Larr (s_fall d) old_US old_AS old_Lrec (old_sigma uniform_var pm k).
End Sets.
