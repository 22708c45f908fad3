(** Virtual driving curve (vmap): the data are lines only.  src/mc_vmap.c, over the real
    numbers (no rounding).  Parameters as in CovModel.v and LikeModel.v; alldata[k].n is
    [nall], the work arrays are arrays of their own. *)
From Coq Require Import Reals List Arith.
From Verif Require Import SemisepModel SemisepProofs KernelModel PartModel CovModel LikeModel PredModel.
Open Scope R_scope.

Section Cov.
Variable nl : nat.
Variable nline : nat -> nat.
Variable tline fe_line : nat -> arr.
Variable error_mean_line : nat -> R.
Variable pm : arr.
Variable idx_con : nat.
Variable idx_line : nat -> nat.

(** src/mc_vmap.c:555-556: no factor sqrt(tau) here *)
Definition sigma_v := exp (pm (idx_con + 1)%nat).
Definition syserr_v (j : nat) := (exp (pm (idx_line j)) - 1) * error_mean_line j.

Section Array.
Variable Sll_array : arr -> nat -> nat -> arr -> arr.
Variable Sll2_array : arr -> nat -> arr -> nat -> nat -> nat -> arr -> arr.
(** set_covar_Pmat_data_line_array_vmap, src/mc_vmap.c:544-606 *)
Definition set_covar_Pmat_data_line_array_vmap (nall : nat) (M : mats) (Smat_ll : arr) : mats :=
  fst (snd (for_pos 0 nl nline (fun j np x =>
    let '(M, Smat_ll) := x in
    let Smat_ll := Sll_array (tline j) (nline j) j Smat_ll in
    let M := for_ 0 (nline j) (fun i M =>
      let M := for_ 0 i (fun m M =>
         set4 ((np + i) * nall + (np + m)) ((np + m) * nall + (np + i)) (Smat_ll (i * nline j + m)%nat) M) M in
      let error := fe_line j i * fe_line j i + syserr_v j * syserr_v j in
      set_diag ((np + i) * nall + (np + i)) (Smat_ll (i * nline j + i)%nat) (error / sigma_v / sigma_v) M) M in
    snd (for_pos (j + 1) (nl - (j + 1)) nline (fun l npline x =>
      let '(M, Smat_ll) := x in
      let Smat_ll := Sll2_array (tline j) (nline j) (tline l) (nline l) j l Smat_ll in
      (for_ 0 (nline j) (fun i M => for_ 0 (nline l) (fun m M =>
         set4 ((np + i) * nall + npline + m) ((npline + m) * nall + np + i) (Smat_ll (i * nline l + m)%nat) M) M) M, Smat_ll))
      (np + nline j) (M, Smat_ll))) 0 (M, Smat_ll))).
End Array.

Section Scalar.
Variable Slc : R -> R -> nat -> R.
Variable Sll : R -> R -> nat -> R.
Variable Sll2 : R -> R -> nat -> nat -> R.
(** set_covar_Pmat_data_line_vmap, src/mc_vmap.c:1547-1606 *)
Definition set_covar_Pmat_data_line_vmap (nall : nat) (M : mats) : mats :=
  snd (for_pos 0 nl nline (fun j np M =>
    for_ 0 (nline j) (fun i M =>
      let t1 := tline j i in
      let M := for_ 0 i (fun m M => let t2 := tline j m in
         set4 ((np + i) * nall + (np + m)) ((np + m) * nall + (np + i)) (Sll t1 t2 j) M) M in
      let error := fe_line j i * fe_line j i + syserr_v j * syserr_v j in
      let M := set_diag ((np + i) * nall + (np + i)) (Sll t1 t1 j) (error / sigma_v / sigma_v) M in
      snd (for_pos (j + 1) (nl - (j + 1)) nline (fun l npline M =>
         for_ 0 (nline l) (fun m M => let t2 := tline l m in
           set4 ((np + i) * nall + npline + m) ((npline + m) * nall + np + i) (Sll2 t1 t2 j l) M) M)
         (np + nline j) M)) M) 0 M).
(** set_covar_Umat_line_vmap, src/mc_vmap.c:1611-1688 *)
Definition set_covar_Umat_line_vmap (nall_data : nat) (nrec : nat -> nat) (trec : arr) (U : arr) : arr :=
  let U := for_ 0 (nrec 0%nat) (fun i U =>
    let t1 := trec i in
    snd (for_pos 0 nl nline (fun k np U =>
      for_ 0 (nline k) (fun j U => let t2 := tline k j in upd U (i * nall_data + j + np) (Slc t1 t2 k)) U) 0 U)) U in
  snd (for_pos 0 nl (fun k => nrec (1 + k)%nat) (fun k npline U =>
    for_ 0 (nrec (1 + k)%nat) (fun i U =>
      let t1 := trec (npline + i)%nat in
      let '(np, U) := for_pos 0 k nline (fun m np U =>
        for_ 0 (nline m) (fun j U => let t2 := tline m j in upd U ((i + npline) * nall_data + j + np) (Sll2 t1 t2 k m)) U) 0 U in
      let U := for_ 0 (nline k) (fun j U => let t2 := tline k j in upd U ((i + npline) * nall_data + j + np) (Sll t1 t2 k)) U in
      let np := (np + nline k)%nat in
      snd (for_pos (k + 1) (nl - (k + 1)) nline (fun m np U =>
        for_ 0 (nline m) (fun j U => let t2 := tline m j in upd U ((i + npline) * nall_data + j + np) (Sll2 t1 t2 k m)) U) np U)) U)
    (nrec 0%nat) U).
(** set_covar_Amat_line_vmap, src/mc_vmap.c:1695-1766, is set_covar_Amat_line,
    src/mc_line.c:2728-2797, line by line *)
Definition set_covar_Amat_line_vmap (nrec : nat -> nat) (trec : arr) (A : arr) : arr :=
  set_covar_Amat_line nl pm idx_con Slc Sll Sll2 nrec trec A.
End Scalar.
End Cov.

(** The trends: no columns for the driving curve.  src/mc_vmap.c:467-479, 1429-1443 *)
Definition vline_row (nq nqall np j : nat) (tl : arr) (m : nat) (L : arr) : arr :=
  let L := for_ 0 nqall (fun i L => upd L ((np + m) * nqall + i) 0) L in
  let L := upd L ((np + m) * nqall + j * nq + 0) 1 in
  for_ 1 (nq - 1) (fun i L => upd L ((np + m) * nqall + j * nq + i) (tl m ^ i)) L.
Definition vtrend_matrix (nq nl : nat) (lnn : nat -> nat) (tl : nat -> arr) (L0 : arr) : arr :=
  let nqall := (nq * nl)%nat in
  snd (for_ 0 nl (fun j s => let '(np, L) := s in
    ((np + lnn j)%nat, for_ 0 (lnn j) (vline_row nq nqall np j (tl j)) L)) (0%nat, L0)).
(** src/mc_vmap.c:1472-1496: zero rows for the driving curve, then the lines *)
Definition vzero_row (nqall i : nat) (L : arr) : arr :=
  let L := for_ 0 nqall (fun j L => upd L (i * nqall + j) 0) L in
  upd L (i * nqall + 0) 0.
Definition vrec_trend (nq nl : nat) (nall : nat -> nat) (tall L0 : arr) : arr :=
  let nqall := (nq * nl)%nat in
  let L := for_ 0 (nall 0%nat) (vzero_row nqall) L0 in
  snd (for_ 0 nl (fun k s => let '(np, L) := s in
    ((np + nall (1 + k))%nat, for_ 0 (nall (1 + k)%nat) (vline_row nq nqall np k (fun i => tall (np + i)%nat)) L)) (nall 0%nat, L)).

Section Lapack.
  Context {IP : Type}.
  Variable dsytrf : nat -> (nat -> nat -> R) -> (nat -> nat -> R) * IP.
  Variable dsytri : nat -> (nat -> nat -> R) -> IP -> nat -> nat -> R.
  Variable dsytri_fails : nat -> (nat -> nat -> R) -> IP -> bool.

  (** prob_line_variability4_vmap, src/mc_vmap.c:430-536, one data set, after PCmat is
      filled: it lies at A, workspace_inv at wk.  From line 491 on the statements are those
      of src/mc_line.c:2276-2316 (line_prob_end). *)
  Definition prob_vmap_set (nq nl : nat) (lnn : nat -> nat) (tl : nat -> arr) (fall : arr) (p1 : R) (mem : arr) (A wk : nat) (L0 : arr) : option R :=
    let sigma := exp p1 in
    let nall := line_start 0 lnn nl in
    let Larr := vtrend_matrix nq nl lnn tl L0 in
    let nd := (nl - 1)%nat in
    let narr := lnn in
    let '(mem, lndet) := inverse_symat_partition_iter dsytrf dsytri mem A nall narr nd wk in
    line_prob_end dsytrf dsytri dsytri_fails nall (nq * nl) (fun x => mem (A + x)%nat) Larr fall lndet sigma.
End Lapack.

(** multiply_mat_MN_inverseA, src/mathfun.c (dgetrf, dgetrs), and inverse_mat (dgetrf,
    dgetri); the program exits if LAPACK fails, not modelled *)
Section Rec.
Variable dgesol : nat -> nat -> arr -> arr -> arr.
Variable dget : nat -> arr -> arr.
(** reconstruct_line_from_varmodel_vmap, src/mc_vmap.c:1382-1540, after the three
    matrices are set.  The copies into PEmat1 and PEmat2 are values here.  [yqall] is the
    array the trend coefficients are written to. *)
Definition rec_vmap_set (nq nl : nat) (lnn : nat -> nat) (tl : nat -> arr) (fall_data : arr) (p1 : R)
    (nall : nat -> nat) (tall PC US AS : arr) (L0 Lr0 UT0 yqall : arr) : rec_out :=
  let sigma := exp p1 in
  let T := line_start (nall 0%nat) (fun k => nall (1 + k)%nat) nl in
  let nqall := (nq * nl)%nat in
  let n := line_start 0 lnn nl in
  let Larr := vtrend_matrix nq nl lnn tl L0 in
  let PE2 := dgesol n nqall PC Larr in
  let Cq := mul_tA Larr PE2 nqall nqall n in
  let yq := mul_tA PE2 fall_data nqall 1 n in
  let yq := dgesol nqall 1 Cq yq in
  let yqall := for_ 0 nqall (fun i q => upd q (i + nq) (yq i)) yqall in
  let yave := mul_MN Larr yq n 1 nqall in
  let y := fun i => fall_data i - yave i in
  let PE2 := dgesol n 1 PC y in
  let fall := matvec_MN US T n PE2 in
  let Lrec := vrec_trend nq nl nall tall Lr0 in
  let yuq := matvec_MN Lrec T nqall yq in
  let fall := fun i => fall i + yuq i in
  let UT := for_ 0 T (fun i S => for_ 0 n (fun j S => upd S (j * T + i)%nat (US (i * n + j)%nat)) S) UT0 in
  let PE2 := dgesol n T PC UT in
  let PE1 := mul_MN US PE2 T T n in
  let PE3 := mul_tA PE2 Larr T nqall n in
  let PE3 := fun i => PE3 i - Lrec i in
  let Cq := dget nqall Cq in
  let PE2 := mul_MN PE3 Cq T nqall nqall in
  let PE4 := mul_tB PE2 PE3 T T nqall in
  RecOut fall
    (fun i => if (i <? nall 0%nat)%nat then sigma * sqrt (AS (i * T + i)%nat - PE1 (i * T + i)%nat)
              else sigma * sqrt (AS (i * T + i)%nat - PE1 (i * T + i)%nat + PE4 (i * T + i)%nat)) yqall.

(** light_curve_normalize, src/mc_vmap.c:1771-1801.  None: a division by zero, n = 0 or
    std = 0 (C gives infinities and NaN). *)
Definition light_curve_normalize (y ye : arr) (n : nat) (std_input : R) : option (arr * arr) :=
  let mean := for_ 0 n (fun i m => m + y i) 0 in
  if Nat.eqb n 0 then None else
  let mean := mean / INR n in
  let '(y, std) := for_ 0 n (fun i s => let '(y, std) := s in let y := upd y i (y i - mean) in (y, std + y i * y i)) (y, 0) in
  let std := sqrt (std / INR n) / std_input in
  if Req_EM_T std 0 then None else
  Some (for_ 0 n (fun i s => let '(y, ye) := s in (upd y i (y i / std), upd ye i (ye i / std))) (y, ye)).
End Rec.

(** ** One data set from the parameters on *)
Section Set_.
Context {IP : Type}.
Variable dsytrf : nat -> (nat -> nat -> R) -> (nat -> nat -> R) * IP.
Variable dsytri : nat -> (nat -> nat -> R) -> IP -> nat -> nat -> R.
Variable dsytri_fails : nat -> (nat -> nat -> R) -> IP -> bool.
Variable dgesol : nat -> nat -> arr -> arr -> arr.
Variable dget : nat -> arr -> arr.
Variable nl : nat.
Variable nline : nat -> nat.
Variables tline fe_line : nat -> arr.
Variable error_mean_line : nat -> R.
Variable fall : arr.
Variable nq : nat.
Variable K : kernels.
Variable pm : arr.
Variable idx_con : nat.
Variable idx_line : nat -> nat.
(** what the routines find in memory *)
Variables Smat_ll PC PS mem : arr.
Variables A wk : nat.
Variable L0 : arr.

Definition vmap_points : nat := line_start 0 nline nl.
Definition vmap_array_matrix : arr :=
  fst (set_covar_Pmat_data_line_array_vmap nl nline tline fe_line error_mean_line pm idx_con idx_line
    (k_ll_array K) (k_ll2_array K) vmap_points (fun x => mem (A + x)%nat, PS) Smat_ll).
Definition vmap_scalar_matrix : arr :=
  fst (set_covar_Pmat_data_line_vmap nl nline tline fe_line error_mean_line pm idx_con idx_line
    (k_ll K) (k_ll2 K) vmap_points (PC, PS)).
(** the body of the loop of prob_line_variability4_vmap, src/mc_vmap.c:455-534; PCmat is
    placed at A of the memory *)
Definition prob_vmap : option R :=
  prob_vmap_set dsytrf dsytri dsytri_fails nq nl nline tline fall (pm (idx_con + 1)%nat)
    (fun x => if (andb (A <=? x) (x <? A + vmap_points * vmap_points))%nat then vmap_array_matrix (x - A)%nat else mem x) A wk L0.
Variable nall : nat -> nat.
Variables tall US AS Lr0 UT0 yqall : arr.
(** reconstruct_line_from_varmodel_vmap, src/mc_vmap.c:1382-1540 *)
Definition rec_vmap : rec_out :=
  rec_vmap_set dgesol dget nq nl nline tline fall (pm (idx_con + 1)%nat) nall tall vmap_scalar_matrix
    (set_covar_Umat_line_vmap nl nline tline (k_lc K) (k_ll K) (k_ll2 K) vmap_points nall tall US)
    (set_covar_Amat_line_vmap nl pm idx_con (k_lc K) (k_ll K) (k_ll2 K) nall tall AS) L0 Lr0 UT0 yqall.
End Set_.
