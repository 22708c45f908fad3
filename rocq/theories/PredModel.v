(** Reconstruction of the light curves for one sample: reconstruct_line_from_varmodel3,
    src/mc_line.c:1692-1852 (reconstruct_line_from_varmodel_mmap, src/mc_mmap.c:650-820,
    has the same algebra), and recostruct_con_from_varmodel_semiseparable,
    src/mc_con.c:280-368, over the real numbers (no rounding).  Each work array is an
    array of its own (their places in the shared work array are the subject of C37). *)
From Coq Require Import Reals List Arith.
From Verif Require Import SemisepModel SemisepProofs PartModel LikeModel.
Open Scope R_scope.

(** src/mathfun.c:45-49, 57-63, 65-76, 89-98, 107-111: the products with factors alpha
    and beta (the old contents [c] are multiplied by beta; BLAS does not read them for
    beta = 0, here 0 * c). *)
Definition mul_MN_ab (a b c : arr) (m n k : nat) (alpha beta : R) : arr :=
  tab n (fun i j => alpha * sumn k (fun l => a (i * k + l)%nat * b (l * n + j)%nat) + beta * c (i * n + j)%nat).
Definition mul_tA_ab (a b c : arr) (m n k : nat) (alpha beta : R) : arr :=
  tab n (fun i j => alpha * sumn k (fun l => a (l * m + i)%nat * b (l * n + j)%nat) + beta * c (i * n + j)%nat).
Definition mul_tB_ab (a b c : arr) (m n k : nat) (alpha beta : R) : arr :=
  tab n (fun i j => alpha * sumn k (fun l => a (i * k + l)%nat * b (j * k + l)%nat) + beta * c (i * n + j)%nat).
Definition mul_tB (a b : arr) (m n k : nat) : arr := tab n (fun i j => sumn k (fun l => a (i * k + l)%nat * b (j * k + l)%nat)).
Definition matvec_MN (a : arr) (m n : nat) (x : arr) : arr := fun i => sumn n (fun l => a (i * n + l)%nat * x l).
Definition matvec_tA_ab (a : arr) (m n : nat) (x y : arr) (alpha beta : R) : arr :=
  fun j => alpha * sumn m (fun l => a (l * n + j)%nat * x l) + beta * y j.

(** The trends at the times of the reconstruction, src/mc_line.c:1797-1825; curve c has
    [nall c] times, all stored one curve after the other in [tall]. *)
Definition rec_trend (nq nl : nat) (nall : nat -> nat) (tall L0 : arr) : arr :=
  let nqall := (nq * (1 + nl))%nat in
  let L := for_ 0 (nall 0%nat) (con_row nq nqall tall) L0 in
  snd (for_ 0 nl (fun k s => let '(np, L) := s in
    ((np + nall (1 + k))%nat, for_ 0 (nall (1 + k)%nat) (line_row nq nqall np k (fun i => tall (np + i)%nat)) L)) (nall 0%nat, L)).

Record rec_out := RecOut { rec_f : arr; rec_fe : arr; rec_yq : arr }.

Section Lapack.
  Context {IP : Type}.
  Variable dsytrf : nat -> (nat -> nat -> R) -> (nat -> nat -> R) * IP.
  Variable dsytri : nat -> (nat -> nat -> R) -> IP -> nat -> nat -> R.

  (** src/mc_line.c:1772-1846: after C^-1 and both trend matrices are known.  T points
      are reconstructed. *)
  Definition line_rec_end (n nqall T : nat) (Cinv Larr fall_data US AS Lrec fall0 PE0 : arr) (sigma : R) : rec_out :=
    let ybuf := mul_MN Cinv Larr n nqall n in
    let Cq := mul_tA Larr ybuf nqall nqall n in
    let yuq := matvec_tA ybuf n nqall fall_data in
    let Cq := inverse_symat dsytrf dsytri Cq 0 nqall in
    let yq := mul_MN Cq yuq nqall 1 nqall in
    let y := matvec_ab Larr n nqall yq fall_data (-1) 1 in
    let PE1 := mul_MN US Cinv T n n in
    let fall := matvec_MN PE1 T n y in
    let fall := matvec_ab Lrec T nqall yq fall 1 1 in
    let PE2 := mul_tB PE1 US T T n in
    let Lrec := mul_MN_ab PE1 Larr Lrec T nqall n 1 (-1) in
    let PE1 := mul_MN Lrec Cq T nqall nqall in
    let PE2 := mul_tB_ab PE1 Lrec PE2 T T nqall 1 (-1) in
    RecOut fall (fun i => sigma * sqrt (AS (i * T + i)%nat + PE2 (i * T + i)%nat)) yq.

  (** One data set.  The memory holds PCmat at A (src/mc_line.c:1746) and the work array
      workspace_inv at wk; US and AS are USmat and ASmat. *)
  Definition rec_line_set (dtrtri dlauum : nat -> arr -> arr)
    (nq nl ncon : nat) (tc fe : arr) (error_mean : R) (lnn : nat -> nat) (tl : nat -> arr) (fall_data : arr) (p0 p1 p2 : R)
    (nall : nat -> nat) (tall US AS : arr) (mem : arr) (A wk : nat) (L0 W0 D0 phi0 Lr0 fall0 PE0 : arr) : rec_out :=
    let tau := exp p2 in
    let sigma := exp p1 * sqrt tau in
    let syserr := (exp p0 - 1) * error_mean / sigma in
    let n := line_start ncon lnn nl in
    let T := line_start (nall 0%nat) (fun k => nall (1 + k)%nat) nl in
    let Larr := trend_matrix nq nl ncon tc lnn tl L0 in
    let narr := fun k => match k with O => ncon | S q => lnn q end in
    let '(mem, _) := inverse_semiseparable_iter dsytrf dsytri dtrtri dlauum tc 1 (1 / tau) (fun i => fe i / sigma) syserr
       W0 D0 phi0 mem A n narr nl wk in
    line_rec_end n (nq * (1 + nl)) T (fun x => mem (A + x)%nat) Larr fall_data US AS (rec_trend nq nl nall tall Lr0) fall0 PE0 sigma.
End Lapack.

(** set_covar_Umat, src/mc_con.c:719-733, with alpha = 1 (src/mc_con.c:116). *)
Definition con_Umat (tau : R) (n : nat) (t : arr) (T : nat) (tall : arr) : arr :=
  tab n (fun i j => exp (- (Rabs (tall i - t j) / tau))).

(** recostruct_con_from_varmodel_semiseparable, src/mc_con.c:280-368.  [dget] is dgetrf
    followed by dgetri (inverse_mat, src/mathfun.c:132-150; the program exits if LAPACK
    fails, not modelled). *)
Definition rec_con_set (dget : nat -> arr -> arr) (nq n : nat) (t f fe : arr) (sigma tau syserr : R) (T : nat) (tall : arr)
  (L0 W0 D0 phi0 Z0 Lr0 PE10 PE20 f0 : arr) : rec_out :=
  let US := con_Umat tau n t T tall in
  let Larr := con_trend nq n t L0 in
  let sigma2 := sigma * sigma in
  let '(W, D, phi) := compute_semiseparable_drw t n sigma2 (1 / tau) fe syserr W0 D0 phi0 in
  let ybuf := multiply_mat_semiseparable_drw Larr W D phi n nq sigma2 Z0 in
  let Cq := mul_tA Larr ybuf nq nq n in
  let yuq := matvec_tA ybuf n nq f in
  let Cq := dget nq Cq in
  let yq := mul_MN Cq yuq nq 1 nq in
  let y := matvec_ab Larr n nq yq f (-1) 1 in
  let PE1 := multiply_mat_transposeB_semiseparable_drw US W D phi n T sigma2 PE10 in
  let fcon := matvec_tA_ab PE1 n T y f0 sigma2 0 in
  let Lrec := con_trend nq T tall Lr0 in
  let fcon := matvec_ab Lrec T nq yq fcon 1 1 in
  let PE2 := mul_MN_ab US PE1 PE20 T T n sigma2 0 in
  let Lrec := mul_tA_ab PE1 Larr Lrec T nq n sigma2 (-1) in
  let PE1 := mul_MN_ab Lrec Cq PE1 T nq nq (1 / sigma2) 0 in
  let PE2 := mul_tB_ab PE1 Lrec PE2 T T nq 1 (-1) in
  RecOut fcon (fun i => sigma * sqrt (1 + PE2 (i * T + i)%nat)) yq.
