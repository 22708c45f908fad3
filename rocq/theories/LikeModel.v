(** The log-likelihoods, src/mc_line.c:2192-2320 and src/mc_con.c:569-640, over
    the real numbers (no rounding).  Each work array is an array of its own
    (their places in the shared work array are the subject of C37). *)
From Coq Require Import Reals List Arith ZArith.
From Verif Require Import SemisepModel SemisepProofs PartModel.
Import ListNotations.
Open Scope R_scope.

(** Row-major array with row length m. *)
Definition tab (m : nat) (f : nat -> nat -> R) : arr := fun x => f (x / m)%nat (x mod m).
(** multiply_mat_MN and multiply_mat_MN_transposeA, src/mathfun.c:39-55. *)
Definition mul_MN (a b : arr) (m n k : nat) : arr := tab n (fun i j => sumn k (fun l => a (i * k + l)%nat * b (l * n + j)%nat)).
Definition mul_tA (a b : arr) (m n k : nat) : arr := tab n (fun i j => sumn k (fun l => a (l * m + i)%nat * b (l * n + j)%nat)).
(** multiply_matvec, multiply_matvec_MN_transposeA, multiply_matvec_MN_alpha_beta,
    src/mathfun.c:77-107, and cblas_ddot. *)
Definition matvec (a : arr) (n : nat) (x : arr) : arr := fun i => sumn n (fun l => a (i * n + l)%nat * x l).
Definition matvec_tA (a : arr) (m n : nat) (x : arr) : arr := fun j => sumn m (fun l => a (l * n + j)%nat * x l).
Definition matvec_ab (a : arr) (m n : nat) (x y : arr) (alpha beta : R) : arr :=
  fun i => alpha * sumn n (fun l => a (i * n + l)%nat * x l) + beta * y i.
Definition ddot (n : nat) (x y : arr) : R := sumn n (fun i => x i * y i).

Section Lapack.
  Context {IP : Type}.
  Variable dsytrf : nat -> (nat -> nat -> R) -> (nat -> nat -> R) * IP.
  Variable dsytri : nat -> (nat -> nat -> R) -> IP -> nat -> nat -> R.
  (** the return code of dsytri is not zero *)
  Variable dsytri_fails : nat -> (nat -> nat -> R) -> IP -> bool.

  (** inverse_symat_lndet_sign, src/mathfun.c:251-283: inverse, log |det|,
      failure, sign. *)
  Definition inverse_symat_lndet_sign (mem : arr) (p n : nat) : arr * R * bool * Z :=
    let '(F, ip) := dsytrf n (upper mem p n) in
    let mem := store_upper mem p n F in
    let '(lndet, sign) := for_ 0 n (fun i s => let '(l, sg) := s in
       (l + ln (Rabs (mem (p + i * n + i)%nat)), (sg * (if Rle_dec 0 (mem (p + i * n + i)%nat) then 1 else -1))%Z)) (0, 1%Z) in
    let info := dsytri_fails n (upper mem p n) ip in
    let mem := store_upper mem p n (dsytri n (upper mem p n) ip) in
    (fill_lower mem p n, lndet, info, sign).

  (** The trend matrix, src/mc_line.c:2240-2264: nl lines, line j has [ln j]
      points at times [tl j]. *)
  Definition line_start (ncon : nat) (lnn : nat -> nat) (j : nat) : nat := (ncon + fold_left Nat.add (map lnn (seq 0 j)) 0)%nat.
  Definition con_row (nq nqall : nat) (tc : arr) (i : nat) (L : arr) : arr :=
    let L := upd L (i * nqall) 1 in
    let L := for_ 1 (nq - 1) (fun j L => upd L (i * nqall + j) (tc i ^ j)) L in
    for_ nq (nqall - nq) (fun j L => upd L (i * nqall + j) 0) L.
  Definition line_row (nq nqall np j : nat) (tl : arr) (m : nat) (L : arr) : arr :=
    let L := for_ 0 nqall (fun i L => upd L ((np + m) * nqall + i) 0) L in
    let L := upd L ((np + m) * nqall + nq + j * nq + 0) 1 in
    for_ 1 (nq - 1) (fun i L => upd L ((np + m) * nqall + nq + j * nq + i) (tl m ^ i)) L.
  Definition trend_matrix (nq nl ncon : nat) (tc : arr) (lnn : nat -> nat) (tl : nat -> arr) (L0 : arr) : arr :=
    let nqall := (nq * (1 + nl))%nat in
    let L := for_ 0 ncon (con_row nq nqall tc) L0 in
    snd (for_ 0 nl (fun j s => let '(np, L) := s in
      ((np + lnn j)%nat, for_ 0 (lnn j) (line_row nq nqall np j (tl j)) L)) (ncon, L)).

  (** The part after C^-1 and the trend matrix are known,
      src/mc_line.c:2276-2316; [None] is the early return of -DBL_MAX. *)
  Definition line_prob_end (nall nqall : nat) (Cinv Larr fall : arr) (lndet sigma : R) : option R :=
    let lndet := lndet + 2 * INR nall * ln sigma in
    let ybuf := mul_MN Cinv Larr nall nqall nall in
    let Cq := mul_tA Larr ybuf nqall nqall nall in
    let yq := matvec_tA ybuf nall nqall fall in
    let '(Cq, lndet_ICq, info, sign) := inverse_symat_lndet_sign Cq 0 nqall in
    if (info || Z.eqb sign (-1))%bool then None else
    let lndet_ICq := lndet_ICq - 2 * INR nqall * ln sigma in
    let ybuf := mul_MN Cq yq nqall 1 nqall in
    let y := matvec_ab Larr nall nqall ybuf fall (-1) 1 in
    let ybuf := matvec Cinv nall y in
    let prob1 := - (1 / 2) * ddot nall y ybuf / (sigma * sigma) in
    if Rlt_dec 0 prob1 then None else Some (prob1 - 1 / 2 * lndet - 1 / 2 * lndet_ICq).

  (** One data set, src/mc_line.c:2223-2316.  The matrix PCmat is at address A
      of the memory, workspace_inv at wk; p0 p1 p2 are the three continuum
      parameters. *)
  Definition prob_line_set (dtrtri dlauum : nat -> arr -> arr)
    (nq nl ncon : nat) (tc fe : arr) (error_mean : R) (lnn : nat -> nat) (tl : nat -> arr) (fall : arr) (p0 p1 p2 : R)
    (mem : arr) (A wk : nat) (L0 W0 D0 phi0 : arr) : option R :=
    let tau := exp p2 in
    let sigma := exp p1 * sqrt tau in
    let syserr := (exp p0 - 1) * error_mean / sigma in
    let nall := line_start ncon lnn nl in
    let Larr := trend_matrix nq nl ncon tc lnn tl L0 in
    let narr := fun k => match k with O => ncon | S q => lnn q end in
    let '(mem, lndet) := inverse_semiseparable_iter dsytrf dsytri dtrtri dlauum tc 1 (1 / tau) (fun i => fe i / sigma) syserr
       W0 D0 phi0 mem A nall narr nl wk in
    line_prob_end nall (nq * (1 + nl)) (fun x => mem (A + x)%nat) Larr fall lndet sigma.

  (** prob_con_variability_semiseparable, one data set, src/mc_con.c:596-636. *)
  Definition con_trend (nq ncon : nat) (tc : arr) (L0 : arr) : arr :=
    for_ 0 ncon (fun i L => for_ 1 (nq - 1) (fun j L => upd L (i * nq + j) (tc i ^ j)) (upd L (i * nq + 0) 1)) L0.
  Definition prob_con_set (nq ncon : nat) (tc f fe : arr) (error_mean p0 p1 p2 : R) (L0 W0 D0 phi0 Z0 : arr) : R :=
    let syserr := (exp p0 - 1) * error_mean in
    let tau := exp p2 in
    let sigma := exp p1 * sqrt tau in
    let Larr := con_trend nq ncon tc L0 in
    let sigma2 := sigma * sigma in
    let '(W, D, phi) := compute_semiseparable_drw tc ncon sigma2 (1 / tau) fe syserr W0 D0 phi0 in
    let lndet := for_ 0 ncon (fun i l => l + ln (D i)) 0 in
    let ybuf := multiply_mat_semiseparable_drw Larr W D phi ncon nq sigma2 Z0 in
    let Cq := mul_tA Larr ybuf nq nq ncon in
    let yq := matvec_tA ybuf ncon nq f in
    let '(Cq, lndet_ICq) := inverse_symat_lndet dsytrf dsytri Cq 0 nq in
    let q := mul_MN Cq yq nq 1 nq in
    let y := matvec_ab Larr ncon nq q f (-1) 1 in
    let z := multiply_matvec_semiseparable_drw y W D phi ncon sigma2 ybuf in
    - (1 / 2) * ddot ncon y z + (- (1 / 2) * lndet - 1 / 2 * lndet_ICq).

  (** The sum over the data sets, src/mc_line.c:2222,2295,2316,2318. *)
  Fixpoint prob_sets (l : list (option R)) (prob : R) : option R :=
    match l with
    | [] => Some prob
    | None :: _ => None
    | Some p :: r => prob_sets r (prob + p)
    end.
End Lapack.
