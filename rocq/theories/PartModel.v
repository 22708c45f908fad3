(** Inverse of a symmetric matrix by partitioning, src/mathfun.c:191-249 and
    628-952 and 1000-1075, over the real numbers (no rounding).  One memory
    ([arr], indexed by addresses in units of a double) holds the matrix and the
    work array; matrices are given by the address of their first entry. *)
From Coq Require Import Reals List Arith.
From Verif Require Import SemisepModel SemisepProofs.
Import ListNotations.
Open Scope R_scope.

(** A whole n x m row-major array at address p is replaced by the values f. *)
Definition store (mem : arr) (p n m : nat) (f : nat -> nat -> R) : arr :=
  fun x => if (Nat.leb p x && Nat.ltb x (p + n * m))%bool then f ((x - p) / m)%nat ((x - p) mod m) else mem x.
(** The same for the upper triangle only. *)
Definition store_upper (mem : arr) (p n : nat) (f : nat -> nat -> R) : arr :=
  fun x => if (Nat.leb p x && Nat.ltb x (p + n * n) && Nat.leb ((x - p) / n) ((x - p) mod n))%bool
           then f ((x - p) / n)%nat ((x - p) mod n) else mem x.

(** cblas_dgemm as called by the wrappers below: C = alpha * prod + beta * C.
    BLAS requires C not to overlap the factors. *)
Definition gemm (mem : arr) (c m n : nat) (alpha beta : R) (prod : nat -> nat -> R) : arr :=
  store mem c m n (fun i j => alpha * prod i j + beta * mem (c + i * n + j)%nat).
(** multiply_mat_MN, src/mathfun.c:39-43: C(m*n) = A(m*k) * B(k*n). *)
Definition multiply_mat_MN (mem : arr) (a b c m n k : nat) : arr :=
  gemm mem c m n 1 0 (fun i j => sumn k (fun l => mem (a + i * k + l)%nat * mem (b + l * n + j)%nat)).
(** multiply_mat_MN_alpha_beta, src/mathfun.c:45-49. *)
Definition multiply_mat_MN_alpha_beta (mem : arr) (a b c m n k : nat) (alpha beta : R) : arr :=
  gemm mem c m n alpha beta (fun i j => sumn k (fun l => mem (a + i * k + l)%nat * mem (b + l * n + j)%nat)).
(** multiply_mat_MN_transposeA, src/mathfun.c:51-55. *)
Definition multiply_mat_MN_transposeA (mem : arr) (a b c m n k : nat) : arr :=
  gemm mem c m n 1 0 (fun i j => sumn k (fun l => mem (a + l * m + i)%nat * mem (b + l * n + j)%nat)).
(** multiply_mat_MN_transposeA_alpha_beta, src/mathfun.c:57-62. *)
Definition multiply_mat_MN_transposeA_alpha_beta (mem : arr) (a b c m n k : nat) (alpha beta : R) : arr :=
  gemm mem c m n alpha beta (fun i j => sumn k (fun l => mem (a + l * m + i)%nat * mem (b + l * n + j)%nat)).
(** multiply_mat_MN_transposeB, src/mathfun.c:64-68. *)
Definition multiply_mat_MN_transposeB (mem : arr) (a b c m n k : nat) : arr :=
  gemm mem c m n 1 0 (fun i j => sumn k (fun l => mem (a + i * k + l)%nat * mem (b + j * k + l)%nat)).
(** multiply_mat_MN_transposeB_alpha_beta, src/mathfun.c:70-75. *)
Definition multiply_mat_MN_transposeB_alpha_beta (mem : arr) (a b c m n k : nat) (alpha beta : R) : arr :=
  gemm mem c m n alpha beta (fun i j => sumn k (fun l => mem (a + i * k + l)%nat * mem (b + j * k + l)%nat)).
(** memcpy of n doubles (no overlap). *)
Definition memcpy (mem : arr) (dst src n : nat) : arr :=
  fun x => if (Nat.leb dst x && Nat.ltb x (dst + n))%bool then mem (src + (x - dst))%nat else mem x.

Section Lapack.
  (** LAPACKE_dsytrf('U') and LAPACKE_dsytri('U') on row-major matrices: the
      first is given the upper triangle and returns the factored upper triangle
      and the pivots; the second turns these into the upper triangle of the
      inverse.  The lower triangle is neither read nor written. *)
  Context {IP : Type}.
  Variable dsytrf : nat -> (nat -> nat -> R) -> (nat -> nat -> R) * IP.
  Variable dsytri : nat -> (nat -> nat -> R) -> IP -> nat -> nat -> R.
  Definition upper (mem : arr) (p n : nat) : nat -> nat -> R :=
    fun i j => if Nat.leb i j then mem (p + i * n + j)%nat else 0.

  (** "fill up the lower triangle", src/mathfun.c:223-225. *)
  Definition fill_lower (mem : arr) (p n : nat) : arr :=
    for_ 0 n (fun i mem => for_ 0 i (fun j mem => upd mem (p + i * n + j) (mem (p + j * n + i)%nat)) mem) mem.
  (** inverse_symat, src/mathfun.c:203-228; the program exits if LAPACK fails
      (not modelled: the contract below is for matrices where it succeeds). *)
  Definition inverse_symat (mem : arr) (p n : nat) : arr :=
    let '(F, ip) := dsytrf n (upper mem p n) in
    let mem := store_upper mem p n F in
    let mem := store_upper mem p n (dsytri n (upper mem p n) ip) in
    fill_lower mem p n.
  (** inverse_symat_lndet, src/mathfun.c:229-248. *)
  Definition inverse_symat_lndet (mem : arr) (p n : nat) : arr * R :=
    let '(F, ip) := dsytrf n (upper mem p n) in
    let mem := store_upper mem p n F in
    let lndet := for_ 0 n (fun i l => l + ln (mem (p + i * n + i)%nat)) 0 in
    let mem := store_upper mem p n (dsytri n (upper mem p n) ip) in
    (fill_lower mem p n, lndet).

  (** SN = S - SN on the upper triangle, src/mathfun.c:657-664. *)
  Definition sub_upper (mem : arr) (S SN n2 : nat) : arr :=
    for_ 0 n2 (fun i mem => for_ i (n2 - i) (fun j mem =>
      upd mem (SN + i * n2 + j) (mem (S + i * n2 + j)%nat - mem (SN + i * n2 + j)%nat)) mem) mem.
  (** The common end of the partition routines, src/mathfun.c:668-684. *)
  Definition part_end (mem : arr) (Pinv n1 n2 PN SN QN work : nat) : arr :=
    let mem := multiply_mat_MN mem work SN QN n1 n2 n2 in
    let pwork := (work + n1 * n2)%nat in
    let mem := multiply_mat_MN_transposeB mem QN work pwork n1 n1 n2 in
    let mem := for_ 0 (n1 * n2) (fun i mem => upd mem (QN + i) (- mem (QN + i)%nat)) mem in
    for_ 0 (n1 * n1) (fun i mem => upd mem (PN + i) (mem (Pinv + i)%nat + mem (pwork + i)%nat)) mem.
  (** inverse_symat_partition_inv, src/mathfun.c:703-742. *)
  Definition inverse_symat_partition_inv (mem : arr) (Pinv S Q n1 n2 PN SN QN work : nat) : arr :=
    let mem := multiply_mat_MN mem Pinv Q work n1 n2 n1 in
    let mem := multiply_mat_MN_transposeA mem Q work SN n2 n2 n1 in
    let mem := sub_upper mem S SN n2 in
    let mem := inverse_symat mem SN n2 in
    part_end mem Pinv n1 n2 PN SN QN work.
  (** inverse_symat_partition, src/mathfun.c:640-686. *)
  Definition inverse_symat_partition (mem : arr) (P S Q n1 n2 PN SN QN work : nat) : arr :=
    let mem := memcpy mem PN P (n1 * n1) in
    let mem := inverse_symat mem PN n1 in
    inverse_symat_partition_inv mem PN S Q n1 n2 PN SN QN work.
  (** inverse_symat_lndet_partition_inv, src/mathfun.c:748-789. *)
  Definition inverse_symat_lndet_partition_inv (mem : arr) (Pinv S Q n1 n2 PN SN QN work : nat) : arr * R :=
    let mem := multiply_mat_MN mem Pinv Q work n1 n2 n1 in
    let mem := multiply_mat_MN_transposeA mem Q work SN n2 n2 n1 in
    let mem := sub_upper mem S SN n2 in
    let '(mem, lndet) := inverse_symat_lndet mem SN n2 in
    (part_end mem Pinv n1 n2 PN SN QN work, lndet).
  (** The end of the "fast" routines, src/mathfun.c:806-819: here SN = S and QN = Q. *)
  Definition fast_end (mem : arr) (Pinv Q n1 n2 PN SN QN work : nat) : arr * R :=
    let mem := multiply_mat_MN_transposeA_alpha_beta mem Q work SN n2 n2 n1 (-1) 1 in
    let '(mem, lndet) := inverse_symat_lndet mem SN n2 in
    let mem := multiply_mat_MN_alpha_beta mem work SN QN n1 n2 n2 (-1) 0 in
    let mem := memcpy mem PN Pinv (n1 * n1) in
    (multiply_mat_MN_transposeB_alpha_beta mem QN work PN n1 n1 n2 (-1) 1, lndet).
  (** inverse_symat_lndet_partition_inv_fast, src/mathfun.c:795-821. *)
  Definition inverse_symat_lndet_partition_inv_fast (mem : arr) (Pinv Q n1 n2 PN SN QN work : nat) : arr * R :=
    fast_end (multiply_mat_MN mem Pinv Q work n1 n2 n1) Pinv Q n1 n2 PN SN QN work.
  (** inverse_symat_lndet_partition_inv_semiseparable, src/mathfun.c:925-952:
      P^-1 Q by the fast solver. *)
  Definition inverse_symat_lndet_partition_inv_semiseparable (mem : arr) (W D phi : arr) (a1 : R)
    (Pinv Q n1 n2 PN SN QN work : nat) : arr * R :=
    let Z := multiply_mat_semiseparable_drw (fun x => mem (Q + x)%nat) W D phi n1 n2 a1 (fun x => mem (work + x)%nat) in
    fast_end (store mem work n1 n2 (fun i j => Z (i * n2 + j)%nat)) Pinv Q n1 n2 PN SN QN work.

  (** The loops that collect Q and S from A, src/mathfun.c:875-889. *)
  Definition get_Q (mem : arr) (A nt ni nq QNi : nat) : arr :=
    for_ 0 ni (fun i mem => for_ 0 nq (fun j mem => upd mem (QNi + i * nq + j) (mem (A + i * nt + (ni + j))%nat)) mem) mem.
  Definition get_S (mem : arr) (A nt ni nq SNi : nat) : arr :=
    for_ 0 nq (fun i mem => for_ 0 nq (fun j mem => upd mem (SNi + i * nq + j) (mem (A + (ni + i) * nt + (ni + j))%nat)) mem) mem.
  (** "new Ai", src/mathfun.c:897-919. *)
  Definition new_A (mem : arr) (Ai ANi QNi SNi ni nq : nat) : arr :=
    let mem := for_ 0 ni (fun i mem =>
      let mem := for_ 0 ni (fun j mem => upd mem (Ai + i * (ni + nq) + j) (mem (ANi + i * ni + j)%nat)) mem in
      for_ 0 nq (fun j mem =>
        let v := mem (QNi + i * nq + j)%nat in
        upd (upd mem (Ai + (ni + j) * (ni + nq) + i) v) (Ai + i * (ni + nq) + (ni + j)) v) mem) mem in
    for_ 0 nq (fun i mem => for_ 0 nq (fun j mem =>
      upd mem (Ai + (ni + i) * (ni + nq) + (ni + j)) (mem (SNi + i * nq + j)%nat)) mem) mem.

  (** One pass of the loop over the light curves, src/mathfun.c:866-920;
      [solve] is the partition routine used.  State: Ai, ni, memory, lndet. *)
  Definition part_pass (solve : nat -> arr -> nat -> nat -> nat -> nat -> nat -> nat -> nat -> nat -> arr * R)
    (A nt : nat) (narr : nat -> nat) (np k : nat) (s : nat * nat * arr * R) : nat * nat * arr * R :=
    let '(Ai, ni, mem, lndet) := s in
    let nq := narr k in
    let ANi := (Ai + nt * nt)%nat in
    let QNi := (ANi + ni * ni)%nat in
    let SNi := (QNi + ni * nq)%nat in
    let pwork := (SNi + nq * nq)%nat in
    let mem := get_Q mem A nt ni nq QNi in
    let mem := get_S mem A nt ni nq SNi in
    let '(mem, lndet_SN) := solve k mem Ai QNi ni nq ANi SNi QNi pwork in
    let Ai := if Nat.eqb k np then A else Ai in
    (Ai, (ni + nq)%nat, new_A mem Ai ANi QNi SNi ni nq, lndet + lndet_SN).

  (** inverse_symat_partition_iter, src/mathfun.c:844-923. *)
  Definition inverse_symat_partition_iter (mem : arr) (A nt : nat) (narr : nat -> nat) (np work_inv : nat) : arr * R :=
    let ni := narr 0%nat in
    let Ai := work_inv in
    let mem := for_ 0 ni (fun i mem => for_ i (ni - i) (fun j mem => upd mem (Ai + i * ni + j) (mem (A + i * nt + j)%nat)) mem) mem in
    let '(mem, lndet) := inverse_symat_lndet mem Ai ni in
    let '(_, _, mem, lndet) := for_ 1 np
      (part_pass (fun _ mem Pinv Q n1 n2 PN SN QN work => inverse_symat_lndet_partition_inv_fast mem Pinv Q n1 n2 PN SN QN work) A nt narr np)
      (Ai, ni, mem, lndet) in
    (mem, lndet).

  (** inverse_semiseparable_iter, src/mathfun.c:1000-1075.  W, D, phi are arrays
      of their own. *)
  Definition inverse_semiseparable_iter (dtrtri dlauum : nat -> arr -> arr)
    (t : arr) (a1 c1 : R) (sigma : arr) (syserr : R) (W0 D0 phi0 : arr)
    (mem : arr) (A nt : nat) (narr : nat -> nat) (np work_inv : nat) : arr * R :=
    let ni := narr 0%nat in
    let Ai := work_inv in
    let '(B, lndet, (W, D, phi)) := inverse_semiseparable dtrtri dlauum t ni a1 c1 sigma syserr W0 D0 phi0 (fun x => mem (Ai + x)%nat) in
    let mem := store mem Ai ni ni (fun i j => B (i * ni + j)%nat) in
    let '(_, _, mem, lndet) := for_ 1 np
      (part_pass (fun k mem Pinv Q n1 n2 PN SN QN work =>
         if Nat.eqb k 1 then inverse_symat_lndet_partition_inv_semiseparable mem W D phi a1 Pinv Q n1 n2 PN SN QN work
         else inverse_symat_lndet_partition_inv_fast mem Pinv Q n1 n2 PN SN QN work) A nt narr np)
      (Ai, ni, mem, lndet) in
    (mem, lndet).
End Lapack.
