(** The fast solver for the covariance of a damped random walk,
    src/mathfun.c:503-638 and 954-998, over the real numbers (no rounding).
    Arrays are total functions from indices to numbers: accesses out of bounds
    are not modelled here. *)
From Coq Require Import Reals List Arith.
Import ListNotations.
Open Scope R_scope.

Definition arr := nat -> R.
Definition upd (a : arr) (i : nat) (v : R) : arr := fun k => if Nat.eqb k i then v else a k.

(** for(i=lo; i<lo+n; i++) *)
Definition for_ {St} (lo n : nat) (body : nat -> St -> St) (s : St) : St :=
  fold_left (fun s i => body i s) (seq lo n) s.
(** for(i=n-1; i>=0; i--) *)
Fixpoint for_down {St} (n : nat) (body : nat -> St -> St) (s : St) : St :=
  match n with O => s | S k => for_down k body (body k s) end.

(** compute_semiseparable_drw, src/mathfun.c:506-528.  State: S, W, D. *)
Definition drw_phi (t : arr) (n : nat) (c1 : R) (phi0 : arr) : arr :=
  for_ 1 (n - 1) (fun i phi => upd phi i (exp (- c1 * (t i - t (i - 1)%nat)))) (upd phi0 0 0).
Definition drw_step (a1 : R) (sigma : arr) (syserr : R) (phi : arr) (i : nat) (s : R * arr * arr) : R * arr * arr :=
  let '(Sv, W, D) := s in
  let Sv := phi i * phi i * (Sv + D (i - 1)%nat * W (i - 1)%nat * W (i - 1)%nat) in
  let A := sigma i * sigma i + syserr * syserr + a1 in
  let D := upd D i (A - a1 * a1 * Sv) in
  let W := upd W i (1 / D i * (1 - a1 * Sv)) in
  (Sv, W, D).
Definition compute_semiseparable_drw (t : arr) (n : nat) (a1 c1 : R) (sigma : arr) (syserr : R)
  (W0 D0 phi0 : arr) : arr * arr * arr :=
  let phi := drw_phi t n c1 phi0 in
  let D := upd D0 0 (sigma 0%nat * sigma 0%nat + syserr * syserr + a1) in
  let W := upd W0 0 (1 / D 0%nat) in
  let '(Sv, W, D) := for_ 1 (n - 1) (drw_step a1 sigma syserr phi) (0, W, D) in
  (W, D, phi).

(** multiply_matvec_semiseparable_drw, src/mathfun.c:533-555. *)
Definition fwd_step (y W phi : arr) (a1 : R) (i : nat) (s : R * arr) : R * arr :=
  let '(f, z) := s in
  let f := phi i * (f + W (i - 1)%nat * z (i - 1)%nat) in
  (f, upd z i (y i - a1 * f)).
Definition bwd_step (W D phi : arr) (a1 : R) (i : nat) (s : R * arr) : R * arr :=
  let '(g, z) := s in
  let g := phi (i + 1)%nat * (g + a1 * z (i + 1)%nat) in
  (g, upd z i (z i / D i - W i * g)).
Definition multiply_matvec_semiseparable_drw (y W D phi : arr) (n : nat) (a1 : R) (z0 : arr) : arr :=
  let z := upd z0 0 (y 0%nat) in
  let '(f, z) := for_ 1 (n - 1) (fwd_step y W phi a1) (0, z) in
  let z := upd z (n - 1) (z (n - 1)%nat / D (n - 1)%nat) in
  let '(g, z) := for_down (n - 1) (bwd_step W D phi a1) (0, z) in
  z.

(** multiply_mat_semiseparable_drw, src/mathfun.c:562-590, and (with
    [src i j = Y(i + j*n)]) multiply_mat_transposeB_semiseparable_drw, lines
    598-626: [src i j] is the index in Y that is read for row i, column j. *)
Definition mfwd (src : nat -> nat -> nat) (Y W phi : arr) (n m : nat) (a1 : R) (j : nat) (Z : arr) : arr :=
  let Z := upd Z (0 * m + j) (Y (src 0%nat j)) in
  snd (for_ 1 (n - 1) (fun i s =>
    let '(f, Z) := s in
    let f := phi i * (f + W (i - 1)%nat * Z ((i - 1) * m + j)%nat) in
    (f, upd Z (i * m + j) (Y (src i j) - a1 * f))) (0, Z)).
Definition mbwd (W D phi : arr) (n m : nat) (a1 : R) (j : nat) (Z : arr) : arr :=
  let Z := upd Z ((n - 1) * m + j) (Z ((n - 1) * m + j)%nat / D (n - 1)%nat) in
  snd (for_down (n - 1) (fun i s =>
    let '(g, Z) := s in
    let g := phi (i + 1)%nat * (g + a1 * Z ((i + 1) * m + j)%nat) in
    (g, upd Z (i * m + j) (Z (i * m + j)%nat / D i - W i * g))) (0, Z)).
Definition multiply_mat_semi (src : nat -> nat -> nat) (Y W D phi : arr) (n m : nat) (a1 : R) (Z0 : arr) : arr :=
  for_ 0 m (mbwd W D phi n m a1) (for_ 0 m (mfwd src Y W phi n m a1) Z0).
Definition multiply_mat_semiseparable_drw (Y W D phi : arr) (n m : nat) (a1 : R) (Z0 : arr) : arr :=
  multiply_mat_semi (fun i j => (i * m + j)%nat) Y W D phi n m a1 Z0.
Definition multiply_mat_transposeB_semiseparable_drw (Y W D phi : arr) (n m : nat) (a1 : R) (Z0 : arr) : arr :=
  multiply_mat_semi (fun i j => (i + j * n)%nat) Y W D phi n m a1 Z0.

(** inverse_semiseparable, src/mathfun.c:961-992.  The two LAPACK routines
    (triangular inverse; product L^T L) are parameters. *)
Definition fill_M (t W D : arr) (a1 c1 : R) (n i : nat) (A : arr) : arr :=
  for_ 0 i (fun j A => upd A (i * n + j) (a1 * (exp (- c1 * (t i - t j)) * W j) * sqrt (D j)))
    (upd A (i * n + i) (1 * sqrt (D i))).
Definition inverse_semiseparable (dtrtri dlauum : nat -> arr -> arr)
  (t : arr) (n : nat) (a1 c1 : R) (sigma : arr) (syserr : R) (W0 D0 phi0 A0 : arr)
  : arr * R * (arr * arr * arr) :=
  let '(W, D, phi) := compute_semiseparable_drw t n a1 c1 sigma syserr W0 D0 phi0 in
  let '(A, lndet) := for_ 0 n (fun i s => let '(A, lndet) := s in
       (fill_M t W D a1 c1 n i A, lndet + ln (D i))) (A0, 0) in
  let A := dlauum n (dtrtri n A) in
  let A := for_ 0 n (fun i A => for_ (i + 1) (n - (i + 1)) (fun j A => upd A (i * n + j) (A (j * n + i)%nat)) A) A in
  (A, lndet, (W, D, phi)).
