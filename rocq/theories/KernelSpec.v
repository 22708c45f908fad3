(** What the covariance functions are supposed to be.

    The continuum is a damped random walk with unit variance and damping time
    taud: its values at times s and t have covariance exp(-|s-t|/taud).  A line
    is the continuum convolved with a transfer function psi,
        line(t) = int psi(a) continuum(t - a) da,
    and the transfer function is a sum of components, each with an amplitude
    (its area), a centre and a width. *)
From Coq Require Import Reals.
From Verif Require Import SemisepModel SemisepProofs KernelCalc.
Open Scope R_scope.

Record comp := Comp { area : R; centre : R; width : R }.

(** the shapes *)
Definition tophat (c : comp) (a : R) : R :=
  if Rle_dec (Rabs (a - centre c)) (width c) then area c / (2 * width c) else 0.
(** exponential and gamma responses have mean delay [centre c] *)
Definition exponential (c : comp) (a : R) : R :=
  let t0 := centre c - width c in
  if Rle_dec t0 a then area c / width c * exp (- (a - t0) / width c) else 0.
Definition gamma2 (c : comp) (a : R) : R :=
  let t0 := centre c - 2 * width c in
  if Rle_dec t0 a then area c * (a - t0) / (width c * width c) * exp (- (a - t0) / width c) else 0.
Definition gaussian (c : comp) (a : R) : R :=
  area c / (sqrt (2 * PI) * width c) * exp (- ((a - centre c) * (a - centre c)) / (2 * (width c * width c))).

(** the transfer function made of components c 0, ..., c (n-1) *)
Definition response (shape : comp -> R -> R) (n : nat) (c : nat -> comp) (a : R) : R :=
  sumn n (fun k => shape (c k) a).

(** covariance of the continuum at time tc with the line at time tl *)
Definition cov_cl (psi : R -> R) (taud tc tl v : R) : Prop :=
  whole_line (fun a => psi a * exp (- Rabs (tc - (tl - a)) / taud)) v.
(** covariance of line 1 at time t1 with line 2 at time t2: the double integral
    of psi1(a) psi2(b) exp(-|(t1-a)-(t2-b)|/taud), the integral over b first *)
Definition cov_ll (psi1 psi2 : R -> R) (taud t1 t2 v : R) : Prop :=
  exists inner, (forall a, cov_cl psi2 taud (t1 - a) t2 (inner a))
  /\ whole_line (fun a => psi1 a * inner a) v.

(** how the components of a line are stored from slot [start] on: slot 0 is the
    systematic error, then amplitude, centre, log width of each component *)
Definition stored (amp : R -> R) (pm : arr) (start : nat) (k : nat) : comp :=
  Comp (amp (pm (start + 1 + 3 * k)%nat)) (pm (start + 1 + 3 * k + 1)%nat) (exp (pm (start + 1 + 3 * k + 2)%nat)).
