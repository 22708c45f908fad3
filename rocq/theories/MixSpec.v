(** What the covariances of the mixed model are supposed to be: as in
    KernelSpec.v, but every component has its own shape. *)
From Coq Require Import Reals.
From Coquelicot Require Import Coquelicot.
From Verif Require Import SemisepModel SemisepProofs KernelCalc KernelSpec.
Open Scope R_scope.

(** the digits of the shape string *)
Definition shape_of (t : nat) : comp -> R -> R :=
  match t with
  | 0%nat => gaussian
  | 1%nat => tophat
  | 2%nat => gamma2
  | 3%nat => exponential
  | _ => fun _ _ => 0
  end.
(** the transfer function made of components c 0, ..., c (n-1), the k-th of shape ty k *)
Definition mixed_response (n : nat) (ty : nat -> nat) (c : nat -> comp) (a : R) : R :=
  sumn n (fun k => shape_of (ty k) (c k) a).

(** what the C library documents for erfc: 2/sqrt(pi) times the integral of
    exp(-t^2) from x to infinity *)
Definition erfc_correct (erfc : R -> R) : Prop :=
  forall x, is_RInt_gen (fun t => 2 / sqrt PI * exp (- (t * t))) (at_point x) (Rbar_locally p_infty) (erfc x).
