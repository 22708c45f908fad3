(** What LAPACK's dgetrf delivers: triangular factors of the matrix with its rows
    exchanged (LAPACK Users' Guide, dgetrf). *)
From Coq Require Import Reals Arith.
From Verif Require Import SemisepModel SemisepProofs.
Open Scope R_scope.

(** rows i and p of A exchanged *)
Definition swap_rows (A : nat -> nat -> R) (i p : nat) : nat -> nat -> R :=
  fun r c => A (if Nat.eqb r i then p else if Nat.eqb r p then i else r) c.
(** for i = 0, 1, ..., n-1: rows i and ip i - 1 exchanged (ip counts from 1) *)
Fixpoint exchanged (n : nat) (ip : nat -> nat) (A : nat -> nat -> R) : nat -> nat -> R :=
  match n with
  | O => A
  | S k => swap_rows (exchanged k ip A) k (ip k - 1)
  end.
(** f holds L below its diagonal and U on and above it; L has ones on its diagonal *)
Definition lower_factor (n : nat) (f : nat -> R) (i k : nat) : R :=
  if (k <? i)%nat then f (i * n + k)%nat else if Nat.eqb k i then 1 else 0.
Definition upper_factor (n : nat) (f : nat -> R) (k j : nat) : R := if (k <=? j)%nat then f (k * n + j)%nat else 0.
(** partial pivoting: no multiplier is larger than 1 *)
Definition lu_factors (n : nat) (A : nat -> nat -> R) (f : nat -> R) (ip : nat -> nat) : Prop :=
  (forall i, (i < n)%nat -> (i + 1 <= ip i <= n)%nat) /\
  (forall i j, (i < n)%nat -> (j < n)%nat -> exchanged n ip A i j = sumn n (fun k => lower_factor n f i k * upper_factor n f k j)) /\
  (forall i j, (j < i < n)%nat -> Rabs (f (i * n + j)%nat) <= 1).
