(** Shared conventions for the models of the C code.

    - [outcome]: result of running a piece of C code.  [UB] stands for undefined
      behaviour (access out of bounds, division by zero), [Exit] for a call of
      [exit()], [Stuck] for a loop that has used up the random draws supplied.
    - [dbl]: a C double that is only compared, never computed with.  The map
      sending a finite or infinite double to its signed bit pattern (sign times
      the low 63 bits read as an integer) is an order embedding, +0 and -0
      going to the same integer, so [Val z] loses nothing for comparisons.
      Every comparison with NaN is false, as in IEEE 754. *)
From Coq Require Import ZArith List Bool Lia.
Import ListNotations.
Open Scope Z_scope.

Inductive outcome (A : Type) : Type :=
| Ok (a : A)
| Exit
| UB
| Stuck.
Arguments Ok {A} a.
Arguments Exit {A}.
Arguments UB {A}.
Arguments Stuck {A}.

Definition bind {A B} (x : outcome A) (f : A -> outcome B) : outcome B :=
  match x with
  | Ok a => f a
  | Exit => Exit
  | UB => UB
  | Stuck => Stuck
  end.
Notation "x <- e1 ;; e2" := (bind e1 (fun x => e2))
  (at level 61, e1 at next level, right associativity).

(** Array read [l[n]]; out of bounds is undefined behaviour. *)
Definition get {A} (l : list A) (n : nat) : outcome A :=
  match nth_error l n with Some a => Ok a | None => UB end.

(** Array write [l[n] = a]. *)
Fixpoint set_nth {A} (n : nat) (a : A) (l : list A) {struct l} : option (list A) :=
  match l, n with
  | [], _ => None
  | _ :: r, O => Some (a :: r)
  | x :: r, S m => match set_nth m a r with Some r' => Some (x :: r') | None => None end
  end.
Definition put {A} (l : list A) (n : nat) (a : A) : outcome (list A) :=
  match set_nth n a l with Some l' => Ok l' | None => UB end.

Inductive dbl := NaN | Val (z : Z).

(** IEEE comparisons. *)
Definition dlt (a b : dbl) : bool :=
  match a, b with Val x, Val y => x <? y | _, _ => false end.
Definition dle (a b : dbl) : bool :=
  match a, b with Val x, Val y => x <=? y | _, _ => false end.
Definition deqb (a b : dbl) : bool :=
  match a, b with Val x, Val y => x =? y | _, _ => false end.

(** C99 [fmin] and [fmax]: a NaN argument is ignored. *)
Definition dmin (a b : dbl) : dbl :=
  match a, b with
  | NaN, _ => b
  | _, NaN => a
  | Val x, Val y => Val (Z.min x y)
  end.
Definition dmax (a b : dbl) : dbl :=
  match a, b with
  | NaN, _ => b
  | _, NaN => a
  | Val x, Val y => Val (Z.max x y)
  end.

(** Bit patterns of DBL_MAX and of infinity. *)
Definition DBL_MAX : Z := 9218868437227405311.
Definition INF : Z := 9218868437227405312.

(** Unsigned wrap-around. *)
Definition u32 (x : Z) : Z := x mod 2^32.
Definition u64 (x : Z) : Z := x mod 2^64.

(** Lists of results. *)
Fixpoint mapM {A B} (f : A -> outcome B) (l : list A) : outcome (list B) :=
  match l with
  | [] => Ok []
  | a :: r => b <- f a ;; bs <- mapM f r ;; Ok (b :: bs)
  end.

Fixpoint foldM {A B} (f : B -> A -> outcome B) (l : list A) (b : B) : outcome B :=
  match l with
  | [] => Ok b
  | a :: r => b' <- f b a ;; foldM f r b'
  end.
