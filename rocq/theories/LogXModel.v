(** Prior mass of levels and periodic wrapping, over the real numbers
    (floating-point rounding is not modelled). *)
From Coq Require Import Reals ZArith List.
From Verif Require Import CPrelude DnestModel.
Import ListNotations.
Open Scope R_scope.

(** recalculate_log_X, cdnest/dnest.c:470-481: the loop carries the log_X of
    the previous level.  [c] is compression, [reg] regularisation. *)
Definition shrink (c : R) (reg : Z) (l : level) : R :=
  ln ((IZR (exceeds l) + 1 / c * IZR reg) / (IZR (visits l) + IZR reg)).
Fixpoint log_X_loop (c : R) (reg : Z) (acc : R) (prev : level) (ls : list level) : list R :=
  match ls with
  | [] => []
  | l :: r => let x := acc + shrink c reg prev in x :: log_X_loop c reg x l r
  end.
Definition recalculate_log_X (c : R) (reg : Z) (ls : list level) : list R :=
  match ls with
  | [] => []
  | l :: r => 0 :: log_X_loop c reg 0 l r
  end.

(** floor, from the integer part of the standard library. *)
Definition floor (x : R) : R := IZR (Int_part x).

(** mod, cdnest/dnest.c:1509-1525: a negative modulus exits. *)
Definition rmod (y x : R) : outcome R :=
  if Rlt_dec 0 x then Ok ((y / x - floor (y / x)) * x)
  else if Req_EM_T x 0 then Ok 0
  else Exit.

(** dnest_wrap, cdnest/dnest.c:1527-1530. *)
Definition dnest_wrap (x min max : R) : outcome R :=
  y <- rmod (x - min) (max - min) ;; Ok (y + min).

(** wrap_limit, cdnest/dnest.c:1532-1536. *)
Definition wrap_limit (x min max : R) : R := Rmax (Rmin x max) min.
