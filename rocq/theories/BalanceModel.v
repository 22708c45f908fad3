(** The acceptance tests of the sampler and the proposal of a new level, over the
    real numbers (rounding is not modelled): cdnest/dnest.c. *)
From Coq Require Import Reals ZArith Bool.
From Verif Require Import CPrelude DnestModel.
Open Scope R_scope.

(** if(log_H > 0.0) log_H = 0.0; ... gsl_rng_uniform() <= exp(log_H): cdnest/dnest.c:748-752
    and, for log_A, 801-804 *)
Definition accepts (u log_H : R) : bool :=
  let log_H := if Rlt_dec 0 log_H then 0 else log_H in
  if Rle_dec u (exp log_H) then true else false.
(** the whole condition at 752 and at 804: [threshold] is the likelihood of the
    level, [logl] that of the proposed (at 804: the present) parameters *)
Definition taken (u log_H threshold logl : R) : bool :=
  accepts u log_H && if Rlt_dec threshold logl then true else false.

(** (int) of a double, C11 6.3.1.4: truncation towards zero *)
Definition trunc (x : R) : Z := if Rle_dec 0 x then Int_part x else (- Int_part (- x))%Z.
(** update_level_assignment, cdnest/dnest.c:785-791: [u], [side] are uniform numbers
    and [g] a Gaussian one; the second uniform number is drawn only when it is used *)
Definition level_proposal (size cur : Z) (u g side : R) : outcome Z :=
  let proposal := (cur + trunc (Rpower 10 (2 * u) * g))%Z in
  let proposal := if (proposal =? cur)%Z then if Rlt_dec side (1 / 2) then (proposal - 1)%Z else (proposal + 1)%Z else proposal in
  mod_int proposal size.

Section LogA.
(** levels[].log_X, levels[].tries, the result of enough_levels, options.lam,
    options.beta *)
Variable log_X : Z -> R.
Variable tries : Z -> Z.
Variable size : Z.
Variable enough : bool.
Variables lam beta : R.
(** log_push, cdnest/dnest.c:825-838 *)
Definition log_push (which_level : Z) : outcome R :=
  if (size <? which_level)%Z then Exit
  else if enough then Ok 0 else Ok (IZR (which_level - (size - 1)) / lam).
(** update_level_assignment, cdnest/dnest.c:793-799 *)
Definition level_log_A (cur proposal : Z) : outcome R :=
  let log_A := - log_X proposal + log_X cur in
  a <- log_push proposal ;; b <- log_push cur ;;
  let log_A := log_A + (a - b) in
  Ok (if enough then log_A + beta * ln (IZR (tries cur + 1) / IZR (tries proposal + 1)) else log_A).
End LogA.
