(** A move of a variability parameter, in IEEE binary64 arithmetic.  The values that
    matter here are infinities and NaN: they are the ones C11 Annex F prescribes.
    (CMakeLists.txt:8 of the program sets -ffast-math, which lets a compiler assume
    that neither occurs, so a compiled program may do anything with them.) *)
From Coq Require Import ZArith Bool.
From Flocq Require Import Core BinarySingleNaN.
From Verif Require Import CPrelude.
Open Scope Z_scope.

Definition b64 := binary_float 53 1024.
Definition prec64 : Prec_gt_0 53 := eq_refl.
Definition emax64 : Prec_lt_emax 53 1024 := eq_refl.
Definition fadd : b64 -> b64 -> b64 := @Bplus 53 1024 prec64 emax64 mode_NE.
Definition fsub : b64 -> b64 -> b64 := @Bminus 53 1024 prec64 emax64 mode_NE.
Definition fmul : b64 -> b64 -> b64 := @Bmult 53 1024 prec64 emax64 mode_NE.
Definition fdiv : b64 -> b64 -> b64 := @Bdiv 53 1024 prec64 emax64 mode_NE.
Definition zero : b64 := B754_zero false.
Definition one : b64 := @B754_finite 53 1024 false 4503599627370496 (-52) eq_refl.
Definition two : b64 := @B754_finite 53 1024 false 4503599627370496 (-51) eq_refl.
Definition minus_half : b64 := @B754_finite 53 1024 true 4503599627370496 (-53) eq_refl.

(** src/allvars.h:33 *)
Inductive mode := gmodel | pmap | vmap | mmap | nmap.
(** whether main runs the fit of the continuum, src/run.c:43 *)
Definition runs_mc_con (flag_postprc flag_decomp : bool) (model : mode) : bool :=
  match model with
  | nmap => true
  | vmap => false
  | _ => negb flag_postprc && negb flag_decomp
  end.
(** var_param or var_param_std when the sampling of the lines begins: zero from
    src/init.c:309-312, overwritten at the end of the fit, src/mc_con.c:466-471 *)
Definition var_start (ran : bool) (fit : nat -> b64) : nat -> b64 := if ran then fit else fun _ => zero.

Section Move.
(** pow and exp of the C library *)
Variable pow : b64 -> b64 -> b64.
Variable exp : b64 -> b64.
(** logH of perturb_vmap_prior0, src/dnest_vmap.c:405 and 433-436, and of
    perturb_vmap_prior1, 477 and 505-508, for a variability parameter that goes from
    x to x'; the same lines in the other modes *)
Definition move_logH (mean sd x x' : b64) : b64 :=
  let logH := zero in
  let logH := fsub logH (fmul minus_half (pow (fdiv (fsub x mean) sd) two)) in
  fadd logH (fmul minus_half (pow (fdiv (fsub x' mean) sd) two)).
(** update_particle, cdnest/dnest.c:748-752 *)
Definition move_taken (u log_H threshold logl : b64) : bool :=
  let log_H := if Bltb zero log_H then zero else log_H in
  Bleb u (exp log_H) && Bltb threshold logl.
End Move.
