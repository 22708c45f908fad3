(** The width of a proposed step: which pair of numbers the functions perturb_*
    take it from, and what becomes of the parameter, in IEEE binary64 arithmetic. *)
From Coq Require Import ZArith List Bool.
From Flocq Require Import Core BinarySingleNaN.
From Verif Require Import CPrelude SortModel DnestModel DampModel.
Import ListNotations.
Open Scope Z_scope.

(** The mode and, where it matters, type_lag_prior_pr (0 or not), that is, the
    function set as [perturb]: src/dnest_con.c:40, src/dnest_line.c:34-36,
    src/dnest_mmap.c:35-37, src/dnest_pmap.c:33, src/dnest_vmap.c:34-36. *)
Inductive perturb_fn :=
  perturb_con | perturb_line_prior0 | perturb_line_prior1 | perturb_mmap_prior0 | perturb_mmap_prior1
| perturb_pmap | perturb_vmap_prior0 | perturb_vmap_prior1.

(** which_level: src/dnest_con.c:177, src/dnest_line.c:587 and 665,
    src/dnest_mmap.c:324 and 402, src/dnest_pmap.c:380, src/dnest_vmap.c:419 and
    491.  All ints; [u] is dnest_get_which_level_update(), [size] is
    dnest_get_size_levels(). *)
Definition which_level (f : perturb_fn) (u size : Z) : Z :=
  match f with
  | perturb_con | perturb_line_prior0 | perturb_mmap_prior0 =>
    if size - 10 <? u then size - 10 else u
  | perturb_line_prior1 | perturb_mmap_prior1 | perturb_pmap | perturb_vmap_prior0 | perturb_vmap_prior1 =>
    if size - 15 <? u - 5 then size - 15 else u - 5
  end.

(** limit1 and limit2, or the two ends of par_range_model[which]: the ten lines that
    follow (src/dnest_con.c:178-187, src/dnest_line.c:588-597 and 666-675,
    src/dnest_mmap.c:325-334 and 403-412, src/dnest_pmap.c:381-390,
    src/dnest_vmap.c:420-429 and 492-501). *)
Definition step_ends (f : perturb_fn) (u size : Z) (lims : list (list (dbl * dbl))) (range : list (dbl * dbl)) (which : nat)
  : outcome (dbl * dbl) :=
  let wl := which_level f u size in
  if 0 <? wl then
    row <- (if wl - 1 <? 0 then UB else get lims (Z.to_nat (wl - 1))) ;; get row which
  else get range which.

(** The double with code z, see [dbl] in CPrelude: the low 52 bits of |z| are the
    fraction, the next 11 the exponent. *)
Definition decode (d : dbl) : b64 :=
  match d with
  | NaN => B754_nan
  | Val z =>
    let e := Z.abs z / 2 ^ 52 in
    let m := Z.abs z mod 2 ^ 52 in
    if 2047 <=? e then (if m =? 0 then B754_infinity (z <? 0) else B754_nan)
    else
      let r := if e =? 0 then binary_normalize 53 1024 prec64 emax64 mode_NE m (-1074) false
               else binary_normalize 53 1024 prec64 emax64 mode_NE (2 ^ 52 + m) (e - 1075) false in
      if z <? 0 then Bopp r else r
  end.

(** width = limit2 - limit1 *)
Definition width64 (ends : b64 * b64) : b64 := fsub (snd ends) (fst ends).

(** floor of the C library; C11 F.10.6.2: floor(+-0) and floor(+-infinity) are the
    argument. *)
Definition floor64 (x : b64) : b64 :=
  match x with
  | B754_finite s m e _ =>
    if 0 <=? e then x
    else binary_normalize 53 1024 prec64 emax64 mode_NE (cond_Zopp s (Zpos m) / 2 ^ (- e)) 0 s
  | _ => x
  end.

(** mod, cdnest/dnest.c:1509-1525 *)
Definition mod64 (y x : b64) : outcome b64 :=
  if Bltb zero x then Ok (fmul (fsub (fdiv y x) (floor64 (fdiv y x))) x)
  else if Beqb x zero then Ok zero
  else Exit.
(** dnest_wrap, cdnest/dnest.c:1527-1530 *)
Definition wrap64 (x min max : b64) : outcome b64 :=
  r <- mod64 (fsub x min) (fsub max min) ;; Ok (fadd r min).
(** pm[which] += dnest_randh() * width; dnest_wrap(&pm[which], min, max):
    src/dnest_con.c:189-190 and the same two lines in the other functions *)
Definition move64 (x h width min max : b64) : outcome b64 :=
  wrap64 (fadd x (fmul h width)) min max.
