(** A uniform draw from the range of a parameter, in IEEE binary64 arithmetic. *)
From Flocq Require Import Core BinarySingleNaN.
From Verif Require Import CPrelude DampModel.

(** par_range_model[i][0] + dnest_rand()*(par_range_model[i][1] - par_range_model[i][0]):
    src/dnest_con.c:114, src/dnest_line.c:473 and 508-509, src/dnest_mmap.c:212 and
    247-248, src/dnest_pmap.c:295 and 307-308, src/dnest_vmap.c:312 and 347-348, and
    cdnest/dnest.c:2084.  [u] is the value dnest_rand() returns
    (cdnest/dnest.c:1551-1554, gsl_rng_uniform of the GNU Scientific Library). *)
Definition draw64 (u min max : b64) : b64 := fadd min (fmul u (fsub max min)).
