(** The covariance functions of KernelModel.v and MixModel.v once more, with the
    exponential function the formulas call as a parameter [E].  Which arguments the code
    passes to exp can then be stated: the values do not depend on [E] elsewhere.  The text
    of every formula is that of KernelModel.v or MixModel.v with E for exp (PropExp.v,
    C108_same_text); the exponentials that decode parameters are left as they are. *)
From Coq Require Import Reals List Arith.
From Flocq Require Import BinarySingleNaN.
From Verif Require Import SemisepModel KernelModel MixModel CovModel EndModel DampModel.
Import ListNotations.
Open Scope R_scope.

Section Exp.
Variable E : R -> R.
Variables log_erfc erfc : R -> R.

(** Slc_gauss, src/mc_line.c:3318-3344 *)
Definition e_slc1_gauss (taud fg tau0 wg Dt : R) : R :=
  let DT := Dt - tau0 in
  let St := E (- DT / taud + log_erfc (- (DT / wg - wg / taud) / sqrt 2) + wg * wg / 2 / taud / taud)
          + E (DT / taud + log_erfc ((DT / wg + wg / taud) / sqrt 2) + wg * wg / 2 / taud / taud) in
  St * (1 / 2 * fg).

(** Slc_array_gauss, src/mc_line.c:3424-3449: the width over taud and half its
    square are computed once per component *)
Definition e_slc1_array_gauss (taud fg tau0 wg : R) : R -> R :=
  let wt := wg / taud in
  let wt2 := wt * wt / 2 in
  fun Dt =>
  let DT := Dt - tau0 in
  let St := E (- DT / taud + log_erfc (- (DT / wg - wt) / sqrt 2) + wt2)
          + E (DT / taud + log_erfc ((DT / wg + wt) / sqrt 2) + wt2) in
  St * (1 / 2 * fg).

(** Slc_tophat, src/mc_line.c:3531-3553, and Slc_array_tophat, 3627-3659 *)
Definition e_slc1_tophat (taud fg tau0 wg Dt : R) : R :=
  let fg := fg * (taud / 2 / wg) in
  let DT := Dt - tau0 in
  let St :=
    if Rlt_dec DT (- wg) then E ((DT + wg) / taud) - E ((DT - wg) / taud)
    else if Rlt_dec DT wg then 2 - E (- (DT + wg) / taud) - E ((DT - wg) / taud)
    else E (- (DT - wg) / taud) - E (- (DT + wg) / taud) in
  St * fg.

(** Slc_gamma, src/mc_line.c:4464-4488, and Slc_array_gamma, 4566-4598; [c] is
    pm[idxk+1], the centre *)
Definition e_slc1_gamma (taud fg c tau1 Dt : R) : R :=
  let tau0 := c - 2 * tau1 in
  let p1 := (taud + tau1) / taud in
  let p2 := (taud - tau1) / taud in
  let DT := Dt - tau0 in
  let St :=
    if Rle_dec DT 0 then E (DT / taud) / p1 / p1
    else if Rlt_dec (Rabs p2) EPS
    then E (- DT / taud) * ((DT / taud) * (DT / taud) / 2 + (p1 * DT / taud + 1) / p1 / p1)
    else E (- DT / taud) / p2 / p2
         + E (- DT / tau1) * (- (p2 * DT / tau1 + 1) / p2 / p2 + (p1 * DT / tau1 + 1) / p1 / p1) in
  St * fg.

(** Slc_exp, src/mc_line.c:5373-5397, and Slc_array_exp, 5475-5507 *)
Definition e_slc1_exp (taud fg c tau1 Dt : R) : R :=
  let tau0 := c - tau1 in
  let p1 := (taud + tau1) / taud in
  let p2 := (taud - tau1) / taud in
  let DT := Dt - tau0 in
  let St :=
    if Rle_dec DT 0 then E (DT / taud) / p1
    else if Rlt_dec (Rabs p2) EPS
    then E (- DT / taud) * (DT / taud + 1 / p1)
    else E (- DT / taud) / p2 + E (- DT / tau1) * (- 1 / p2 + 1 / p1) in
  St * fg.

(** ** A pair of components (line against line) *)

(** Sll_gauss, src/mc_line.c:2837-2862, and Sll2_gauss, 3097-3108 *)
Definition e_sll1_gauss (taud fg1 tau1 wg1 fg2 tau2 wg2 Dt : R) : R :=
  let DT := Dt - (tau1 - tau2) in
  let A := sqrt (wg1 * wg1 + wg2 * wg2) in
  let St := E (- DT / taud + log_erfc (- (DT / A - A / taud) / sqrt 2) + A * A / 2 / taud / taud)
          + E (DT / taud + log_erfc ((DT / A + A / taud) / sqrt 2) + A * A / 2 / taud / taud) in
  St * (1 / 2 * fg1 * fg2).

(** Sll_array_gauss, src/mc_line.c:2971-2993, and Sll2_array_gauss, 3204-3226 *)
Definition e_sll1_array_gauss (taud fg1 tau1 wg1 fg2 tau2 wg2 : R) : R -> R :=
  let A := sqrt (wg1 * wg1 + wg2 * wg2) in
  let At := A / taud in
  let At2 := At * At / 2 in
  let fg12 := fg1 * fg2 / 2 in
  fun Dt =>
  let DT := Dt - (tau1 - tau2) in
  let St := E (- DT / taud + log_erfc (- (DT / A - At) / sqrt 2) + At2)
          + E (DT / taud + log_erfc ((DT / A + At) / sqrt 2) + At2) in
  St * fg12.

(** Sll_tophat, src/mc_line.c:3756-3802; the same text in Sll_array_tophat,
    3926-3980, Sll2_tophat, 4113-4159, and Sll2_array_tophat, 4285-4339.  The
    text of the five branches is the same in the four routines up to the order
    of the summands. *)
Definition e_sll1_tophat (taud fg1 tau1 wg1 fg2 tau2 wg2 Dt : R) : R :=
  let fg12 := fg1 / wg1 * fg2 / wg2 / 4 * taud * taud in
  let '(wh, wl) := if Rge_dec wg1 wg2 then (wg1, wg2) else (wg2, wg1) in
  let DT := Dt - (tau1 - tau2) in
  let St :=
    if Rlt_dec DT (- wh - wl) then
      E ((DT + wh + wl) / taud) + E ((DT - wh - wl) / taud)
      - E ((DT + wh - wl) / taud) - E ((DT - wh + wl) / taud)
    else if Rlt_dec DT (- wh + wl) then
      E ((DT - wh - wl) / taud) + E (- (DT + wh + wl) / taud)
      - E ((DT + wh - wl) / taud) - E ((DT - wh + wl) / taud)
      + 2 * (DT + wh + wl) / taud
    else if Rlt_dec DT (wh - wl) then
      E ((DT - wh - wl) / taud) + E (- (DT + wh + wl) / taud)
      - E ((DT - wh + wl) / taud) - E (- (DT + wh - wl) / taud)
      + 4 * wl / taud
    else if Rlt_dec DT (wh + wl) then
      E (- (DT + wh + wl) / taud) + E ((DT - wh - wl) / taud)
      - E (- (DT - wh + wl) / taud) - E (- (DT + wh - wl) / taud)
      - 2 * (DT - wh - wl) / taud
    else
      E (- (DT - wh - wl) / taud) + E (- (DT + wh + wl) / taud)
      - E (- (DT - wh + wl) / taud) - E (- (DT + wh - wl) / taud) in
  St * fg12.

(** Sll_gamma, src/mc_line.c:4692-4738; the same text in Sll_array_gamma,
    4852-4908, Sll2_gamma, 5031-5078, and Sll2_array_gamma, 5193-5249 *)
Definition e_sll1_gamma (taud fg1 c1 tau1 fg2 c2 tau2 Dt : R) : R :=
  let tau01 := c1 - 2 * tau1 in
  let p1 := (taud - tau1) / taud in
  let p2 := (taud + tau1) / taud in
  let tau02 := c2 - 2 * tau2 in
  let fg12 := fg1 * fg2 in
  let p3 := (taud + tau2) / taud in
  let p4 := (taud - tau2) / taud in
  let p51 := (tau1 + tau2) / tau1 in
  let p52 := (tau1 + tau2) / tau2 in
  let DT := Dt - (tau01 - tau02) in
  let St :=
    if Rle_dec DT 0 then
      if Rlt_dec (Rabs p4) EPS then
        let tmp := p2 * DT / tau1 in
        E (DT / taud) * ((tau1 / tau2) * (tau1 / tau2) / (p2 * p2 * p2 * p2) * (3 - 2 * tmp + tmp * tmp / 2)
                           + (1 - p3 * DT / tau2 + 2 * p3 / p51) / (p3 * p3 * p52 * p52))
      else
        E (DT / taud) / (p2 * p2 * p4 * p4)
        + E (DT / tau2) / (p4 * p4 * p52 * p52)
          * (- (1 - p4 * DT / tau2 + 2 * p4 / p51)
             + (1 - p3 * DT / tau2 + 2 * p3 / p51) * (p4 * p4) / (p3 * p3))
    else
      if Rlt_dec (Rabs p1) EPS then
        let tmp := p3 * DT / tau2 in
        E (- DT / taud) * ((tau2 / tau1) * (tau2 / tau1) / (p3 * p3 * p3 * p3) * (3 + 2 * tmp + tmp * tmp / 2)
                             + (1 + p2 * DT / tau1 + 2 * p2 / p52) / (p2 * p2 * p51 * p51))
      else
        E (- DT / taud) / (p1 * p1 * p3 * p3)
        + E (- DT / tau1) / (p1 * p1 * p51 * p51)
          * (- (1 + p1 * DT / tau1 + 2 * p1 / p52)
             + (1 + p2 * DT / tau1 + 2 * p2 / p52) * (p1 * p1) / (p2 * p2)) in
  St * fg12.

(** Sll_exp, src/mc_line.c:5601-5639; the same text in Sll_array_exp,
    5745-5793, Sll2_exp, 5908-5947, and Sll2_array_exp, 6054-6102 *)
Definition e_sll1_exp (taud fg1 c1 tau1 fg2 c2 tau2 Dt : R) : R :=
  let tau01 := c1 - tau1 in
  let p1 := (taud - tau1) / taud in
  let p2 := (taud + tau1) / taud in
  let tau02 := c2 - tau2 in
  let fg12 := fg1 * fg2 in
  let p3 := (taud + tau2) / taud in
  let p4 := (taud - tau2) / taud in
  let p51 := (tau1 + tau2) / tau1 in
  let p52 := (tau1 + tau2) / tau2 in
  let DT := Dt - (tau01 - tau02) in
  let St :=
    if Rle_dec DT 0 then
      if Rlt_dec (Rabs p4) EPS then
        E (DT / taud) * (- DT / tau2 / p2 + tau1 / tau2 * 1 / p2 / p2 + 1 / (p3 * p52))
      else
        E (DT / taud) / (p2 * p4)
        + E (DT / tau2) / (p4 * p52) * (- 1 + p4 / p3)
    else
      if Rlt_dec (Rabs p1) EPS then
        E (- DT / taud) * (DT / tau1 / p3 + tau2 / tau1 * 1 / p3 / p3 + 1 / (p2 * p51))
      else
        E (- DT / taud) / (p1 * p3)
        + E (- DT / tau1) / (p1 * p51) * (- 1 + p1 / p2) in
  St * fg12.

(** Sll_gau_exp, src/mc_mmap.c:1707-1737; the same text in Sll_array_gau_exp,
    3215-3257, and Sll2_array_gau_exp, 4329-4371 *)
Definition e_mix_gau_exp (taud fg1 tau1 wid1 fg2 c2 wid2 Dt : R) : R :=
  let tau2 := c2 - wid2 in
  let fg12 := fg1 * fg2 / 2 in
  let diff := taud - wid2 in
  let St :=
    if Rlt_dec EPS (Rabs diff) then
      let C1 := taud / (taud + wid2) in
      let C2 := taud / (taud - wid2) in
      let DT := Dt - (tau1 - tau2) in
      C1 * E (- DT / taud + wid1 * wid1 / (taud * taud) / 2 + log_erfc (- 1 / sqrt 2 * (DT / wid1 - wid1 / taud)))
      + C2 * E (DT / taud + wid1 * wid1 / (taud * taud) / 2 + log_erfc (1 / sqrt 2 * (DT / wid1 + wid1 / taud)))
      + (C1 - C2) * E (DT / wid2 + wid1 * wid1 / (wid2 * wid2) / 2 + log_erfc (1 / sqrt 2 * (DT / wid1 + wid1 / wid2)))
    else
      let C1 := taud / (taud + wid2) in
      let DT := Dt - (tau1 - tau2) in
      let fac := DT / wid1 + wid1 / taud in
      C1 * E (- DT / taud + wid1 * wid1 / (taud * taud) / 2 + log_erfc (- 1 / sqrt 2 * (DT / wid1 - wid1 / taud)))
      + C1 * E (DT / taud + wid1 * wid1 / (taud * taud) / 2 + log_erfc (1 / sqrt 2 * fac))
      + wid1 / wid2 * (E (- DT * DT / (wid1 * wid1) / 2) / sqrt (PI / 2)
                       - fac * E (DT / taud + wid1 * wid1 / (taud * taud) / 2 + log_erfc (1 / sqrt 2 * fac))) in
  St * fg12.

(** Sll_gau_gam, src/mc_mmap.c:1767-1802; the same text in Sll_array_gau_gam,
    3362-3410, and Sll2_array_gau_gam, 4252-4300 *)
Definition e_mix_gau_gam (taud fg1 tau1 wid1 fg2 c2 wid2 Dt : R) : R :=
  let tau2 := c2 - 2 * wid2 in
  let fg12 := fg1 * fg2 / 2 in
  let diff := taud - wid2 in
  let St :=
    if Rlt_dec EPS (Rabs diff) then
      let C1 := taud / (taud + wid2) in
      let C2 := taud / (taud - wid2) in
      let DT := Dt - (tau1 - tau2) in
      let fac := DT / wid1 + wid1 / wid2 in
      C1 * C1 * E (- DT / taud + wid1 * wid1 / (taud * taud) / 2 + log_erfc (- 1 / sqrt 2 * (DT / wid1 - wid1 / taud)))
      + C2 * C2 * E (DT / taud + wid1 * wid1 / (taud * taud) / 2 + log_erfc (1 / sqrt 2 * (DT / wid1 + wid1 / taud)))
      + (C1 * C1 - C2 * C2) * E (DT / wid2 + wid1 * wid1 / (wid2 * wid2) / 2 + log_erfc (1 / sqrt 2 * (DT / wid1 + wid1 / wid2)))
      + (C1 - C2) * wid1 / wid2 * (E (- DT * DT / (wid1 * wid1) / 2) / sqrt (PI / 2)
                                   - fac * E (DT / wid2 + wid1 * wid1 / (wid2 * wid2) / 2 + log_erfc (fac / sqrt 2)))
    else
      let C1 := taud / (taud + wid2) in
      let DT := Dt - (tau1 - tau2) in
      let fac := DT / wid1 + wid1 / taud in
      C1 * C1 * E (- DT / taud + wid1 * wid1 / (taud * taud) / 2 + log_erfc (- 1 / sqrt 2 * (DT / wid1 - wid1 / taud)))
      + C1 * C1 * E (DT / taud + wid1 * wid1 / (taud * taud) / 2 + log_erfc (fac / sqrt 2))
      + C1 * wid1 / wid2 * (E (- DT * DT / (wid1 * wid1) / 2) / sqrt (PI / 2)
                            - fac * E (DT / wid2 + wid1 * wid1 / (wid2 * wid2) / 2 + log_erfc (fac / sqrt 2)))
      + wid1 * wid1 / (wid2 * wid2) / 2
        * ((1 + fac * fac) * E (DT / taud + wid1 * wid1 / (taud * taud) / 2 + log_erfc (fac / sqrt 2))
           - fac * E (- DT * DT / (wid1 * wid1) / 2) / sqrt (PI / 2)) in
  St * fg12.

(** Sll_exp_gam, src/mc_mmap.c:2155-2201; the same text in Sll2_array_exp_gam,
    4762-4812.  [deg] is the factor of exp(-DT/taud) in the second case, which
    is written differently in Sll_array_exp_gam and Sll_array_gam_exp. *)
Definition e_mix_exp_gam_with (deg : R -> R -> R) (taud fg1 c1 wid1 fg2 c2 wid2 Dt : R) : R :=
  let tau1 := c1 - wid1 in
  let tau2 := c2 - 2 * wid2 in
  let fg12 := fg1 * fg2 / (wid1 * wid2 * wid2) in
  let p1 := (taud - wid1) / taud / wid1 in
  let p2 := (taud + wid1) / taud / wid1 in
  let p3 := (taud + wid2) / taud / wid2 in
  let p4 := (taud - wid2) / taud / wid2 in
  let p5 := (wid1 + wid2) / wid1 / wid2 in
  let DT := Dt - (tau1 - tau2) in
  let St :=
    if Rle_dec 0 DT then
      if Rlt_dec EPS (Rabs (taud - wid1)) then
        1 / (p1 * p3 * p3) * E (- DT / taud) + (1 / p2 - 1 / p1) / (p5 * p5) * E (- DT / wid1)
      else
        deg p3 DT * E (- DT / taud) + 1 / (p2 * p5 * p5) * E (- DT / wid1)
    else
      if Rlt_dec EPS (Rabs (taud - wid2)) then
        1 / (p2 * p4 * p4) * E (DT / taud)
        + ((1 / p3 - 1 / p4) * (1 / p5 / p5 - DT / p5) + (1 / p3 / p3 - 1 / p4 / p4) / p5) * E (DT / wid2)
      else
        (1 / (p2 * p2 * p2) - DT / (p2 * p2) + DT * DT / (2 * p2)) * E (DT / taud)
        + (1 / (p5 * p3 * p3) + (1 / p5 / p5 - DT / p5) / p3) * E (DT / wid2) in
  St * fg12.
Definition e_mix_exp_gam := e_mix_exp_gam_with (fun p3 DT => 1 / (p3 * p3 * p3) * (2 + DT * p3)).
(** Sll_array_exp_gam, src/mc_mmap.c:3505-3556 *)
Definition e_mix_exp_gam_array := e_mix_exp_gam_with (fun p3 DT => 2 / (p3 * p3 * p3) + DT / (p3 * p3)).

(** Sll_gau_tophat, src/mc_mmap.c:2310-2323; the same text in
    Sll_array_gau_tophat, 3741-3756, and Sll2_array_gau_tophat, 4927-4942 *)
Definition e_mix_gau_top (taud fg1 tau1 wg1 fg2 tau2 wg2 Dt : R) : R :=
  let fg12 := fg1 * fg2 * taud / wg2 / 4 in
  let DT := Dt - (tau1 - tau2) in
  let St :=
    2 * (erfc ((- wg2 + DT) / wg1 / sqrt 2) - erfc ((wg2 + DT) / wg1 / sqrt 2))
    + E (wg2 / taud - DT / taud + wg1 * wg1 / taud / taud / 2 + log_erfc (((wg2 - DT) / wg1 + wg1 / taud) / sqrt 2))
    + E (wg2 / taud + DT / taud + wg1 * wg1 / taud / taud / 2 + log_erfc (((wg2 + DT) / wg1 + wg1 / taud) / sqrt 2))
    - E (- wg2 / taud + DT / taud + wg1 * wg1 / taud / taud / 2 + log_erfc (((- wg2 + DT) / wg1 + wg1 / taud) / sqrt 2))
    - E (- wg2 / taud - DT / taud + wg1 * wg1 / taud / taud / 2 + log_erfc (((- wg2 - DT) / wg1 + wg1 / taud) / sqrt 2)) in
  St * fg12.

(** Sll_exp_tophat, src/mc_mmap.c:2382-2434; the same text in
    Sll_array_exp_tophat, 3895-3952, and Sll2_array_exp_tophat, 5009-5066 *)
Definition e_mix_exp_top (taud fg1 c1 wg1 fg2 tau2 wg2 Dt : R) : R :=
  let tau1 := c1 - wg1 in
  let fg12 := fg1 * fg2 / wg1 / wg2 / 2 in
  let DT := Dt - (tau1 - tau2) in
  let p1 := (taud + wg1) / taud / wg1 in
  let p2 := (taud - wg1) / taud / wg1 in
  let diff := taud - wg1 in
  let St :=
    if Rle_dec DT (- wg2) then
      1 / p1 * taud * E (DT / taud) * (E (wg2 / taud) - E (- wg2 / taud))
    else if Rle_dec DT wg2 then
      if Rlt_dec EPS (Rabs diff) then
        2 * taud * wg1 * (1 - E (- (wg2 + DT) / wg1))
        + (1 / p1 + 1 / p2) * taud * E (- (wg2 + DT) / wg1)
        - 1 / p1 * taud * E (DT / taud - wg2 / taud) - 1 / p2 * taud * E (- DT / taud - wg2 / taud)
      else
        2 * taud * wg1 * (1 - E (- (wg2 + DT) / wg1))
        + 1 / p1 * taud * E (- (wg2 + DT) / wg1) - 1 / p1 * taud * E (DT / taud - wg2 / taud)
        - taud * (wg2 + DT) * E (- (wg2 + DT) / taud)
    else
      if Rlt_dec EPS (Rabs diff) then
        1 / p2 * taud * (E (- (- wg2 + DT) / taud) - E (- (wg2 + DT) / taud))
        + (1 / p1 - 1 / p2) * wg1 * (E (- (- wg2 + DT) / wg1) - E (- (wg2 + DT) / wg1))
      else
        1 / p1 * wg1 * (E (- (- wg2 + DT) / wg1) - E (- (wg2 + DT) / wg1))
        + taud * E (- (- wg2 + DT) / taud) * (taud - wg2 + DT) - taud * E (- (wg2 + DT) / taud) * (taud + wg2 + DT) in
  St * fg12.

(** Sll_gam_tophat, src/mc_mmap.c:2609-2672; the same text in
    Sll_array_gam_tophat, 4056-4124, and Sll2_array_gam_tophat, 5246-5315 *)
Definition e_mix_gam_top (taud fg1 c1 wg1 fg2 tau2 wg2 Dt : R) : R :=
  let tau1 := c1 - 2 * wg1 in
  let fg12 := fg1 * fg2 / (wg1 * wg1) / wg2 / 2 in
  let DT := Dt - (tau1 - tau2) in
  let p1 := (taud + wg1) / taud / wg1 in
  let p2 := (taud - wg1) / taud / wg1 in
  let diff := taud - wg1 in
  let St :=
    if Rle_dec DT (- wg2) then
      1 / (p1 * p1) * taud * E (DT / taud) * (E (wg2 / taud) - E (- wg2 / taud))
    else if Rle_dec DT wg2 then
      if Rlt_dec EPS (Rabs diff) then
        2 * taud * wg1 * wg1 * (1 - E (- (wg2 + DT) / wg1) * ((wg2 + DT) / wg1 + 1))
        + 1 / (p1 * p1) * taud * E (- (wg2 + DT) / wg1) * (p1 * (wg2 + DT) + 1)
        + 1 / (p2 * p2) * taud * E (- (wg2 + DT) / wg1) * (p2 * (wg2 + DT) + 1)
        - 1 / (p1 * p1) * taud * E (- (wg2 - DT) / taud) - 1 / (p2 * p2) * taud * E (- (wg2 + DT) / taud)
      else
        2 * taud * wg1 * wg1 * (1 - E (- (wg2 + DT) / wg1) * ((wg2 + DT) / wg1 + 1))
        + 1 / (p1 * p1) * taud * E (- (wg2 + DT) / wg1) * (p1 * (wg2 + DT) + 1)
        - 1 / (p1 * p1) * taud * E (- (wg2 - DT) / taud)
        - 1 / 2 * taud * (wg2 + DT) * (wg2 + DT) * E (- (wg2 + DT) / taud)
    else
      let p3 := (- wg2 + DT) / wg1 in
      let p4 := (wg2 + DT) / wg1 in
      if Rlt_dec EPS (Rabs diff) then
        1 / (p2 * p2) * taud * (E (- (- wg2 + DT) / taud) - E (- (wg2 + DT) / taud))
        + (1 / (p1 * p1) - 1 / (p2 * p2)) * wg1 * (E (- p3) - E (- p4))
        + (1 / p1 - 1 / p2) * wg1 * wg1 * (E (- p3) * (p3 + 1) - E (- p4) * (p4 + 1))
      else
        let p5 := (- wg2 + DT) / taud in
        let p6 := (wg2 + DT) / taud in
        1 / (p1 * p1) * wg1 * (E (- p3) - E (- p4))
        + 1 / p1 * wg1 * wg1 * (E (- p3) * (p3 + 1) - E (- p4) * (p4 + 1))
        + 1 / 2 * (taud * taud * taud) * (E (- p5) * (p5 * p5 + 2 * p5 + 2) - E (- p6) * (p6 * p6 + 2 * p6 + 2)) in
  St * fg12.

(** function pointer tables, src/mc_mmap.c:877-949; entry type1*4 + type2.
    Definitions of the routines: Sll_gau_gau 1621-1680, Sll_gau_tophat
    2287-2325, Sll_gau_gam 1742-1805, Sll_gau_exp 1682-1740, Sll_tophat_gau
    2327-2365, Sll_tophat_tophat 2206-2285, Sll_tophat_gam 2511-2592,
    Sll_tophat_exp 2439-2509, Sll_gam_gau 1880-1943, Sll_gam_tophat 2594-2675,
    Sll_gam_gam 1807-1878, Sll_gam_exp 1948-2013, Sll_exp_gau 2079-2137,
    Sll_exp_tophat 2367-2437, Sll_exp_gam 2139-2204, Sll_exp_exp 2015-2078.
    For two components of one shape the text is that of the routines of
    src/mc_line.c modelled in KernelModel.v. *)
Definition e_FP_Sll : list pairfun :=
  [ direct (e_sll1_gauss); direct e_mix_gau_top; direct e_mix_gau_gam; direct e_mix_gau_exp;
    swapped e_mix_gau_top; direct e_sll1_tophat; swapped e_mix_gam_top; swapped e_mix_exp_top;
    swapped e_mix_gau_gam; direct e_mix_gam_top; direct e_sll1_gamma; swapped e_mix_exp_gam;
    swapped e_mix_gau_exp; direct e_mix_exp_top; direct e_mix_exp_gam; direct e_sll1_exp ].
(** Sll_array_gau_gau 2992-3044, Sll_array_gam_gam 3046-3121, Sll_array_exp_exp
    3123-3190, Sll_array_tophat_tophat 3633-3716; the others as cited above and
    Sll_array_exp_gau 3262-3330, Sll_array_gam_gau 3415-3489, Sll_array_gam_exp
    3562-3631, Sll_array_tophat_gau 3763-3806, Sll_array_tophat_exp 3808-3880,
    Sll_array_tophat_gam 3957-4041 *)
Definition e_FP_Sll_array : list pairfun :=
  [ direct (e_sll1_array_gauss); direct e_mix_gau_top; direct e_mix_gau_gam; direct e_mix_gau_exp;
    swapped' e_mix_gau_top; direct e_sll1_tophat; swapped' e_mix_gam_top; swapped' e_mix_exp_top;
    swapped e_mix_gau_gam; direct e_mix_gam_top; direct e_sll1_gamma; swapped' e_mix_exp_gam_array;
    swapped e_mix_gau_exp; direct e_mix_exp_top; direct e_mix_exp_gam_array; direct e_sll1_exp ].
(** Sll2_array_gau_gau 4173-4226, Sll2_array_gam_gam 4376-4452,
    Sll2_array_gam_gau 4454-4529, Sll2_array_gam_exp 4532-4602,
    Sll2_array_exp_exp 4604-4672, Sll2_array_exp_gau 4674-4743,
    Sll2_array_tophat_tophat 4817-4901, Sll2_array_tophat_gau 4949-4993,
    Sll2_array_tophat_exp 5070-5143, Sll2_array_tophat_gam 5145-5230 *)
Definition e_FP_Sll2_array : list pairfun :=
  [ direct (e_sll1_array_gauss); direct e_mix_gau_top; direct e_mix_gau_gam; direct e_mix_gau_exp;
    swapped' e_mix_gau_top; direct e_sll1_tophat; swapped' e_mix_gam_top; swapped' e_mix_exp_top;
    swapped' e_mix_gau_gam; direct e_mix_gam_top; direct e_sll1_gamma; swapped' e_mix_exp_gam;
    swapped' e_mix_gau_exp; direct e_mix_exp_top; direct e_mix_exp_gam; direct e_sll1_exp ].

(** continuum against one component: Slc_gauss_mmap 1406-1454, Slc_tophat_mmap
    1546-1590, Slc_gamma_mmap 1456-1499, Slc_exp_mmap 1501-1544, with the text
    of src/mc_line.c; arguments taud, amplitude, centre, width, tline - tcon *)
Definition e_FP_Slc : list onefun := [ e_slc1_gauss; e_slc1_tophat; e_slc1_gamma; e_slc1_exp ].
(** Slc_array_gauss_mmap 2748-2789, Slc_array_gamma_mmap 2791-2839,
    Slc_array_exp_mmap 2841-2889, Slc_array_tophat_mmap 2891-2938 *)
Definition e_FP_Slc_array : list onefun := [ e_slc1_array_gauss; e_slc1_tophat; e_slc1_gamma; e_slc1_exp ].

(** the function pointers, src/init.c:138-275 *)
Definition e_pointers (type_tf : nat) (flag_negative_resp : bool) (icp : nat -> nat) (ilp : nat -> nat -> nat)
  (ncomp : nat) (pm : arr) (nds : nat) : kernels :=
  let amp := if flag_negative_resp then (fun x => x) else exp in
  match type_tf with
  | 0 => Kernels
      (fun t1 t2 l => Slc_of amp icp ilp ncomp e_slc1_gauss pm t1 t2 nds l)
      (fun t1 t2 l => Sll_of amp icp ilp ncomp e_sll1_gauss pm t1 t2 nds l)
      (fun t1 t2 l1 l2 => Sll2_of amp icp ilp ncomp e_sll1_gauss pm t1 t2 nds l1 l2)
      (fun t1 n1 t2 n2 l B => Slc_array_of amp icp ilp ncomp e_slc1_array_gauss t1 n1 t2 n2 pm nds l B)
      (fun t1 n1 l B => Sll_array_of amp icp ilp ncomp e_sll1_array_gauss t1 n1 pm nds l B)
      (fun t1 n1 t2 n2 l1 l2 B => Sll2_array_of amp icp ilp ncomp e_sll1_array_gauss t1 n1 t2 n2 pm nds l1 l2 B)
  | 1 => Kernels
      (fun t1 t2 l => Slc_of amp icp ilp ncomp e_slc1_tophat pm t1 t2 nds l)
      (fun t1 t2 l => Sll_of amp icp ilp ncomp e_sll1_tophat pm t1 t2 nds l)
      (fun t1 t2 l1 l2 => Sll2_of amp icp ilp ncomp e_sll1_tophat pm t1 t2 nds l1 l2)
      (fun t1 n1 t2 n2 l B => Slc_array_of amp icp ilp ncomp e_slc1_tophat t1 n1 t2 n2 pm nds l B)
      (fun t1 n1 l B => Sll_array_of amp icp ilp ncomp e_sll1_tophat t1 n1 pm nds l B)
      (fun t1 n1 t2 n2 l1 l2 B => Sll2_array_of amp icp ilp ncomp e_sll1_tophat t1 n1 t2 n2 pm nds l1 l2 B)
  | 2 => Kernels
      (fun t1 t2 l => Slc_of amp icp ilp ncomp e_slc1_gamma pm t1 t2 nds l)
      (fun t1 t2 l => Sll_of amp icp ilp ncomp e_sll1_gamma pm t1 t2 nds l)
      (fun t1 t2 l1 l2 => Sll2_of amp icp ilp ncomp e_sll1_gamma pm t1 t2 nds l1 l2)
      (fun t1 n1 t2 n2 l B => Slc_array_of amp icp ilp ncomp e_slc1_gamma t1 n1 t2 n2 pm nds l B)
      (fun t1 n1 l B => Sll_array_of amp icp ilp ncomp e_sll1_gamma t1 n1 pm nds l B)
      (fun t1 n1 t2 n2 l1 l2 B => Sll2_array_of amp icp ilp ncomp e_sll1_gamma t1 n1 t2 n2 pm nds l1 l2 B)
  | _ => Kernels
      (fun t1 t2 l => Slc_of amp icp ilp ncomp e_slc1_exp pm t1 t2 nds l)
      (fun t1 t2 l => Sll_of amp icp ilp ncomp e_sll1_exp pm t1 t2 nds l)
      (fun t1 t2 l1 l2 => Sll2_of amp icp ilp ncomp e_sll1_exp pm t1 t2 nds l1 l2)
      (fun t1 n1 t2 n2 l B => Slc_array_of amp icp ilp ncomp e_slc1_exp t1 n1 t2 n2 pm nds l B)
      (fun t1 n1 l B => Sll_array_of amp icp ilp ncomp e_sll1_exp t1 n1 pm nds l B)
      (fun t1 n1 t2 n2 l1 l2 B => Sll2_array_of amp icp ilp ncomp e_sll1_exp t1 n1 t2 n2 pm nds l1 l2 B)
  end%nat.

Section Mixed.
Variable idx_con_pm : nat -> nat.
Variable idx_line_pm : nat -> nat -> nat.
Variable num_gaussian : nat.
Variable ty : nat -> nat.
(** e_Slc_mmap, src/mc_mmap.c:1391-1404 *)
Definition e_Slc_mmap (tcon tline : R) (pm : arr) (nds nls : nat) : R :=
  for_ 0 num_gaussian (fun k Stot => Stot + one_of idx_con_pm idx_line_pm (nth (ty k) e_FP_Slc no_one) pm nds nls k (tline - tcon)) 0.

(** e_Sll2_mmap, src/mc_mmap.c:2685-2703 *)
Definition e_Sll2_mmap (t1 t2 : R) (pm : arr) (nds nls1 nls2 : nat) : R :=
  for_ 0 num_gaussian (fun k1 Stot =>
    for_ 0 num_gaussian (fun k2 Stot =>
      Stot + pair_of idx_con_pm idx_line_pm (nth (ty k1 * 4 + ty k2)%nat e_FP_Sll no_pair) pm nds nls1 nls2 k1 k2 t1 t2) Stot) 0.
(** e_Sll_mmap, src/mc_mmap.c:1600-1619 *)
Definition e_Sll_mmap (t1 t2 : R) (pm : arr) (nds nls : nat) : R :=
  for_ 0 num_gaussian (fun k1 Stot =>
    for_ 0 num_gaussian (fun k2 Stot =>
      Stot + pair_of idx_con_pm idx_line_pm (nth (ty k1 * 4 + ty k2)%nat e_FP_Sll no_pair) pm nds nls nls k1 k2 t1 t2) Stot) 0.

(** e_Slc_array_mmap, src/mc_mmap.c:2712-2740; the state is Smat and the work
    array Smat_lc_buf *)
Definition e_Slc_array_mmap (tcon : arr) (ncon : nat) (tline : arr) (nline : nat) (pm : arr) (nds nls : nat) (Smat buf : arr) : arr * arr :=
  let Smat := for_ 0 ncon (fun i S => for_ 0 nline (fun j S => upd S (i * nline + j)%nat 0) S) Smat in
  for_ 0 num_gaussian (fun k '(Smat, buf) =>
    let f := nth (ty k) e_FP_Slc_array no_one in
    let buf := for_ 0 ncon (fun i B => for_ 0 nline (fun j B =>
      upd B (i * nline + j)%nat (one_of idx_con_pm idx_line_pm f pm nds nls k (tline j - tcon i))) B) buf in
    (for_ 0 (ncon * nline) (fun i S => upd S i (S i + buf i)) Smat, buf)) (Smat, buf).

(** e_Sll_array_mmap, src/mc_mmap.c:2949-2983: lower triangle only *)
Definition e_Sll_array_mmap (tline : arr) (nline : nat) (pm : arr) (nds nls : nat) (Smat buf : arr) : arr * arr :=
  let Smat := for_ 0 nline (fun i S => for_ 0 (i + 1) (fun j S => upd S (i * nline + j)%nat 0) S) Smat in
  for_ 0 num_gaussian (fun k1 st =>
    for_ 0 num_gaussian (fun k2 '(Smat, buf) =>
      let f := nth (ty k1 * 4 + ty k2)%nat e_FP_Sll_array no_pair in
      let buf := for_ 0 nline (fun i B => for_ 0 (i + 1) (fun j B =>
        upd B (i * nline + j)%nat (pair_of idx_con_pm idx_line_pm f pm nds nls nls k1 k2 (tline i) (tline j))) B) buf in
      (for_ 0 nline (fun i S => for_ 0 (i + 1) (fun j S =>
        upd S (i * nline + j)%nat (S (i * nline + j)%nat + buf (i * nline + j)%nat)) S) Smat, buf)) st) (Smat, buf).

(** e_Sll2_array_mmap, src/mc_mmap.c:4137-4171 *)
Definition e_Sll2_array_mmap (tline1 : arr) (nline1 : nat) (tline2 : arr) (nline2 : nat) (pm : arr) (nds nls1 nls2 : nat) (Smat buf : arr) : arr * arr :=
  let Smat := for_ 0 nline1 (fun i S => for_ 0 nline2 (fun j S => upd S (i * nline2 + j)%nat 0) S) Smat in
  for_ 0 num_gaussian (fun k1 st =>
    for_ 0 num_gaussian (fun k2 '(Smat, buf) =>
      let f := nth (ty k1 * 4 + ty k2)%nat e_FP_Sll2_array no_pair in
      let buf := for_ 0 nline1 (fun i B => for_ 0 nline2 (fun j B =>
        upd B (i * nline2 + j)%nat (pair_of idx_con_pm idx_line_pm f pm nds nls1 nls2 k1 k2 (tline1 i) (tline2 j))) B) buf in
      (for_ 0 nline1 (fun i S => for_ 0 nline2 (fun j S =>
        upd S (i * nline2 + j)%nat (S (i * nline2 + j)%nat + buf (i * nline2 + j)%nat)) S) Smat, buf)) st) (Smat, buf).
End Mixed.

(** mixed_kernels, EndModel.v *)
Definition e_mixed_kernels (icp : nat -> nat) (ilp : nat -> nat -> nat) (ncomp : nat) (ty : nat -> nat)
  (pm : arr) (nds : nat) (buf_lc buf_ll : arr) : kernels :=
  Kernels
    (fun t1 t2 l => e_Slc_mmap icp ilp ncomp ty t1 t2 pm nds l)
    (fun t1 t2 l => e_Sll_mmap icp ilp ncomp ty t1 t2 pm nds l)
    (fun t1 t2 l1 l2 => e_Sll2_mmap icp ilp ncomp ty t1 t2 pm nds l1 l2)
    (fun t1 n1 t2 n2 l B => fst (e_Slc_array_mmap icp ilp ncomp ty t1 n1 t2 n2 pm nds l B buf_lc))
    (fun t1 n1 l B => fst (e_Sll_array_mmap icp ilp ncomp ty t1 n1 pm nds l B buf_ll))
    (fun t1 n1 t2 n2 l1 l2 B => fst (e_Sll2_array_mmap icp ilp ncomp ty t1 n1 t2 n2 pm nds l1 l2 B buf_ll)).
End Exp.

(** The first branch of Sll_exp_tophat (src/mc_mmap.c:2396-2402 and 2434) and of
    Sll_gam_tophat (2623-2629 and 2672) in IEEE binary64 arithmetic; the same lines in
    Sll_tophat_exp, Sll_tophat_gam and the array routines.  [fexp] is exp of the C
    library. *)
Section Float.
Variable fexp : b64 -> b64.
Definition f_far (scale taud wg2 DT fg12 : b64) : b64 :=
  let St := fmul (fmul (fmul scale taud) (fexp (fdiv DT taud))) (fsub (fexp (fdiv wg2 taud)) (fexp (fdiv (Bopp wg2) taud))) in
  fmul St fg12.
Definition f_p1 (taud wg1 : b64) : b64 := fdiv (fdiv (fadd taud wg1) taud) wg1.
Definition f_exp_top_far (taud wg1 wg2 DT fg12 : b64) : b64 := f_far (fdiv one (f_p1 taud wg1)) taud wg2 DT fg12.
Definition f_gam_top_far (taud wg1 wg2 DT fg12 : b64) : b64 := f_far (fdiv one (fmul (f_p1 taud wg1) (f_p1 taud wg1))) taud wg2 DT fg12.
End Float.
