(** The covariance functions of the mixed model, src/mc_mmap.c:1385-5320: the
    components of a line may have different shapes.  Over the real numbers (no
    rounding); arrays are total functions, as in KernelModel.v.

    The shape of component k is the digit parset.str_type_tf_mix[k] - '0'
    (src/read.c:498-516 only lets the digits 0 to 3 through): 0 Gaussian, 1
    top-hat, 2 gamma, 3 exponential.  [ty] is that function of k.  [erfc] is
    the C library function, [log_erfc] the one of the GNU Scientific Library.
    Amplitudes are always stored as logarithms here. *)
From Coq Require Import Reals List Arith.
From Verif Require Import SemisepModel KernelModel.
Import ListNotations.
Open Scope R_scope.

Section Mix.
Variables log_erfc erfc : R -> R.

(** ** Pairs of components with different shapes

    Arguments: taud, amplitude, centre and width of the first and of the second
    component, time difference Dt. *)

(** Sll_gau_exp, src/mc_mmap.c:1707-1737; the same text in Sll_array_gau_exp,
    3215-3257, and Sll2_array_gau_exp, 4329-4371 *)
Definition mix_gau_exp (taud fg1 tau1 wid1 fg2 c2 wid2 Dt : R) : R :=
  let tau2 := c2 - wid2 in
  let fg12 := fg1 * fg2 / 2 in
  let diff := taud - wid2 in
  let St :=
    if Rlt_dec EPS (Rabs diff) then
      let C1 := taud / (taud + wid2) in
      let C2 := taud / (taud - wid2) in
      let DT := Dt - (tau1 - tau2) in
      C1 * exp (- DT / taud + wid1 * wid1 / (taud * taud) / 2 + log_erfc (- 1 / sqrt 2 * (DT / wid1 - wid1 / taud)))
      + C2 * exp (DT / taud + wid1 * wid1 / (taud * taud) / 2 + log_erfc (1 / sqrt 2 * (DT / wid1 + wid1 / taud)))
      + (C1 - C2) * exp (DT / wid2 + wid1 * wid1 / (wid2 * wid2) / 2 + log_erfc (1 / sqrt 2 * (DT / wid1 + wid1 / wid2)))
    else
      let C1 := taud / (taud + wid2) in
      let DT := Dt - (tau1 - tau2) in
      let fac := DT / wid1 + wid1 / taud in
      C1 * exp (- DT / taud + wid1 * wid1 / (taud * taud) / 2 + log_erfc (- 1 / sqrt 2 * (DT / wid1 - wid1 / taud)))
      + C1 * exp (DT / taud + wid1 * wid1 / (taud * taud) / 2 + log_erfc (1 / sqrt 2 * fac))
      + wid1 / wid2 * (exp (- DT * DT / (wid1 * wid1) / 2) / sqrt (PI / 2)
                       - fac * exp (DT / taud + wid1 * wid1 / (taud * taud) / 2 + log_erfc (1 / sqrt 2 * fac))) in
  St * fg12.

(** Sll_gau_gam, src/mc_mmap.c:1767-1802; the same text in Sll_array_gau_gam,
    3362-3410, and Sll2_array_gau_gam, 4252-4300 *)
Definition mix_gau_gam (taud fg1 tau1 wid1 fg2 c2 wid2 Dt : R) : R :=
  let tau2 := c2 - 2 * wid2 in
  let fg12 := fg1 * fg2 / 2 in
  let diff := taud - wid2 in
  let St :=
    if Rlt_dec EPS (Rabs diff) then
      let C1 := taud / (taud + wid2) in
      let C2 := taud / (taud - wid2) in
      let DT := Dt - (tau1 - tau2) in
      let fac := DT / wid1 + wid1 / wid2 in
      C1 * C1 * exp (- DT / taud + wid1 * wid1 / (taud * taud) / 2 + log_erfc (- 1 / sqrt 2 * (DT / wid1 - wid1 / taud)))
      + C2 * C2 * exp (DT / taud + wid1 * wid1 / (taud * taud) / 2 + log_erfc (1 / sqrt 2 * (DT / wid1 + wid1 / taud)))
      + (C1 * C1 - C2 * C2) * exp (DT / wid2 + wid1 * wid1 / (wid2 * wid2) / 2 + log_erfc (1 / sqrt 2 * (DT / wid1 + wid1 / wid2)))
      + (C1 - C2) * wid1 / wid2 * (exp (- DT * DT / (wid1 * wid1) / 2) / sqrt (PI / 2)
                                   - fac * exp (DT / wid2 + wid1 * wid1 / (wid2 * wid2) / 2 + log_erfc (fac / sqrt 2)))
    else
      let C1 := taud / (taud + wid2) in
      let DT := Dt - (tau1 - tau2) in
      let fac := DT / wid1 + wid1 / taud in
      C1 * C1 * exp (- DT / taud + wid1 * wid1 / (taud * taud) / 2 + log_erfc (- 1 / sqrt 2 * (DT / wid1 - wid1 / taud)))
      + C1 * C1 * exp (DT / taud + wid1 * wid1 / (taud * taud) / 2 + log_erfc (fac / sqrt 2))
      + C1 * wid1 / wid2 * (exp (- DT * DT / (wid1 * wid1) / 2) / sqrt (PI / 2)
                            - fac * exp (DT / wid2 + wid1 * wid1 / (wid2 * wid2) / 2 + log_erfc (fac / sqrt 2)))
      + wid1 * wid1 / (wid2 * wid2) / 2
        * ((1 + fac * fac) * exp (DT / taud + wid1 * wid1 / (taud * taud) / 2 + log_erfc (fac / sqrt 2))
           - fac * exp (- DT * DT / (wid1 * wid1) / 2) / sqrt (PI / 2)) in
  St * fg12.

(** Sll_exp_gam, src/mc_mmap.c:2155-2201; the same text in Sll2_array_exp_gam,
    4762-4812.  [deg] is the factor of exp(-DT/taud) in the second case, which
    is written differently in Sll_array_exp_gam and Sll_array_gam_exp. *)
Definition mix_exp_gam_with (deg : R -> R -> R) (taud fg1 c1 wid1 fg2 c2 wid2 Dt : R) : R :=
  let tau1 := c1 - wid1 in
  let tau2 := c2 - 2 * wid2 in
  let fg12 := fg1 * fg2 / (wid1 * wid2 * wid2) in
  let p1 := (taud - wid1) / taud / wid1 in
  let p2 := (taud + wid1) / taud / wid1 in
  let p3 := (taud + wid2) / taud / wid2 in
  let p4 := (taud - wid2) / taud / wid2 in
  let p5 := (wid1 + wid2) / wid1 / wid2 in
  let DT := Dt - (tau1 - tau2) in
  let St :=
    if Rle_dec 0 DT then
      if Rlt_dec EPS (Rabs (taud - wid1)) then
        1 / (p1 * p3 * p3) * exp (- DT / taud) + (1 / p2 - 1 / p1) / (p5 * p5) * exp (- DT / wid1)
      else
        deg p3 DT * exp (- DT / taud) + 1 / (p2 * p5 * p5) * exp (- DT / wid1)
    else
      if Rlt_dec EPS (Rabs (taud - wid2)) then
        1 / (p2 * p4 * p4) * exp (DT / taud)
        + ((1 / p3 - 1 / p4) * (1 / p5 / p5 - DT / p5) + (1 / p3 / p3 - 1 / p4 / p4) / p5) * exp (DT / wid2)
      else
        (1 / (p2 * p2 * p2) - DT / (p2 * p2) + DT * DT / (2 * p2)) * exp (DT / taud)
        + (1 / (p5 * p3 * p3) + (1 / p5 / p5 - DT / p5) / p3) * exp (DT / wid2) in
  St * fg12.
Definition mix_exp_gam := mix_exp_gam_with (fun p3 DT => 1 / (p3 * p3 * p3) * (2 + DT * p3)).
(** Sll_array_exp_gam, src/mc_mmap.c:3505-3556 *)
Definition mix_exp_gam_array := mix_exp_gam_with (fun p3 DT => 2 / (p3 * p3 * p3) + DT / (p3 * p3)).

(** Sll_gau_tophat, src/mc_mmap.c:2310-2323; the same text in
    Sll_array_gau_tophat, 3741-3756, and Sll2_array_gau_tophat, 4927-4942 *)
Definition mix_gau_top (taud fg1 tau1 wg1 fg2 tau2 wg2 Dt : R) : R :=
  let fg12 := fg1 * fg2 * taud / wg2 / 4 in
  let DT := Dt - (tau1 - tau2) in
  let St :=
    2 * (erfc ((- wg2 + DT) / wg1 / sqrt 2) - erfc ((wg2 + DT) / wg1 / sqrt 2))
    + exp (wg2 / taud - DT / taud + wg1 * wg1 / taud / taud / 2 + log_erfc (((wg2 - DT) / wg1 + wg1 / taud) / sqrt 2))
    + exp (wg2 / taud + DT / taud + wg1 * wg1 / taud / taud / 2 + log_erfc (((wg2 + DT) / wg1 + wg1 / taud) / sqrt 2))
    - exp (- wg2 / taud + DT / taud + wg1 * wg1 / taud / taud / 2 + log_erfc (((- wg2 + DT) / wg1 + wg1 / taud) / sqrt 2))
    - exp (- wg2 / taud - DT / taud + wg1 * wg1 / taud / taud / 2 + log_erfc (((- wg2 - DT) / wg1 + wg1 / taud) / sqrt 2)) in
  St * fg12.

(** Sll_exp_tophat, src/mc_mmap.c:2382-2434; the same text in
    Sll_array_exp_tophat, 3895-3952, and Sll2_array_exp_tophat, 5009-5066 *)
Definition mix_exp_top (taud fg1 c1 wg1 fg2 tau2 wg2 Dt : R) : R :=
  let tau1 := c1 - wg1 in
  let fg12 := fg1 * fg2 / wg1 / wg2 / 2 in
  let DT := Dt - (tau1 - tau2) in
  let p1 := (taud + wg1) / taud / wg1 in
  let p2 := (taud - wg1) / taud / wg1 in
  let diff := taud - wg1 in
  let St :=
    if Rle_dec DT (- wg2) then
      1 / p1 * taud * exp (DT / taud) * (exp (wg2 / taud) - exp (- wg2 / taud))
    else if Rle_dec DT wg2 then
      if Rlt_dec EPS (Rabs diff) then
        2 * taud * wg1 * (1 - exp (- (wg2 + DT) / wg1))
        + (1 / p1 + 1 / p2) * taud * exp (- (wg2 + DT) / wg1)
        - 1 / p1 * taud * exp (DT / taud - wg2 / taud) - 1 / p2 * taud * exp (- DT / taud - wg2 / taud)
      else
        2 * taud * wg1 * (1 - exp (- (wg2 + DT) / wg1))
        + 1 / p1 * taud * exp (- (wg2 + DT) / wg1) - 1 / p1 * taud * exp (DT / taud - wg2 / taud)
        - taud * (wg2 + DT) * exp (- (wg2 + DT) / taud)
    else
      if Rlt_dec EPS (Rabs diff) then
        1 / p2 * taud * (exp (- (- wg2 + DT) / taud) - exp (- (wg2 + DT) / taud))
        + (1 / p1 - 1 / p2) * wg1 * (exp (- (- wg2 + DT) / wg1) - exp (- (wg2 + DT) / wg1))
      else
        1 / p1 * wg1 * (exp (- (- wg2 + DT) / wg1) - exp (- (wg2 + DT) / wg1))
        + taud * exp (- (- wg2 + DT) / taud) * (taud - wg2 + DT) - taud * exp (- (wg2 + DT) / taud) * (taud + wg2 + DT) in
  St * fg12.

(** Sll_gam_tophat, src/mc_mmap.c:2609-2672; the same text in
    Sll_array_gam_tophat, 4056-4124, and Sll2_array_gam_tophat, 5246-5315 *)
Definition mix_gam_top (taud fg1 c1 wg1 fg2 tau2 wg2 Dt : R) : R :=
  let tau1 := c1 - 2 * wg1 in
  let fg12 := fg1 * fg2 / (wg1 * wg1) / wg2 / 2 in
  let DT := Dt - (tau1 - tau2) in
  let p1 := (taud + wg1) / taud / wg1 in
  let p2 := (taud - wg1) / taud / wg1 in
  let diff := taud - wg1 in
  let St :=
    if Rle_dec DT (- wg2) then
      1 / (p1 * p1) * taud * exp (DT / taud) * (exp (wg2 / taud) - exp (- wg2 / taud))
    else if Rle_dec DT wg2 then
      if Rlt_dec EPS (Rabs diff) then
        2 * taud * wg1 * wg1 * (1 - exp (- (wg2 + DT) / wg1) * ((wg2 + DT) / wg1 + 1))
        + 1 / (p1 * p1) * taud * exp (- (wg2 + DT) / wg1) * (p1 * (wg2 + DT) + 1)
        + 1 / (p2 * p2) * taud * exp (- (wg2 + DT) / wg1) * (p2 * (wg2 + DT) + 1)
        - 1 / (p1 * p1) * taud * exp (- (wg2 - DT) / taud) - 1 / (p2 * p2) * taud * exp (- (wg2 + DT) / taud)
      else
        2 * taud * wg1 * wg1 * (1 - exp (- (wg2 + DT) / wg1) * ((wg2 + DT) / wg1 + 1))
        + 1 / (p1 * p1) * taud * exp (- (wg2 + DT) / wg1) * (p1 * (wg2 + DT) + 1)
        - 1 / (p1 * p1) * taud * exp (- (wg2 - DT) / taud)
        - 1 / 2 * taud * (wg2 + DT) * (wg2 + DT) * exp (- (wg2 + DT) / taud)
    else
      let p3 := (- wg2 + DT) / wg1 in
      let p4 := (wg2 + DT) / wg1 in
      if Rlt_dec EPS (Rabs diff) then
        1 / (p2 * p2) * taud * (exp (- (- wg2 + DT) / taud) - exp (- (wg2 + DT) / taud))
        + (1 / (p1 * p1) - 1 / (p2 * p2)) * wg1 * (exp (- p3) - exp (- p4))
        + (1 / p1 - 1 / p2) * wg1 * wg1 * (exp (- p3) * (p3 + 1) - exp (- p4) * (p4 + 1))
      else
        let p5 := (- wg2 + DT) / taud in
        let p6 := (wg2 + DT) / taud in
        1 / (p1 * p1) * wg1 * (exp (- p3) - exp (- p4))
        + 1 / p1 * wg1 * wg1 * (exp (- p3) * (p3 + 1) - exp (- p4) * (p4 + 1))
        + 1 / 2 * (taud * taud * taud) * (exp (- p5) * (p5 * p5 + 2 * p5 + 2) - exp (- p6) * (p6 * p6 + 2 * p6 + 2)) in
  St * fg12.

(** ** The routines for pairs of components

    A routine gets taud, the parameters of the component of line 1, those of the
    component of line 2, and the two times.  Six of the sixteen routines
    exchange the components and take Dt = t2 - t1 instead of t1 - t2; the text
    of their formulas is that of the routine with the two names exchanged. *)
Definition kern := R -> R -> R -> R -> R -> R -> R -> R -> R.
Definition pairfun := R -> R -> R -> R -> R -> R -> R -> R -> R -> R.
Definition direct (k : kern) : pairfun := fun taud f1 c1 w1 f2 c2 w2 t1 t2 => k taud f1 c1 w1 f2 c2 w2 (t1 - t2).
Definition swapped (k : kern) : pairfun := fun taud f1 c1 w1 f2 c2 w2 t1 t2 => k taud f2 c2 w2 f1 c1 w1 (t2 - t1).
(** the array routines write -(t1-t2), except Sll_array_exp_gau and
    Sll_array_gam_gau (3296, 3315, 3450, 3472) *)
Definition swapped' (k : kern) : pairfun := fun taud f1 c1 w1 f2 c2 w2 t1 t2 => k taud f2 c2 w2 f1 c1 w1 (- (t1 - t2)).

(** function pointer tables, src/mc_mmap.c:877-949; entry type1*4 + type2.
    Definitions of the routines: Sll_gau_gau 1621-1680, Sll_gau_tophat
    2287-2325, Sll_gau_gam 1742-1805, Sll_gau_exp 1682-1740, Sll_tophat_gau
    2327-2365, Sll_tophat_tophat 2206-2285, Sll_tophat_gam 2511-2592,
    Sll_tophat_exp 2439-2509, Sll_gam_gau 1880-1943, Sll_gam_tophat 2594-2675,
    Sll_gam_gam 1807-1878, Sll_gam_exp 1948-2013, Sll_exp_gau 2079-2137,
    Sll_exp_tophat 2367-2437, Sll_exp_gam 2139-2204, Sll_exp_exp 2015-2078.
    For two components of one shape the text is that of the routines of
    src/mc_line.c modelled in KernelModel.v. *)
Definition FP_Sll : list pairfun :=
  [ direct (sll1_gauss log_erfc); direct mix_gau_top; direct mix_gau_gam; direct mix_gau_exp;
    swapped mix_gau_top; direct sll1_tophat; swapped mix_gam_top; swapped mix_exp_top;
    swapped mix_gau_gam; direct mix_gam_top; direct sll1_gamma; swapped mix_exp_gam;
    swapped mix_gau_exp; direct mix_exp_top; direct mix_exp_gam; direct sll1_exp ].
(** Sll_array_gau_gau 2992-3044, Sll_array_gam_gam 3046-3121, Sll_array_exp_exp
    3123-3190, Sll_array_tophat_tophat 3633-3716; the others as cited above and
    Sll_array_exp_gau 3262-3330, Sll_array_gam_gau 3415-3489, Sll_array_gam_exp
    3562-3631, Sll_array_tophat_gau 3763-3806, Sll_array_tophat_exp 3808-3880,
    Sll_array_tophat_gam 3957-4041 *)
Definition FP_Sll_array : list pairfun :=
  [ direct (sll1_array_gauss log_erfc); direct mix_gau_top; direct mix_gau_gam; direct mix_gau_exp;
    swapped' mix_gau_top; direct sll1_tophat; swapped' mix_gam_top; swapped' mix_exp_top;
    swapped mix_gau_gam; direct mix_gam_top; direct sll1_gamma; swapped' mix_exp_gam_array;
    swapped mix_gau_exp; direct mix_exp_top; direct mix_exp_gam_array; direct sll1_exp ].
(** Sll2_array_gau_gau 4173-4226, Sll2_array_gam_gam 4376-4452,
    Sll2_array_gam_gau 4454-4529, Sll2_array_gam_exp 4532-4602,
    Sll2_array_exp_exp 4604-4672, Sll2_array_exp_gau 4674-4743,
    Sll2_array_tophat_tophat 4817-4901, Sll2_array_tophat_gau 4949-4993,
    Sll2_array_tophat_exp 5070-5143, Sll2_array_tophat_gam 5145-5230 *)
Definition FP_Sll2_array : list pairfun :=
  [ direct (sll1_array_gauss log_erfc); direct mix_gau_top; direct mix_gau_gam; direct mix_gau_exp;
    swapped' mix_gau_top; direct sll1_tophat; swapped' mix_gam_top; swapped' mix_exp_top;
    swapped' mix_gau_gam; direct mix_gam_top; direct sll1_gamma; swapped' mix_exp_gam;
    swapped' mix_gau_exp; direct mix_exp_top; direct mix_exp_gam; direct sll1_exp ].

(** continuum against one component: Slc_gauss_mmap 1406-1454, Slc_tophat_mmap
    1546-1590, Slc_gamma_mmap 1456-1499, Slc_exp_mmap 1501-1544, with the text
    of src/mc_line.c; arguments taud, amplitude, centre, width, tline - tcon *)
Definition onefun := R -> R -> R -> R -> R -> R.
Definition FP_Slc : list onefun := [ slc1_gauss log_erfc; slc1_tophat; slc1_gamma; slc1_exp ].
(** Slc_array_gauss_mmap 2748-2789, Slc_array_gamma_mmap 2791-2839,
    Slc_array_exp_mmap 2841-2889, Slc_array_tophat_mmap 2891-2938 *)
Definition FP_Slc_array : list onefun := [ slc1_array_gauss log_erfc; slc1_tophat; slc1_gamma; slc1_exp ].

Definition no_one : onefun := fun _ _ _ _ _ => 0.
Definition no_pair : pairfun := fun _ _ _ _ _ _ _ _ _ => 0.

Variable idx_con_pm : nat -> nat.
Variable idx_line_pm : nat -> nat -> nat.
Variable num_gaussian : nat.
Variable ty : nat -> nat.

(** what a routine reads from the parameter vector *)
Definition one_of (f : onefun) (pm : arr) (nds nls k : nat) (Dt : R) : R :=
  let taud := exp (pm (idx_con_pm nds + 2)%nat) in
  let idxk := (idx_line_pm nds nls + 1 + 3 * k)%nat in
  f taud (exp (pm (idxk + 0)%nat)) (pm (idxk + 1)%nat) (exp (pm (idxk + 2)%nat)) Dt.
Definition pair_of (f : pairfun) (pm : arr) (nds nls1 nls2 k1 k2 : nat) (t1 t2 : R) : R :=
  let taud := exp (pm (idx_con_pm nds + 2)%nat) in
  let idxk1 := (idx_line_pm nds nls1 + 1 + k1 * 3)%nat in
  let idxk2 := (idx_line_pm nds nls2 + 1 + k2 * 3)%nat in
  f taud (exp (pm (idxk1 + 0)%nat)) (pm (idxk1 + 1)%nat) (exp (pm (idxk1 + 2)%nat))
         (exp (pm (idxk2 + 0)%nat)) (pm (idxk2 + 1)%nat) (exp (pm (idxk2 + 2)%nat)) t1 t2.

(** Slc_mmap, src/mc_mmap.c:1391-1404 *)
Definition Slc_mmap (tcon tline : R) (pm : arr) (nds nls : nat) : R :=
  for_ 0 num_gaussian (fun k Stot => Stot + one_of (nth (ty k) FP_Slc no_one) pm nds nls k (tline - tcon)) 0.

(** Sll2_mmap, src/mc_mmap.c:2685-2703 *)
Definition Sll2_mmap (t1 t2 : R) (pm : arr) (nds nls1 nls2 : nat) : R :=
  for_ 0 num_gaussian (fun k1 Stot =>
    for_ 0 num_gaussian (fun k2 Stot =>
      Stot + pair_of (nth (ty k1 * 4 + ty k2)%nat FP_Sll no_pair) pm nds nls1 nls2 k1 k2 t1 t2) Stot) 0.
(** Sll_mmap, src/mc_mmap.c:1600-1619 *)
Definition Sll_mmap (t1 t2 : R) (pm : arr) (nds nls : nat) : R :=
  for_ 0 num_gaussian (fun k1 Stot =>
    for_ 0 num_gaussian (fun k2 Stot =>
      Stot + pair_of (nth (ty k1 * 4 + ty k2)%nat FP_Sll no_pair) pm nds nls nls k1 k2 t1 t2) Stot) 0.

(** Slc_array_mmap, src/mc_mmap.c:2712-2740; the state is Smat and the work
    array Smat_lc_buf *)
Definition Slc_array_mmap (tcon : arr) (ncon : nat) (tline : arr) (nline : nat) (pm : arr) (nds nls : nat) (Smat buf : arr) : arr * arr :=
  let Smat := for_ 0 ncon (fun i S => for_ 0 nline (fun j S => upd S (i * nline + j)%nat 0) S) Smat in
  for_ 0 num_gaussian (fun k '(Smat, buf) =>
    let f := nth (ty k) FP_Slc_array no_one in
    let buf := for_ 0 ncon (fun i B => for_ 0 nline (fun j B =>
      upd B (i * nline + j)%nat (one_of f pm nds nls k (tline j - tcon i))) B) buf in
    (for_ 0 (ncon * nline) (fun i S => upd S i (S i + buf i)) Smat, buf)) (Smat, buf).

(** Sll_array_mmap, src/mc_mmap.c:2949-2983: lower triangle only *)
Definition Sll_array_mmap (tline : arr) (nline : nat) (pm : arr) (nds nls : nat) (Smat buf : arr) : arr * arr :=
  let Smat := for_ 0 nline (fun i S => for_ 0 (i + 1) (fun j S => upd S (i * nline + j)%nat 0) S) Smat in
  for_ 0 num_gaussian (fun k1 st =>
    for_ 0 num_gaussian (fun k2 '(Smat, buf) =>
      let f := nth (ty k1 * 4 + ty k2)%nat FP_Sll_array no_pair in
      let buf := for_ 0 nline (fun i B => for_ 0 (i + 1) (fun j B =>
        upd B (i * nline + j)%nat (pair_of f pm nds nls nls k1 k2 (tline i) (tline j))) B) buf in
      (for_ 0 nline (fun i S => for_ 0 (i + 1) (fun j S =>
        upd S (i * nline + j)%nat (S (i * nline + j)%nat + buf (i * nline + j)%nat)) S) Smat, buf)) st) (Smat, buf).

(** Sll2_array_mmap, src/mc_mmap.c:4137-4171 *)
Definition Sll2_array_mmap (tline1 : arr) (nline1 : nat) (tline2 : arr) (nline2 : nat) (pm : arr) (nds nls1 nls2 : nat) (Smat buf : arr) : arr * arr :=
  let Smat := for_ 0 nline1 (fun i S => for_ 0 nline2 (fun j S => upd S (i * nline2 + j)%nat 0) S) Smat in
  for_ 0 num_gaussian (fun k1 st =>
    for_ 0 num_gaussian (fun k2 '(Smat, buf) =>
      let f := nth (ty k1 * 4 + ty k2)%nat FP_Sll2_array no_pair in
      let buf := for_ 0 nline1 (fun i B => for_ 0 nline2 (fun j B =>
        upd B (i * nline2 + j)%nat (pair_of f pm nds nls1 nls2 k1 k2 (tline1 i) (tline2 j))) B) buf in
      (for_ 0 nline1 (fun i S => for_ 0 nline2 (fun j S =>
        upd S (i * nline2 + j)%nat (S (i * nline2 + j)%nat + buf (i * nline2 + j)%nat)) S) Smat, buf)) st) (Smat, buf).
End Mix.
