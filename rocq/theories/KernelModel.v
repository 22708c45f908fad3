(** The covariance functions between a continuum and its lines,
    src/mc_line.c:2808-6187, over the real numbers (no rounding).

    Every routine exists twice: once with the amplitude of a component stored
    as a logarithm and once (suffix [_linear]) with the amplitude stored as it
    is.  Apart from [exp(pm[..])] against [pm[..]] for the amplitude the texts
    of the two are the same; [amp] below is that decoding ([exp] or the
    identity).

    The global tables idx_con_pm, idx_line_pm and num_gaussian (src/allvars.c)
    are section variables, as is gsl_sf_log_erfc from the GNU Scientific
    Library.  Arrays are total functions from indices to numbers, so accesses
    out of bounds are not modelled here. *)
From Coq Require Import Reals List Arith.
From Verif Require Import SemisepModel.
Import ListNotations.
Open Scope R_scope.

(** #define EPS (1.0e-5), src/allvars.h:30 *)
Definition EPS : R := / 100000.

Section Kernels.
Variable log_erfc : R -> R.
Variable amp : R -> R.
Variable idx_con_pm : nat -> nat.
Variable idx_line_pm : nat -> nat -> nat.
Variable num_gaussian : nat.

(** ** One component (continuum against line)

    The statements inside the loop over the components.  The arguments are
    taud, the amplitude, the centre and the width as decoded from the
    parameter vector, and the time difference Dt; the result is what is added
    to the sum. *)

(** Slc_gauss, src/mc_line.c:3318-3344 *)
Definition slc1_gauss (taud fg tau0 wg Dt : R) : R :=
  let DT := Dt - tau0 in
  let St := exp (- DT / taud + log_erfc (- (DT / wg - wg / taud) / sqrt 2) + wg * wg / 2 / taud / taud)
          + exp (DT / taud + log_erfc ((DT / wg + wg / taud) / sqrt 2) + wg * wg / 2 / taud / taud) in
  St * (1 / 2 * fg).

(** Slc_array_gauss, src/mc_line.c:3424-3449: the width over taud and half its
    square are computed once per component *)
Definition slc1_array_gauss (taud fg tau0 wg : R) : R -> R :=
  let wt := wg / taud in
  let wt2 := wt * wt / 2 in
  fun Dt =>
  let DT := Dt - tau0 in
  let St := exp (- DT / taud + log_erfc (- (DT / wg - wt) / sqrt 2) + wt2)
          + exp (DT / taud + log_erfc ((DT / wg + wt) / sqrt 2) + wt2) in
  St * (1 / 2 * fg).

(** Slc_tophat, src/mc_line.c:3531-3553, and Slc_array_tophat, 3627-3659 *)
Definition slc1_tophat (taud fg tau0 wg Dt : R) : R :=
  let fg := fg * (taud / 2 / wg) in
  let DT := Dt - tau0 in
  let St :=
    if Rlt_dec DT (- wg) then exp ((DT + wg) / taud) - exp ((DT - wg) / taud)
    else if Rlt_dec DT wg then 2 - exp (- (DT + wg) / taud) - exp ((DT - wg) / taud)
    else exp (- (DT - wg) / taud) - exp (- (DT + wg) / taud) in
  St * fg.

(** Slc_gamma, src/mc_line.c:4464-4488, and Slc_array_gamma, 4566-4598; [c] is
    pm[idxk+1], the centre *)
Definition slc1_gamma (taud fg c tau1 Dt : R) : R :=
  let tau0 := c - 2 * tau1 in
  let p1 := (taud + tau1) / taud in
  let p2 := (taud - tau1) / taud in
  let DT := Dt - tau0 in
  let St :=
    if Rle_dec DT 0 then exp (DT / taud) / p1 / p1
    else if Rlt_dec (Rabs p2) EPS
    then exp (- DT / taud) * ((DT / taud) * (DT / taud) / 2 + (p1 * DT / taud + 1) / p1 / p1)
    else exp (- DT / taud) / p2 / p2
         + exp (- DT / tau1) * (- (p2 * DT / tau1 + 1) / p2 / p2 + (p1 * DT / tau1 + 1) / p1 / p1) in
  St * fg.

(** Slc_exp, src/mc_line.c:5373-5397, and Slc_array_exp, 5475-5507 *)
Definition slc1_exp (taud fg c tau1 Dt : R) : R :=
  let tau0 := c - tau1 in
  let p1 := (taud + tau1) / taud in
  let p2 := (taud - tau1) / taud in
  let DT := Dt - tau0 in
  let St :=
    if Rle_dec DT 0 then exp (DT / taud) / p1
    else if Rlt_dec (Rabs p2) EPS
    then exp (- DT / taud) * (DT / taud + 1 / p1)
    else exp (- DT / taud) / p2 + exp (- DT / tau1) * (- 1 / p2 + 1 / p1) in
  St * fg.

(** ** A pair of components (line against line) *)

(** Sll_gauss, src/mc_line.c:2837-2862, and Sll2_gauss, 3097-3108 *)
Definition sll1_gauss (taud fg1 tau1 wg1 fg2 tau2 wg2 Dt : R) : R :=
  let DT := Dt - (tau1 - tau2) in
  let A := sqrt (wg1 * wg1 + wg2 * wg2) in
  let St := exp (- DT / taud + log_erfc (- (DT / A - A / taud) / sqrt 2) + A * A / 2 / taud / taud)
          + exp (DT / taud + log_erfc ((DT / A + A / taud) / sqrt 2) + A * A / 2 / taud / taud) in
  St * (1 / 2 * fg1 * fg2).

(** Sll_array_gauss, src/mc_line.c:2971-2993, and Sll2_array_gauss, 3204-3226 *)
Definition sll1_array_gauss (taud fg1 tau1 wg1 fg2 tau2 wg2 : R) : R -> R :=
  let A := sqrt (wg1 * wg1 + wg2 * wg2) in
  let At := A / taud in
  let At2 := At * At / 2 in
  let fg12 := fg1 * fg2 / 2 in
  fun Dt =>
  let DT := Dt - (tau1 - tau2) in
  let St := exp (- DT / taud + log_erfc (- (DT / A - At) / sqrt 2) + At2)
          + exp (DT / taud + log_erfc ((DT / A + At) / sqrt 2) + At2) in
  St * fg12.

(** Sll_tophat, src/mc_line.c:3756-3802; the same text in Sll_array_tophat,
    3926-3980, Sll2_tophat, 4113-4159, and Sll2_array_tophat, 4285-4339.  The
    text of the five branches is the same in the four routines up to the order
    of the summands. *)
Definition sll1_tophat (taud fg1 tau1 wg1 fg2 tau2 wg2 Dt : R) : R :=
  let fg12 := fg1 / wg1 * fg2 / wg2 / 4 * taud * taud in
  let '(wh, wl) := if Rge_dec wg1 wg2 then (wg1, wg2) else (wg2, wg1) in
  let DT := Dt - (tau1 - tau2) in
  let St :=
    if Rlt_dec DT (- wh - wl) then
      exp ((DT + wh + wl) / taud) + exp ((DT - wh - wl) / taud)
      - exp ((DT + wh - wl) / taud) - exp ((DT - wh + wl) / taud)
    else if Rlt_dec DT (- wh + wl) then
      exp ((DT - wh - wl) / taud) + exp (- (DT + wh + wl) / taud)
      - exp ((DT + wh - wl) / taud) - exp ((DT - wh + wl) / taud)
      + 2 * (DT + wh + wl) / taud
    else if Rlt_dec DT (wh - wl) then
      exp ((DT - wh - wl) / taud) + exp (- (DT + wh + wl) / taud)
      - exp ((DT - wh + wl) / taud) - exp (- (DT + wh - wl) / taud)
      + 4 * wl / taud
    else if Rlt_dec DT (wh + wl) then
      exp (- (DT + wh + wl) / taud) + exp ((DT - wh - wl) / taud)
      - exp (- (DT - wh + wl) / taud) - exp (- (DT + wh - wl) / taud)
      - 2 * (DT - wh - wl) / taud
    else
      exp (- (DT - wh - wl) / taud) + exp (- (DT + wh + wl) / taud)
      - exp (- (DT - wh + wl) / taud) - exp (- (DT + wh - wl) / taud) in
  St * fg12.

(** Sll_gamma, src/mc_line.c:4692-4738; the same text in Sll_array_gamma,
    4852-4908, Sll2_gamma, 5031-5078, and Sll2_array_gamma, 5193-5249 *)
Definition sll1_gamma (taud fg1 c1 tau1 fg2 c2 tau2 Dt : R) : R :=
  let tau01 := c1 - 2 * tau1 in
  let p1 := (taud - tau1) / taud in
  let p2 := (taud + tau1) / taud in
  let tau02 := c2 - 2 * tau2 in
  let fg12 := fg1 * fg2 in
  let p3 := (taud + tau2) / taud in
  let p4 := (taud - tau2) / taud in
  let p51 := (tau1 + tau2) / tau1 in
  let p52 := (tau1 + tau2) / tau2 in
  let DT := Dt - (tau01 - tau02) in
  let St :=
    if Rle_dec DT 0 then
      if Rlt_dec (Rabs p4) EPS then
        let tmp := p2 * DT / tau1 in
        exp (DT / taud) * ((tau1 / tau2) * (tau1 / tau2) / (p2 * p2 * p2 * p2) * (3 - 2 * tmp + tmp * tmp / 2)
                           + (1 - p3 * DT / tau2 + 2 * p3 / p51) / (p3 * p3 * p52 * p52))
      else
        exp (DT / taud) / (p2 * p2 * p4 * p4)
        + exp (DT / tau2) / (p4 * p4 * p52 * p52)
          * (- (1 - p4 * DT / tau2 + 2 * p4 / p51)
             + (1 - p3 * DT / tau2 + 2 * p3 / p51) * (p4 * p4) / (p3 * p3))
    else
      if Rlt_dec (Rabs p1) EPS then
        let tmp := p3 * DT / tau2 in
        exp (- DT / taud) * ((tau2 / tau1) * (tau2 / tau1) / (p3 * p3 * p3 * p3) * (3 + 2 * tmp + tmp * tmp / 2)
                             + (1 + p2 * DT / tau1 + 2 * p2 / p52) / (p2 * p2 * p51 * p51))
      else
        exp (- DT / taud) / (p1 * p1 * p3 * p3)
        + exp (- DT / tau1) / (p1 * p1 * p51 * p51)
          * (- (1 + p1 * DT / tau1 + 2 * p1 / p52)
             + (1 + p2 * DT / tau1 + 2 * p2 / p52) * (p1 * p1) / (p2 * p2)) in
  St * fg12.

(** Sll_exp, src/mc_line.c:5601-5639; the same text in Sll_array_exp,
    5745-5793, Sll2_exp, 5908-5947, and Sll2_array_exp, 6054-6102 *)
Definition sll1_exp (taud fg1 c1 tau1 fg2 c2 tau2 Dt : R) : R :=
  let tau01 := c1 - tau1 in
  let p1 := (taud - tau1) / taud in
  let p2 := (taud + tau1) / taud in
  let tau02 := c2 - tau2 in
  let fg12 := fg1 * fg2 in
  let p3 := (taud + tau2) / taud in
  let p4 := (taud - tau2) / taud in
  let p51 := (tau1 + tau2) / tau1 in
  let p52 := (tau1 + tau2) / tau2 in
  let DT := Dt - (tau01 - tau02) in
  let St :=
    if Rle_dec DT 0 then
      if Rlt_dec (Rabs p4) EPS then
        exp (DT / taud) * (- DT / tau2 / p2 + tau1 / tau2 * 1 / p2 / p2 + 1 / (p3 * p52))
      else
        exp (DT / taud) / (p2 * p4)
        + exp (DT / tau2) / (p4 * p52) * (- 1 + p4 / p3)
    else
      if Rlt_dec (Rabs p1) EPS then
        exp (- DT / taud) * (DT / tau1 / p3 + tau2 / tau1 * 1 / p3 / p3 + 1 / (p2 * p51))
      else
        exp (- DT / taud) / (p1 * p3)
        + exp (- DT / tau1) / (p1 * p51) * (- 1 + p1 / p2) in
  St * fg12.

(** ** The loops

    The loops around these statements are the same in all four families:
    [one] and [pair] are the statements above.  The first line of each routine
    reads taud = exp(pm[idx_con_pm[nds]+2]); component k of a line sits at
    idx_line_pm[nds][nls] + 1 + 3k. *)

(** src/mc_line.c:3301-3348 (Slc_gauss), 3515-3557, 4450-4492, 5359-5401 *)
Definition Slc_of (one : R -> R -> R -> R -> R -> R) (pm : arr) (tcon tline : R) (nds nls : nat) : R :=
  let taud := exp (pm (idx_con_pm nds + 2)%nat) in
  let Dt := tline - tcon in
  let idx := idx_line_pm nds nls in
  for_ 0 num_gaussian (fun k Sttot =>
    let idxk := (idx + 1 + 3 * k)%nat in
    let fg := amp (pm (idxk + 0)%nat) in
    let tau0 := pm (idxk + 1)%nat in
    let wg := exp (pm (idxk + 2)%nat) in
    Sttot + one taud fg tau0 wg Dt) 0.

(** src/mc_line.c:3405-3453 (Slc_array_gauss), 3609-3664, 4548-4603, 5457-5512 *)
Definition Slc_array_of (one : R -> R -> R -> R -> R -> R) (tcon : arr) (ncon : nat) (tline : arr) (nline : nat)
    (pm : arr) (nds nls : nat) (Smat : arr) : arr :=
  let taud := exp (pm (idx_con_pm nds + 2)%nat) in
  let idx := idx_line_pm nds nls in
  let Smat := for_ 0 ncon (fun i S => for_ 0 nline (fun j S => upd S (i * nline + j)%nat 0) S) Smat in
  for_ 0 num_gaussian (fun k S =>
    let idxk := (idx + 1 + 3 * k)%nat in
    let fg := amp (pm (idxk + 0)%nat) in
    let tau0 := pm (idxk + 1)%nat in
    let wg := exp (pm (idxk + 2)%nat) in
    for_ 0 ncon (fun i S => for_ 0 nline (fun j S =>
      let Dt := tline j - tcon i in
      upd S (i * nline + j)%nat (S (i * nline + j)%nat + one taud fg tau0 wg Dt)) S) S) Smat.

(** Sll2: src/mc_line.c:3070-3114 (Sll2_gauss), 4086-4164, 5013-5083, 5890-5952.
    Sll (2811-2868, 3730-3807, 4675-4744, 5584-5645) is the same text with both
    line indices equal. *)
Definition Sll2_of (pair : R -> R -> R -> R -> R -> R -> R -> R -> R) (pm : arr) (t1 t2 : R) (nds nls1 nls2 : nat) : R :=
  let taud := exp (pm (idx_con_pm nds + 2)%nat) in
  let Dt := t1 - t2 in
  let idx1 := idx_line_pm nds nls1 in
  let idx2 := idx_line_pm nds nls2 in
  for_ 0 num_gaussian (fun k1 Sttot =>
    let idxk1 := (idx1 + 1 + k1 * 3)%nat in
    let fg1 := amp (pm (idxk1 + 0)%nat) in
    let tau1 := pm (idxk1 + 1)%nat in
    let wg1 := exp (pm (idxk1 + 2)%nat) in
    for_ 0 num_gaussian (fun k2 Sttot =>
      let idxk2 := (idx2 + 1 + k2 * 3)%nat in
      let fg2 := amp (pm (idxk2 + 0)%nat) in
      let tau2 := pm (idxk2 + 1)%nat in
      let wg2 := exp (pm (idxk2 + 2)%nat) in
      Sttot + pair taud fg1 tau1 wg1 fg2 tau2 wg2 Dt) Sttot) 0.
Definition Sll_of pair (pm : arr) (t1 t2 : R) (nds nls : nat) : R := Sll2_of pair pm t1 t2 nds nls nls.

(** src/mc_line.c:2939-2998 (Sll_array_gauss), 3895-3985, 4831-4913, 5724-5798:
    only the lower triangle is filled *)
Definition Sll_array_of (pair : R -> R -> R -> R -> R -> R -> R -> R -> R) (tline : arr) (nline : nat)
    (pm : arr) (nds nls : nat) (Smat : arr) : arr :=
  let taud := exp (pm (idx_con_pm nds + 2)%nat) in
  let idx := idx_line_pm nds nls in
  let Smat := for_ 0 nline (fun i S => for_ 0 (i + 1) (fun j S => upd S (i * nline + j)%nat 0) S) Smat in
  for_ 0 num_gaussian (fun k1 S =>
    let idxk1 := (idx + 1 + k1 * 3)%nat in
    let fg1 := amp (pm (idxk1 + 0)%nat) in
    let tau1 := pm (idxk1 + 1)%nat in
    let wg1 := exp (pm (idxk1 + 2)%nat) in
    for_ 0 num_gaussian (fun k2 S =>
      let idxk2 := (idx + 1 + k2 * 3)%nat in
      let fg2 := amp (pm (idxk2 + 0)%nat) in
      let tau2 := pm (idxk2 + 1)%nat in
      let wg2 := exp (pm (idxk2 + 2)%nat) in
      for_ 0 nline (fun i S => for_ 0 (i + 1) (fun j S =>
        let Dt := tline i - tline j in
        upd S (i * nline + j)%nat (S (i * nline + j)%nat + pair taud fg1 tau1 wg1 fg2 tau2 wg2 Dt)) S) S) S) Smat.

(** src/mc_line.c:3171-3231 (Sll2_array_gauss), 4253-4344, 5171-5254, 6032-6107 *)
Definition Sll2_array_of (pair : R -> R -> R -> R -> R -> R -> R -> R -> R) (tline1 : arr) (nline1 : nat)
    (tline2 : arr) (nline2 : nat) (pm : arr) (nds nls1 nls2 : nat) (Smat : arr) : arr :=
  let taud := exp (pm (idx_con_pm nds + 2)%nat) in
  let idx1 := idx_line_pm nds nls1 in
  let idx2 := idx_line_pm nds nls2 in
  let Smat := for_ 0 nline1 (fun i S => for_ 0 nline2 (fun j S => upd S (i * nline2 + j)%nat 0) S) Smat in
  for_ 0 num_gaussian (fun k1 S =>
    let idxk1 := (idx1 + 1 + k1 * 3)%nat in
    let fg1 := amp (pm (idxk1 + 0)%nat) in
    let tau1 := pm (idxk1 + 1)%nat in
    let wg1 := exp (pm (idxk1 + 2)%nat) in
    for_ 0 num_gaussian (fun k2 S =>
      let idxk2 := (idx2 + 1 + k2 * 3)%nat in
      let fg2 := amp (pm (idxk2 + 0)%nat) in
      let tau2 := pm (idxk2 + 1)%nat in
      let wg2 := exp (pm (idxk2 + 2)%nat) in
      for_ 0 nline1 (fun i S => for_ 0 nline2 (fun j S =>
        let Dt := tline1 i - tline2 j in
        upd S (i * nline2 + j)%nat (S (i * nline2 + j)%nat + pair taud fg1 tau1 wg1 fg2 tau2 wg2 Dt)) S) S) S) Smat.

(** ** The routines *)
Definition Slc_gauss := Slc_of slc1_gauss.                              (* 3301-3348, linear 3353-3400 *)
Definition Slc_array_gauss := Slc_array_of slc1_array_gauss.            (* 3405-3453, linear 3458-3506 *)
Definition Slc_tophat := Slc_of slc1_tophat.                            (* 3515-3557 *)
Definition Slc_array_tophat := Slc_array_of slc1_tophat.                (* 3609-3664 *)
Definition Slc_gamma := Slc_of slc1_gamma.                              (* 4450-4492 *)
Definition Slc_array_gamma := Slc_array_of slc1_gamma.                  (* 4548-4603 *)
Definition Slc_exp := Slc_of slc1_exp.                                  (* 5359-5401 *)
Definition Slc_array_exp := Slc_array_of slc1_exp.                      (* 5457-5512 *)
Definition Sll_gauss := Sll_of sll1_gauss.                              (* 2811-2868 *)
Definition Sll_array_gauss := Sll_array_of sll1_array_gauss.            (* 2939-2998 *)
Definition Sll2_gauss := Sll2_of sll1_gauss.                            (* 3070-3114 *)
Definition Sll2_array_gauss := Sll2_array_of sll1_array_gauss.          (* 3171-3231 *)
Definition Sll_tophat := Sll_of sll1_tophat.                            (* 3730-3807 *)
Definition Sll_array_tophat := Sll_array_of sll1_tophat.                (* 3895-3985 *)
Definition Sll2_tophat := Sll2_of sll1_tophat.                          (* 4086-4164 *)
Definition Sll2_array_tophat := Sll2_array_of sll1_tophat.              (* 4253-4344 *)
Definition Sll_gamma := Sll_of sll1_gamma.                              (* 4675-4744 *)
Definition Sll_array_gamma := Sll_array_of sll1_gamma.                  (* 4831-4913 *)
Definition Sll2_gamma := Sll2_of sll1_gamma.                            (* 5013-5083 *)
Definition Sll2_array_gamma := Sll2_array_of sll1_gamma.                (* 5171-5254 *)
Definition Sll_exp := Sll_of sll1_exp.                                  (* 5584-5645 *)
Definition Sll_array_exp := Sll_array_of sll1_exp.                      (* 5724-5798 *)
Definition Sll2_exp := Sll2_of sll1_exp.                                (* 5890-5952 *)
Definition Sll2_array_exp := Sll2_array_of sll1_exp.                    (* 6032-6107 *)

End Kernels.
