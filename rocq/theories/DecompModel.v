(** Decomposition of a line into the responses of its components, src/line_decomp.c
    and src/line_decomp_mmap.c, over the real numbers (no rounding).  The arguments of
    a routine that are the same in every call (model, data set, component) come first. *)
From Coq Require Import Reals List Arith.
From Verif Require Import SemisepModel SemisepProofs KernelModel CovModel LikeModel PredModel MixModel.
Import ListNotations.
Open Scope R_scope.

(** ** Covariances with one component, src/line_decomp.c:1032-3079

    The statements for Gaussians and top-hats are those of src/mc_line.c (slc1_gauss,
    sll1_gauss, slc1_tophat and sll1_tophat in KernelModel.v): Slc_single_gauss 1057-1082,
    Sll2_single_gauss 1163-1185, Sll_single_gauss 1262-1298, Sll_single2_gauss 1387-1423;
    Slc_single_tophat 1512-1535, Sll2_single_tophat 1610-1666, Sll_single_tophat 1777-1832,
    Sll_single2_tophat 1942-1997. *)

(** Slc_single_gamma, src/line_decomp.c:2107-2131 *)
Definition slc1s_gamma (taud fg c tau1 Dt : R) : R :=
  let tau0 := c - 2 * tau1 in
  let fg := fg / (tau1 * tau1) in
  let p1 := (taud + tau1) / taud / tau1 in
  let p2 := (taud - tau1) / taud / tau1 in
  let DT := Dt - tau0 in
  let St :=
    if Rle_dec DT 0 then exp (DT / taud) / p1 / p1
    else if Rlt_dec (Rabs p2) EPS
    then exp (- DT / taud) * (DT * DT / 2 + (p1 * DT + 1) / p1 / p1)
    else exp (- DT / taud) / p2 / p2
         + exp (- DT / tau1) * (- (p2 * DT + 1) / p2 / p2 + (p1 * DT + 1) / p1 / p1) in
  St * fg.

(** Slc_single_exp, src/line_decomp.c:2625-2649 *)
Definition slc1s_exp (taud fg c tau1 Dt : R) : R :=
  let tau0 := c - tau1 in
  let fg := fg / tau1 in
  let p1 := (taud + tau1) / taud / tau1 in
  let p2 := (taud - tau1) / taud / tau1 in
  let DT := Dt - tau0 in
  let St :=
    if Rle_dec DT 0 then exp (DT / taud) / p1
    else if Rlt_dec (Rabs p2) EPS
    then exp (- DT / taud) * (DT + 1 / p1)
    else exp (- DT / taud) / p2 + exp (- DT / tau1) * (- 1 / p2 + 1 / p1) in
  St * fg.

(** Sll2_single_gamma, src/line_decomp.c:2204-2248; the same text in Sll_single_gamma,
    2344-2389, and Sll_single2_gamma, 2483-2528 *)
Definition sll1s_gamma (taud fg1 c1 tau1 fg2 c2 tau2 Dt : R) : R :=
  let tau01 := c1 - 2 * tau1 in
  let p1 := (taud - tau1) / taud / tau1 in
  let p2 := (taud + tau1) / taud / tau1 in
  let tau02 := c2 - 2 * tau2 in
  let fg12 := fg1 / tau1 / tau1 * fg2 / tau2 / tau2 in
  let p3 := (taud + tau2) / taud / tau2 in
  let p4 := (taud - tau2) / taud / tau2 in
  let p5 := p1 + p3 in
  let DT := Dt - (tau01 - tau02) in
  let St :=
    if Rle_dec DT 0 then
      if Rlt_dec (Rabs p4) EPS then
        let tmp := p2 * DT in
        exp (DT / taud) * (1 / (p2 * p2 * p2 * p2) * (3 - 2 * tmp + tmp * tmp / 2)
                           + (1 - p3 * DT + 2 * p3 / p5) / (p3 * p3 * p5 * p5))
      else
        exp (DT / taud) / (p2 * p2 * p4 * p4)
        + exp (DT / tau2) / (p4 * p4 * p5 * p5)
          * (- (1 - p4 * DT + 2 * p4 / p5) + (1 - p3 * DT + 2 * p3 / p5) * (p4 * p4) / (p3 * p3))
    else
      if Rlt_dec (Rabs p1) EPS then
        let tmp := p3 * DT in
        exp (- DT / taud) * (1 / (p3 * p3 * p3 * p3) * (3 + 2 * tmp + tmp * tmp / 2)
                             + (1 + p2 * DT + 2 * p2 / p5) / (p2 * p2 * p5 * p5))
      else
        exp (- DT / taud) / (p1 * p1 * p3 * p3)
        + exp (- DT / tau1) / (p1 * p1 * p5 * p5)
          * (- (1 + p1 * DT + 2 * p1 / p5) + (1 + p2 * DT + 2 * p2 / p5) * (p1 * p1) / (p2 * p2)) in
  St * fg12.

(** Sll2_single_exp, src/line_decomp.c:2722-2760; the same text in Sll_single_exp,
    2850-2889, and Sll_single2_exp, 2977-3016 *)
Definition sll1s_exp (taud fg1 c1 tau1 fg2 c2 tau2 Dt : R) : R :=
  let tau01 := c1 - tau1 in
  let p1 := (taud - tau1) / taud / tau1 in
  let p2 := (taud + tau1) / taud / tau1 in
  let tau02 := c2 - tau2 in
  let fg12 := fg1 / tau1 * fg2 / tau2 in
  let p3 := (taud + tau2) / taud / tau2 in
  let p4 := (taud - tau2) / taud / tau2 in
  let p5 := p1 + p3 in
  let DT := Dt - (tau01 - tau02) in
  let St :=
    if Rle_dec DT 0 then
      if Rlt_dec (Rabs p4) EPS then
        exp (DT / taud) * (- DT / p2 + 1 / (p2 * p2) + 1 / (p3 * p5))
      else
        exp (DT / taud) / (p2 * p4) + exp (DT / tau2) / (p4 * p5) * (- 1 + p4 / p3)
    else
      if Rlt_dec (Rabs p1) EPS then
        exp (- DT / taud) * (DT / p3 + 1 / (p3 * p3) + 1 / (p2 * p5))
      else
        exp (- DT / taud) / (p1 * p3) + exp (- DT / tau1) / (p1 * p5) * (- 1 + p1 / p2) in
  St * fg12.

Section Singles.
Variable log_erfc : R -> R.
Variable amp : R -> R.
Variable idx_con_pm : nat -> nat.
Variable idx_line_pm : nat -> nat -> nat.
Variable num_gaussian : nat.

(** Component kgau of a line with the continuum, src/line_decomp.c:1039-1086 and
    2091-2134 (Slc_single_gauss and _gamma; _tophat 1497-1539, _exp 2609-2652).  The
    _linear versions differ in the amplitude only, [amp]. *)
Definition Slc_single_of (one : R -> R -> R -> R -> R -> R) (pm : arr) (tcon tline : R) (nds nls kgau : nat) : R :=
  let taud := exp (pm (idx_con_pm nds + 2)%nat) in
  let Dt := tline - tcon in
  let idx := idx_line_pm nds nls in
  let k := kgau in
  let idxk := (idx + 1 + 3 * k)%nat in
  let fg := amp (pm (idxk + 0)%nat) in
  let tau0 := pm (idxk + 1)%nat in
  let wg := exp (pm (idxk + 2)%nat) in
  0 + one taud fg tau0 wg Dt.

(** Component kgau of one line with all of another: Sll2_single_gauss 1145-1189,
    _tophat 1592-1670, _gamma 2188-2253, _exp 2706-2765. *)
Definition Sll2_single_of (pair : R -> R -> R -> R -> R -> R -> R -> R -> R) (pm : arr) (t1 t2 : R) (nds nls1 nls2 kgau : nat) : R :=
  let taud := exp (pm (idx_con_pm nds + 2)%nat) in
  let Dt := t1 - t2 in
  let idx1 := idx_line_pm nds nls1 in
  let idx2 := idx_line_pm nds nls2 in
  let k1 := kgau in
  let idxk1 := (idx1 + 1 + k1 * 3)%nat in
  let fg1 := amp (pm (idxk1 + 0)%nat) in
  let tau1 := pm (idxk1 + 1)%nat in
  let wg1 := exp (pm (idxk1 + 2)%nat) in
  for_ 0 num_gaussian (fun k2 Sttot =>
    let idxk2 := (idx2 + 1 + k2 * 3)%nat in
    let fg2 := amp (pm (idxk2 + 0)%nat) in
    let tau2 := pm (idxk2 + 1)%nat in
    let wg2 := exp (pm (idxk2 + 2)%nat) in
    Sttot + pair taud fg1 tau1 wg1 fg2 tau2 wg2 Dt) 0.
(** Component kgau of a line with all of that line, the same text with both line
    indices equal: Sll_single_gauss 1245-1302, _tophat 1759-1836, _gamma 2329-2393,
    _exp 2835-2893. *)
Definition Sll_single_of pair (pm : arr) (t1 t2 : R) (nds nls kgau : nat) : R := Sll2_single_of pair pm t1 t2 nds nls nls kgau.
(** Component kgau of a line with itself: Sll_single2_gauss 1370-1427, _tophat
    1924-2001, _gamma 2468-2532, _exp 2962-3020. *)
Definition Sll_single2_of (pair : R -> R -> R -> R -> R -> R -> R -> R -> R) (pm : arr) (t1 t2 : R) (nds nls kgau : nat) : R :=
  let taud := exp (pm (idx_con_pm nds + 2)%nat) in
  let Dt := t1 - t2 in
  let idx := idx_line_pm nds nls in
  let k1 := kgau in
  let idxk1 := (idx + 1 + k1 * 3)%nat in
  let fg1 := amp (pm (idxk1 + 0)%nat) in
  let tau1 := pm (idxk1 + 1)%nat in
  let wg1 := exp (pm (idxk1 + 2)%nat) in
  let k2 := kgau in
  let idxk2 := (idx + 1 + k2 * 3)%nat in
  let fg2 := amp (pm (idxk2 + 0)%nat) in
  let tau2 := pm (idxk2 + 1)%nat in
  let wg2 := exp (pm (idxk2 + 2)%nat) in
  0 + pair taud fg1 tau1 wg1 fg2 tau2 wg2 Dt.
End Singles.

(** The function pointers Slc_single, Sll_single, Sll2_single and Sll_single2, set by
    init, src/init.c:138-275; kgau is the last argument of each call. *)
Record singles := Singles {
  s_lc : R -> R -> nat -> nat -> R;
  s_ll : R -> R -> nat -> nat -> R;
  s_ll2 : R -> R -> nat -> nat -> nat -> R;
  s_self : R -> R -> nat -> nat -> R }.
Definition one_single (log_erfc : R -> R) (type_tf : nat) : R -> R -> R -> R -> R -> R :=
  match type_tf with 0 => slc1_gauss log_erfc | 1 => slc1_tophat | 2 => slc1s_gamma | _ => slc1s_exp end%nat.
Definition pair_single (log_erfc : R -> R) (type_tf : nat) : R -> R -> R -> R -> R -> R -> R -> R -> R :=
  match type_tf with 0 => sll1_gauss log_erfc | 1 => sll1_tophat | 2 => sll1s_gamma | _ => sll1s_exp end%nat.
Definition single_pointers (log_erfc : R -> R) (type_tf : nat) (flag_negative_resp : bool) (icp : nat -> nat) (ilp : nat -> nat -> nat)
  (ncomp : nat) (pm : arr) (nds : nat) : singles :=
  let amp := if flag_negative_resp then (fun x => x) else exp in
  let one := one_single log_erfc type_tf in
  let pair := pair_single log_erfc type_tf in
  Singles (fun t1 t2 l k => Slc_single_of amp icp ilp one pm t1 t2 nds l k)
          (fun t1 t2 l k => Sll_single_of amp icp ilp ncomp pair pm t1 t2 nds l k)
          (fun t1 t2 l1 l2 k => Sll2_single_of amp icp ilp ncomp pair pm t1 t2 nds l1 l2 k)
          (fun t1 t2 l k => Sll_single2_of amp icp ilp pair pm t1 t2 nds l k).

(** The same for components of different shapes (str_type_tf_mix, [ty k] the shape of
    component k): Slc_single_mmap, Sll_single_mmap, Sll2_single_mmap,
    src/line_decomp_mmap.c:743-797.  There is no such routine for a component with
    itself; src/line_decomp_mmap.c:724 calls Sll_single2, the pointer set from type_tf. *)
Section MixSingles.
Variable log_erfc erfc : R -> R.
Variable idx_con_pm : nat -> nat.
Variable idx_line_pm : nat -> nat -> nat.
Variable num_gaussian : nat.
Variable ty : nat -> nat.
Definition Slc_single_mmap (tcon tline : R) (pm : arr) (nds nls k_comp : nat) : R :=
  let k := k_comp in
  0 + one_of idx_con_pm idx_line_pm (nth (ty k) (FP_Slc log_erfc) no_one) pm nds nls k (tline - tcon).
Definition Sll2_single_mmap (t1 t2 : R) (pm : arr) (nds nls1 nls2 k_comp : nat) : R :=
  let k1 := k_comp in
  for_ 0 num_gaussian (fun k2 Stot =>
    Stot + pair_of idx_con_pm idx_line_pm (nth (ty k1 * 4 + ty k2)%nat (FP_Sll log_erfc erfc) no_pair) pm nds nls1 nls2 k1 k2 t1 t2) 0.
Definition Sll_single_mmap (t1 t2 : R) (pm : arr) (nds nls k_comp : nat) : R :=
  let k1 := k_comp in
  for_ 0 num_gaussian (fun k2 Stot =>
    Stot + pair_of idx_con_pm idx_line_pm (nth (ty k1 * 4 + ty k2)%nat (FP_Sll log_erfc erfc) no_pair) pm nds nls nls k1 k2 t1 t2) 0.
End MixSingles.
Definition single_pointers_mmap (log_erfc erfc : R -> R) (type_tf : nat) (flag_negative_resp : bool) (icp : nat -> nat) (ilp : nat -> nat -> nat)
  (ncomp : nat) (ty : nat -> nat) (pm : arr) (nds : nat) : singles :=
  Singles (fun t1 t2 l k => Slc_single_mmap log_erfc icp ilp ty t1 t2 pm nds l k)
          (fun t1 t2 l k => Sll_single_mmap log_erfc erfc icp ilp ncomp ty t1 t2 pm nds l k)
          (fun t1 t2 l1 l2 k => Sll2_single_mmap log_erfc erfc icp ilp ncomp ty t1 t2 pm nds l1 l2 k)
          (s_self (single_pointers log_erfc type_tf flag_negative_resp icp ilp ncomp pm nds)).

(** ** The matrices *)
Section Matrices.
Variable ncon : nat.
Variable tcon : arr.
Variable nl : nat.
Variable nline : nat -> nat.
Variable tline : nat -> arr.
Variable pm : arr.
Variable idx_con : nat.
(** the whole continuum with a line *)
Variable Slc : R -> R -> nat -> R.
(** component kgau *)
Variable Slc_single : R -> R -> nat -> R.
Variable Sll_single : R -> R -> nat -> R.
Variable Sll2_single : R -> R -> nat -> nat -> R.
Variable Sll_single2 : R -> R -> nat -> R.

(** set_covar_Umat_line_single, src/line_decomp.c:863-951, and _mmap,
    src/line_decomp_mmap.c:576-664 *)
Definition set_covar_Umat_line_single (nall_data : nat) (nrec : nat -> nat) (trec : arr) (U : arr) : arr :=
  let U := for_ 0 (nrec 0%nat) (fun i U =>
    let t1 := trec i in
    let U := for_ 0 ncon (fun j U => let t2 := tcon j in upd U (i * nall_data + j) (exp (- Rabs (t1 - t2) / tau pm idx_con))) U in
    snd (for_pos 0 nl nline (fun k np U =>
      for_ 0 (nline k) (fun j U => let t2 := tline k j in upd U (i * nall_data + j + np) (Slc t1 t2 k)) U) ncon U)) U in
  snd (for_pos 0 nl (fun k => nrec (1 + k)%nat) (fun k npline U =>
    for_ 0 (nrec (1 + k)%nat) (fun i U =>
      let t1 := trec (npline + i)%nat in
      let U := for_ 0 ncon (fun j U => let t2 := tcon j in upd U ((i + npline) * nall_data + j) (Slc_single t2 t1 k)) U in
      let '(np, U) := for_pos 0 k nline (fun m np U =>
        for_ 0 (nline m) (fun j U => let t2 := tline m j in upd U ((i + npline) * nall_data + j + np) (Sll2_single t1 t2 k m)) U) ncon U in
      let U := for_ 0 (nline k) (fun j U => let t2 := tline k j in upd U ((i + npline) * nall_data + j + np) (Sll_single t1 t2 k)) U in
      let np := (np + nline k)%nat in
      snd (for_pos (k + 1) (nl - (k + 1)) nline (fun m np U =>
        for_ 0 (nline m) (fun j U => let t2 := tline m j in upd U ((i + npline) * nall_data + j + np) (Sll2_single t1 t2 k m)) U) np U)) U)
    (nrec 0%nat) U).

(** set_covar_Amat_line_single, src/line_decomp.c:958-1030, and _mmap,
    src/line_decomp_mmap.c:671-741 *)
Definition set_covar_Amat_line_single (nrec : nat -> nat) (trec : arr) (A : arr) : arr :=
  let ntall := for_ 0 nl (fun i n => (n + nrec (i + 1))%nat) (nrec 0%nat) in
  let A := for_ 0 (nrec 0%nat) (fun i A =>
    let t1 := trec i in
    let A := for_ 0 i (fun j A => let t2 := trec j in set2 (i * ntall + j) (j * ntall + i) (exp (- Rabs (t1 - t2) / tau pm idx_con)) A) A in
    let A := upd A (i * ntall + i) 1 in
    snd (for_pos 0 nl (fun k => nrec (1 + k)%nat) (fun k np A =>
      for_ 0 (nrec (1 + k)%nat) (fun j A => let t2 := trec (np + j)%nat in
        set2 (i * ntall + np + j) ((np + j) * ntall + i) (Slc t1 t2 k) A) A) (nrec 0%nat) A)) A in
  snd (for_pos 0 nl (fun k => nrec (1 + k)%nat) (fun k np A =>
    for_ 0 (nrec (1 + k)%nat) (fun j A =>
      let t1 := trec (np + j)%nat in
      let A := for_ 0 j (fun i A => let t2 := trec (np + i)%nat in
         set2 ((j + np) * ntall + np + i) ((i + np) * ntall + np + j) (Sll_single t1 t2 k) A) A in
      let A := upd A ((j + np) * ntall + (j + np)) (Sll_single2 t1 t1 k) in
      snd (for_pos (k + 1) (nl - (k + 1)) (fun m => nrec (1 + m)%nat) (fun m npline A =>
         for_ 0 (nrec (1 + m)%nat) (fun i A => let t2 := trec (npline + i)%nat in
           set2 ((j + np) * ntall + npline + i) ((npline + i) * ntall + j + np) (Sll2_single t1 t2 k m) A) A)
         (np + nrec (1 + k)%nat) A)) A) (nrec 0%nat) A).
End Matrices.

(** ** The curves *)

(** A row of the trend matrix of line k, scaled by the share of the component,
    src/line_decomp.c:786-797 *)
Definition share_row (nq nqall np k : nat) (w : R) (tall : arr) (i : nat) (L : arr) : arr :=
  let L := for_ 0 nqall (fun j L => upd L ((np + i) * nqall + j) 0) L in
  let L := upd L ((np + i) * nqall + nq + k * nq + 0) (1 * w) in
  for_ 1 (nq - 1) (fun j L => upd L ((np + i) * nqall + nq + k * nq + j) (tall (np + i)%nat ^ j * w)) L.
(** src/line_decomp.c:801-808 *)
Definition zero_row (nqall np i : nat) (L : arr) : arr :=
  for_ 0 nqall (fun j L => upd L ((np + i) * nqall + j) 0) L.

Section Decompose.
(** LAPACK's dgetrf followed by dgetrs, as in multiply_mat_MN_inverseA, src/mathfun.c:107-125:
    [dgesol m n a b] is the m x n matrix left in b.  The program exits if LAPACK reports
    an error (not modelled). *)
Variable dgesol : nat -> nat -> arr -> arr -> arr.
Variable flag_negative_resp : bool.
Variable num_gaussian : nat.
Variable pm : arr.
Variable idx_line : nat -> nat.

(** src/line_decomp.c:700-713 *)
Definition fq_all (j : nat) : R :=
  if flag_negative_resp then 0 else for_ 0 num_gaussian (fun k s => s + exp (pm (idx_line j + 1 + k * 3)%nat)) 0.

(** src/line_decomp.c:766-812 *)
Definition dec_trend (nq nl : nat) (nall : nat -> nat) (tall : arr) (kgau : nat) (L0 : arr) : arr :=
  let nqall := (nq * (1 + nl))%nat in
  let L := for_ 0 (nall 0%nat) (con_row nq nqall tall) L0 in
  snd (for_ 0 nl (fun k s => let '(np, L) := s in
    ((np + nall (1 + k))%nat,
     if flag_negative_resp then for_ 0 (nall (1 + k)%nat) (zero_row nqall np) L
     else let fq_weight := exp (pm (idx_line k + 1 + 3 * kgau)%nat) / fq_all k in
          for_ 0 (nall (1 + k)%nat) (share_row nq nqall np k fq_weight tall) L)) (nall 0%nat, L)).

(** decompose_single_component, src/line_decomp.c:667-857, and _mmap,
    src/line_decomp_mmap.c:380-570, after the three matrices are set: PC is PCmat, US
    USmat and AS ASmat.  The copies into PEmat1 and PEmat2 are values here. *)
Definition decompose (nq nl ncon : nat) (tc : arr) (lnn : nat -> nat) (tl : nat -> arr) (fall_data : arr) (p1 p2 : R)
    (nall : nat -> nat) (tall : arr) (kgau : nat) (PC US AS : arr) (L0 Lr0 UT0 : arr) : rec_out :=
  let tau := exp p2 in
  let sigma := exp p1 * sqrt tau in
  let n := line_start ncon lnn nl in
  let T := line_start (nall 0%nat) (fun k => nall (1 + k)%nat) nl in
  let nqall := (nq * (1 + nl))%nat in
  let Larr := trend_matrix nq nl ncon tc lnn tl L0 in
  let PE2 := dgesol n nqall PC Larr in
  let Cq := mul_tA Larr PE2 nqall nqall n in
  let yq := mul_tA PE2 fall_data nqall 1 n in
  let yq := dgesol nqall 1 Cq yq in
  let yave := mul_MN Larr yq n 1 nqall in
  let y := fun i => fall_data i - yave i in
  let PE2 := dgesol n 1 PC y in
  let fall := matvec_MN US T n PE2 in
  let Lrec := dec_trend nq nl nall tall kgau Lr0 in
  let yuq := matvec_MN Lrec T nqall yq in
  let fall := fun i => fall i + yuq i in
  let UT := for_ 0 T (fun i S => for_ 0 n (fun j S => upd S (j * T + i)%nat (US (i * n + j)%nat)) S) UT0 in
  let PE2 := dgesol n T PC UT in
  let PE1 := mul_MN US PE2 T T n in
  RecOut fall (fun i => sigma * sqrt (AS (i * T + i)%nat - PE1 (i * T + i)%nat)) yq.
End Decompose.
