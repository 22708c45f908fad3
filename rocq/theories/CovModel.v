(** The covariance matrices of a continuum and its lines, src/mc_line.c:2431-2795,
    over the real numbers.  Arrays are total functions; that every address used
    is inside the matrix is part of the theorems.  Slc, Sll, Sll2 and the array
    routines are function pointers in the code, hence parameters here; the fixed
    arguments (model, data set) are left out.  Which routines the pointers are set
    to is at the end of the file. *)
From Coq Require Import Reals List Arith.
From Verif Require Import SemisepModel KernelModel.
Import ListNotations.
Open Scope R_scope.

(** PCmat and PSmat. *)
Definition mats := (arr * arr)%type.
(** PCmat[a] = PCmat[b] = PSmat[a] = PSmat[b] = v *)
Definition set4 (a b : nat) (v : R) (M : mats) : mats :=
  let '(PC, PS) := M in
  let PS := upd PS b v in
  let PS := upd PS a v in
  let PC := upd PC b v in
  (upd PC a v, PS).
(** PSmat[a] = v; PCmat[a] = PSmat[a] + e *)
Definition set_diag (a : nat) (v e : R) (M : mats) : mats :=
  let '(PC, PS) := M in
  let PS := upd PS a v in (upd PC a (PS a + e), PS).
(** A loop that also advances a position: np += step j at its end. *)
Definition for_pos {St} (lo n : nat) (step : nat -> nat) (body : nat -> nat -> St -> St) (np : nat) (s : St) : nat * St :=
  for_ lo n (fun j x => let '(np, s) := x in ((np + step j)%nat, body j np s)) (np, s).

Section Cov.
(** A data set: continuum times, errors, mean error; for each line the same. *)
Variable ncon : nat.
Variable tcon fe_con : arr.
Variable error_mean_con : R.
Variable nl : nat.
Variable nline : nat -> nat.
Variable tline fe_line : nat -> arr.
Variable error_mean_line : nat -> R.
(** parameters and where this data set's start *)
Variable pm : arr.
Variable idx_con : nat.
Variable idx_line : nat -> nat.

Definition tau := exp (pm (idx_con + 2)%nat).
Definition sigma := exp (pm (idx_con + 1)%nat) * sqrt tau.
Definition syserr := (exp (pm (idx_con + 0)%nat) - 1) * error_mean_con.
Definition syserr_line (j : nat) := (exp (pm (idx_line j)) - 1) * error_mean_line j.

(** continuum - continuum, src/mc_line.c:2450-2463 and 2540-2553 *)
Definition con_con (nall : nat) (M : mats) : mats :=
  for_ 0 ncon (fun i M =>
    let t1 := tcon i in
    let M := for_ 0 i (fun j M => let t2 := tcon j in set4 (i * nall + j) (j * nall + i) (exp (- Rabs (t1 - t2) / tau)) M) M in
    let error := fe_con i * fe_con i + syserr * syserr in
    set_diag (i * nall + i) 1 (error / sigma / sigma) M) M.

Section Scalar.
Variable Slc : R -> R -> nat -> R.
Variable Sll : R -> R -> nat -> R.
Variable Sll2 : R -> R -> nat -> nat -> R.

(** set_covar_Pmat_data_line, src/mc_line.c:2431-2518; nall is alldata[k].n. *)
Definition con_line (nall : nat) (M : mats) : mats :=
  for_ 0 ncon (fun i M =>
    let t1 := tcon i in
    snd (for_pos 0 nl nline (fun j np M =>
      for_ 0 (nline j) (fun m M => let t2 := tline j m in
        set4 (i * nall + np + m) ((np + m) * nall + i) (Slc t1 t2 j) M) M) ncon M)) M.
Definition line_line (nall : nat) (M : mats) : mats :=
  snd (for_pos 0 nl nline (fun j np M =>
    for_ 0 (nline j) (fun i M =>
      let t1 := tline j i in
      let M := for_ 0 i (fun m M => let t2 := tline j m in
         set4 ((np + i) * nall + (np + m)) ((np + m) * nall + (np + i)) (Sll t1 t2 j) M) M in
      let error := fe_line j i * fe_line j i + syserr_line j * syserr_line j in
      let M := set_diag ((np + i) * nall + (np + i)) (Sll t1 t1 j) (error / sigma / sigma) M in
      snd (for_pos (j + 1) (nl - (j + 1)) nline (fun l npline M =>
         for_ 0 (nline l) (fun m M => let t2 := tline l m in
           set4 ((np + i) * nall + npline + m) ((npline + m) * nall + np + i) (Sll2 t1 t2 j l) M) M)
         (np + nline j) M)) M) ncon M).
Definition set_covar_Pmat_data_line (nall : nat) (M : mats) : mats :=
  line_line nall (con_line nall (con_con nall M)).

(** set_covar_Umat_line, src/mc_line.c:2634-2720; nall_data is alldata[nds].n,
    nrec and trec are the arguments nall and tall. *)
Definition set_covar_Umat_line (nall_data : nat) (nrec : nat -> nat) (trec : arr) (U : arr) : arr :=
  let U := for_ 0 (nrec 0%nat) (fun i U =>
    let t1 := trec i in
    let U := for_ 0 ncon (fun j U => let t2 := tcon j in upd U (i * nall_data + j) (exp (- Rabs (t1 - t2) / tau))) U in
    snd (for_pos 0 nl nline (fun k np U =>
      for_ 0 (nline k) (fun j U => let t2 := tline k j in upd U (i * nall_data + j + np) (Slc t1 t2 k)) U) ncon U)) U in
  snd (for_pos 0 nl (fun k => nrec (1 + k)%nat) (fun k npline U =>
    for_ 0 (nrec (1 + k)%nat) (fun i U =>
      let t1 := trec (npline + i)%nat in
      let U := for_ 0 ncon (fun j U => let t2 := tcon j in upd U ((i + npline) * nall_data + j) (Slc t2 t1 k)) U in
      let '(np, U) := for_pos 0 k nline (fun m np U =>
        for_ 0 (nline m) (fun j U => let t2 := tline m j in upd U ((i + npline) * nall_data + j + np) (Sll2 t1 t2 k m)) U) ncon U in
      let U := for_ 0 (nline k) (fun j U => let t2 := tline k j in upd U ((i + npline) * nall_data + j + np) (Sll t1 t2 k)) U in
      let np := (np + nline k)%nat in
      snd (for_pos (k + 1) (nl - (k + 1)) nline (fun m np U =>
        for_ 0 (nline m) (fun j U => let t2 := tline m j in upd U ((i + npline) * nall_data + j + np) (Sll2 t1 t2 k m)) U) np U)) U)
    (nrec 0%nat) U).

(** ASmat[a] = ASmat[b] = v *)
Definition set2 (a b : nat) (v : R) (M : arr) : arr := upd (upd M b v) a v.
(** set_covar_Amat_line, src/mc_line.c:2725-2795; ntall is computed at the start. *)
Definition set_covar_Amat_line (nrec : nat -> nat) (trec : arr) (A : arr) : arr :=
  let ntall := for_ 0 nl (fun i n => (n + nrec (i + 1))%nat) (nrec 0%nat) in
  let A := for_ 0 (nrec 0%nat) (fun i A =>
    let t1 := trec i in
    let A := for_ 0 i (fun j A => let t2 := trec j in set2 (i * ntall + j) (j * ntall + i) (exp (- Rabs (t1 - t2) / tau)) A) A in
    let A := upd A (i * ntall + i) 1 in
    snd (for_pos 0 nl (fun k => nrec (1 + k)%nat) (fun k np A =>
      for_ 0 (nrec (1 + k)%nat) (fun j A => let t2 := trec (np + j)%nat in
        set2 (i * ntall + np + j) ((np + j) * ntall + i) (Slc t1 t2 k) A) A) (nrec 0%nat) A)) A in
  snd (for_pos 0 nl (fun k => nrec (1 + k)%nat) (fun k np A =>
    for_ 0 (nrec (1 + k)%nat) (fun j A =>
      let t1 := trec (np + j)%nat in
      let A := for_ 0 j (fun i A => let t2 := trec (np + i)%nat in
         set2 ((j + np) * ntall + np + i) ((i + np) * ntall + np + j) (Sll t1 t2 k) A) A in
      let A := upd A ((j + np) * ntall + (j + np)) (Sll t1 t1 k) in
      snd (for_pos (k + 1) (nl - (k + 1)) (fun m => nrec (1 + m)%nat) (fun m npline A =>
         for_ 0 (nrec (1 + m)%nat) (fun i A => let t2 := trec (npline + i)%nat in
           set2 ((j + np) * ntall + npline + i) ((npline + i) * ntall + j + np) (Sll2 t1 t2 k m) A) A)
         (np + nrec (1 + k)%nat) A)) A) (nrec 0%nat) A).
End Scalar.

Section Array.
(** the array routines write into Smat_lc and Smat_ll, which are global *)
Variable Slc_array : arr -> nat -> arr -> nat -> nat -> arr -> arr.
Variable Sll_array : arr -> nat -> nat -> arr -> arr.
Variable Sll2_array : arr -> nat -> arr -> nat -> nat -> nat -> arr -> arr.

(** set_covar_Pmat_data_line_array, src/mc_line.c:2525-2630.  State: matrices and
    the buffers Smat_lc, Smat_ll. *)
Definition con_line_array (nall : nat) (M : mats) (Smat_lc : arr) : mats * arr :=
  snd (for_pos 0 nl nline (fun j np x =>
    let '(M, Smat_lc) := x in
    let Smat_lc := Slc_array tcon ncon (tline j) (nline j) j Smat_lc in
    (for_ 0 ncon (fun i M => for_ 0 (nline j) (fun m M =>
       set4 (i * nall + np + m) ((np + m) * nall + i) (Smat_lc (i * nline j + m)%nat) M) M) M, Smat_lc)) ncon (M, Smat_lc)).
Definition line_line_array (nall : nat) (M : mats) (Smat_ll : arr) : mats * arr :=
  snd (for_pos 0 nl nline (fun j np x =>
    let '(M, Smat_ll) := x in
    let Smat_ll := Sll_array (tline j) (nline j) j Smat_ll in
    let M := for_ 0 (nline j) (fun i M =>
      let M := for_ 0 i (fun m M =>
         set4 ((np + i) * nall + (np + m)) ((np + m) * nall + (np + i)) (Smat_ll (i * nline j + m)%nat) M) M in
      let error := fe_line j i * fe_line j i + syserr_line j * syserr_line j in
      set_diag ((np + i) * nall + (np + i)) (Smat_ll (i * nline j + i)%nat) (error / sigma / sigma) M) M in
    snd (for_pos (j + 1) (nl - (j + 1)) nline (fun l npline x =>
      let '(M, Smat_ll) := x in
      let Smat_ll := Sll2_array (tline j) (nline j) (tline l) (nline l) j l Smat_ll in
      (for_ 0 (nline j) (fun i M => for_ 0 (nline l) (fun m M =>
         set4 ((np + i) * nall + npline + m) ((npline + m) * nall + np + i) (Smat_ll (i * nline l + m)%nat) M) M) M, Smat_ll))
      (np + nline j) (M, Smat_ll))) ncon (M, Smat_ll)).
Definition set_covar_Pmat_data_line_array (nall : nat) (M : mats) (Smat_lc Smat_ll : arr) : mats :=
  fst (line_line_array nall (fst (con_line_array nall (con_con nall M) Smat_lc)) Smat_ll).
End Array.
End Cov.

(** The function pointers, set by init from type_tf and flag_negative_resp,
    src/init.c:138-275; [log_erfc] is gsl_sf_log_erfc, [icp] idx_con_pm, [ilp]
    idx_line_pm, [ncomp] the number of components. *)
Record kernels := Kernels {
  k_lc : R -> R -> nat -> R;
  k_ll : R -> R -> nat -> R;
  k_ll2 : R -> R -> nat -> nat -> R;
  k_lc_array : arr -> nat -> arr -> nat -> nat -> arr -> arr;
  k_ll_array : arr -> nat -> nat -> arr -> arr;
  k_ll2_array : arr -> nat -> arr -> nat -> nat -> nat -> arr -> arr }.
Definition pointers (log_erfc : R -> R) (type_tf : nat) (flag_negative_resp : bool) (icp : nat -> nat) (ilp : nat -> nat -> nat)
  (ncomp : nat) (pm : arr) (nds : nat) : kernels :=
  let amp := if flag_negative_resp then (fun x => x) else exp in
  match type_tf with
  | 0 => Kernels
      (fun t1 t2 l => Slc_gauss log_erfc amp icp ilp ncomp pm t1 t2 nds l)
      (fun t1 t2 l => Sll_gauss log_erfc amp icp ilp ncomp pm t1 t2 nds l)
      (fun t1 t2 l1 l2 => Sll2_gauss log_erfc amp icp ilp ncomp pm t1 t2 nds l1 l2)
      (fun t1 n1 t2 n2 l B => Slc_array_gauss log_erfc amp icp ilp ncomp t1 n1 t2 n2 pm nds l B)
      (fun t1 n1 l B => Sll_array_gauss log_erfc amp icp ilp ncomp t1 n1 pm nds l B)
      (fun t1 n1 t2 n2 l1 l2 B => Sll2_array_gauss log_erfc amp icp ilp ncomp t1 n1 t2 n2 pm nds l1 l2 B)
  | 1 => Kernels
      (fun t1 t2 l => Slc_tophat amp icp ilp ncomp pm t1 t2 nds l)
      (fun t1 t2 l => Sll_tophat amp icp ilp ncomp pm t1 t2 nds l)
      (fun t1 t2 l1 l2 => Sll2_tophat amp icp ilp ncomp pm t1 t2 nds l1 l2)
      (fun t1 n1 t2 n2 l B => Slc_array_tophat amp icp ilp ncomp t1 n1 t2 n2 pm nds l B)
      (fun t1 n1 l B => Sll_array_tophat amp icp ilp ncomp t1 n1 pm nds l B)
      (fun t1 n1 t2 n2 l1 l2 B => Sll2_array_tophat amp icp ilp ncomp t1 n1 t2 n2 pm nds l1 l2 B)
  | 2 => Kernels
      (fun t1 t2 l => Slc_gamma amp icp ilp ncomp pm t1 t2 nds l)
      (fun t1 t2 l => Sll_gamma amp icp ilp ncomp pm t1 t2 nds l)
      (fun t1 t2 l1 l2 => Sll2_gamma amp icp ilp ncomp pm t1 t2 nds l1 l2)
      (fun t1 n1 t2 n2 l B => Slc_array_gamma amp icp ilp ncomp t1 n1 t2 n2 pm nds l B)
      (fun t1 n1 l B => Sll_array_gamma amp icp ilp ncomp t1 n1 pm nds l B)
      (fun t1 n1 t2 n2 l1 l2 B => Sll2_array_gamma amp icp ilp ncomp t1 n1 t2 n2 pm nds l1 l2 B)
  | _ => Kernels
      (fun t1 t2 l => Slc_exp amp icp ilp ncomp pm t1 t2 nds l)
      (fun t1 t2 l => Sll_exp amp icp ilp ncomp pm t1 t2 nds l)
      (fun t1 t2 l1 l2 => Sll2_exp amp icp ilp ncomp pm t1 t2 nds l1 l2)
      (fun t1 n1 t2 n2 l B => Slc_array_exp amp icp ilp ncomp t1 n1 t2 n2 pm nds l B)
      (fun t1 n1 l B => Sll_array_exp amp icp ilp ncomp t1 n1 pm nds l B)
      (fun t1 n1 t2 n2 l1 l2 B => Sll2_array_exp amp icp ilp ncomp t1 n1 t2 n2 pm nds l1 l2 B)
  end%nat.
