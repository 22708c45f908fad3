(** The likelihood and the reconstruction of one data set from the parameters and the
    data to the result: the matrices of CovModel.v filled by the routines of the
    selected model and handed to the algebra of LikeModel.v and PredModel.v.  Over the
    real numbers. *)
From Coq Require Import Reals List Arith.
From Verif Require Import SemisepModel SemisepProofs PartModel KernelModel CovModel LikeModel PredModel MixModel.
Open Scope R_scope.

(** PCmat lies at address A of the memory: src/init.c:289 *)
Definition put (mem : arr) (A len : nat) (PC : arr) : arr :=
  fun x => if (andb (A <=? x) (x <? A + len))%nat then PC (x - A)%nat else mem x.

(** The routines of the mixed model in place of the function pointers:
    set_covar_Pmat_data_line_array_mmap, src/mc_mmap.c:1115-1215,
    set_covar_Umat_line_mmap, 1218-1307, and set_covar_Amat_line_mmap, 1311-1380, are
    the functions of src/mc_line.c:2530-2798 calling these.  [buf_lc] and [buf_ll] are
    what Smat_lc_buf and Smat_ll_buf (src/mc_mmap.c:845-846) contain at a call;
    simplified: the same at each call (the values do not depend on it, C63). *)
Definition mixed_kernels (log_erfc erfc : R -> R) (icp : nat -> nat) (ilp : nat -> nat -> nat) (ncomp : nat) (ty : nat -> nat)
  (pm : arr) (nds : nat) (buf_lc buf_ll : arr) : kernels :=
  Kernels
    (fun t1 t2 l => Slc_mmap log_erfc icp ilp ncomp ty t1 t2 pm nds l)
    (fun t1 t2 l => Sll_mmap log_erfc erfc icp ilp ncomp ty t1 t2 pm nds l)
    (fun t1 t2 l1 l2 => Sll2_mmap log_erfc erfc icp ilp ncomp ty t1 t2 pm nds l1 l2)
    (fun t1 n1 t2 n2 l B => fst (Slc_array_mmap log_erfc icp ilp ncomp ty t1 n1 t2 n2 pm nds l B buf_lc))
    (fun t1 n1 l B => fst (Sll_array_mmap log_erfc erfc icp ilp ncomp ty t1 n1 pm nds l B buf_ll))
    (fun t1 n1 t2 n2 l1 l2 B => fst (Sll2_array_mmap log_erfc erfc icp ilp ncomp ty t1 n1 t2 n2 pm nds l1 l2 B buf_ll)).

Section Set_.
Context {IP : Type}.
Variable dsytrf : nat -> (nat -> nat -> R) -> (nat -> nat -> R) * IP.
Variable dsytri : nat -> (nat -> nat -> R) -> IP -> nat -> nat -> R.
Variable dsytri_fails : nat -> (nat -> nat -> R) -> IP -> bool.
Variables dtrtri dlauum : nat -> arr -> arr.
(** the data set: continuum and lines *)
Variable ncon : nat.
Variables tcon fe_con : arr.
Variable error_mean_con : R.
Variable nl : nat.
Variable nline : nat -> nat.
Variables tline fe_line : nat -> arr.
Variable error_mean_line : nat -> R.
(** alldata[k].f *)
Variable fall : arr.
Variable nq : nat.
Variable K : kernels.
Variable pm : arr.
Variable idx_con : nat.
Variable idx_line : nat -> nat.

(** alldata[k].n, src/read.c:909-911 *)
Definition all_points : nat := line_start ncon nline nl.
(** what the routines find in memory: Smat_lc, Smat_ll, PSmat, then the work arrays *)
Variables Smat_lc Smat_ll PS mem : arr.
Variables A wk : nat.
Variables L0 W0 D0 phi0 : arr.

Definition scalar_matrix : arr :=
  fst (set_covar_Pmat_data_line ncon tcon fe_con error_mean_con nl nline tline fe_line error_mean_line pm idx_con idx_line
    (k_lc K) (k_ll K) (k_ll2 K) all_points (fun x => mem (A + x)%nat, PS)).
Definition array_matrix : arr :=
  fst (set_covar_Pmat_data_line_array ncon tcon fe_con error_mean_con nl nline tline fe_line error_mean_line pm idx_con idx_line
    (k_lc_array K) (k_ll_array K) (k_ll2_array K) all_points (fun x => mem (A + x)%nat, PS) Smat_lc Smat_ll).

(** prob_line_variability4, src/mc_line.c:2192-2320, and prob_line_variability_mmap,
    src/mc_mmap.c:977-1108: the body of the loop over the data sets *)
Definition prob_set : option R :=
  prob_line_set dsytrf dsytri dsytri_fails dtrtri dlauum nq nl ncon tcon fe_con error_mean_con nline tline fall
    (pm (idx_con + 0)%nat) (pm (idx_con + 1)%nat) (pm (idx_con + 2)%nat)
    (put mem A (all_points * all_points) array_matrix) A wk L0 W0 D0 phi0.

(** reconstruct_line_from_varmodel3, src/mc_line.c:1692-1852, fills PCmat point by
    point; reconstruct_line_from_varmodel_mmap, src/mc_mmap.c:650-820, by arrays.
    [nall] points of each curve at times [tall]; [US] and [AS] are the contents of
    USmat and ASmat. *)
Variable nall : nat -> nat.
Variables tall US AS Lr0 f0 PE0 : arr.
Definition rec_with (PC : arr) : rec_out :=
  rec_line_set dsytrf dsytri dtrtri dlauum nq nl ncon tcon fe_con error_mean_con nline tline fall
    (pm (idx_con + 0)%nat) (pm (idx_con + 1)%nat) (pm (idx_con + 2)%nat) nall tall
    (set_covar_Umat_line ncon tcon nl nline tline pm idx_con (k_lc K) (k_ll K) (k_ll2 K) all_points nall tall US)
    (set_covar_Amat_line nl pm idx_con (k_lc K) (k_ll K) (k_ll2 K) nall tall AS)
    (put mem A (all_points * all_points) PC) A wk L0 W0 D0 phi0 Lr0 f0 PE0.
Definition rec_set : rec_out := rec_with scalar_matrix.
Definition rec_set_mmap : rec_out := rec_with array_matrix.
End Set_.
