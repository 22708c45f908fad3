(** The likelihood functions of the modes that fit lines, over all data sets, with the
    parameter layout the program computes.  Real numbers, no rounding.  The loops over the
    data sets are prob_sets of LikeModel.v applied to the values of the sets. *)
From Coq Require Import Reals List Arith.
From Verif Require Import CPrelude SemisepModel SemisepProofs PartModel KernelModel CovModel LikeModel PredModel MixModel EndModel VmapModel ParamModel SmallModel.
Open Scope R_scope.

(** a data set: DATASET, src/allvars.h, and alldata[k].f *)
Record lcset := LcSet {
  s_ncon : nat; s_tcon : arr; s_fe : arr; s_em : R;
  s_nl : nat; s_nline : nat -> nat; s_tline : nat -> arr; s_fel : nat -> arr; s_eml : nat -> R;
  s_fall : arr }.
(** what a set finds in the work arrays: left there by the previous set or call.
    Smat_lc, Smat_ll, Smat_lc_buf, Smat_ll_buf, PSmat, the memory with PCmat at A and
    workspace_inv at wk, then Larr, W, D, phi in workspace *)
Record found := Found {
  f_lc : arr; f_ll : arr; f_blc : arr; f_bll : arr; f_PS : arr; f_mem : arr; f_A : nat; f_wk : nat;
  f_L : arr; f_W : arr; f_D : arr; f_phi : arr }.

Section Sets.
Context {IP : Type}.
Variable dsytrf : nat -> (nat -> nat -> R) -> (nat -> nat -> R) * IP.
Variable dsytri : nat -> (nat -> nat -> R) -> IP -> nat -> nat -> R.
Variable dsytri_fails : nat -> (nat -> nat -> R) -> IP -> bool.
Variables dtrtri dlauum : nat -> arr -> arr.
Variables log_erfc erfc : R -> R.
(** parset.type_tf, flag_negative_resp, type_tf_mix *)
Variable type_tf : nat.
Variable flag : bool.
Variable ty : nat -> nat.
Variable nset : nat.
Variable ds : nat -> lcset.
Variable ng : nat.
Variable uniform : nat.
Variable uniform_var : bool.
Variable nq : nat.
(** idx_line_pm as malloc left it *)
Variable junk : nat -> nat -> nat.
Variable fd : nat -> found.

Definition nlset (k : nat) : nat := s_nl (ds k).
(** idx_line_pm after set_idx_line_pm, src/dnest_line.c:72, 230-258 *)
Definition line_index (i j : nat) : nat :=
  match set_idx_line_pm nset nlset ng uniform uniform_var (fun a b => Some (junk a b)) i j with Some v => v | None => junk i j end.
Definition con_index : nat -> nat := idx_con_pm uniform_var.

Definition set_prob (K : kernels) (pm : arr) (k : nat) : option R :=
  let d := ds k in let f := fd k in
  prob_set dsytrf dsytri dsytri_fails dtrtri dlauum (s_ncon d) (s_tcon d) (s_fe d) (s_em d) (s_nl d) (s_nline d) (s_tline d) (s_fel d) (s_eml d) (s_fall d) nq
    K pm (con_index k) (line_index k) (f_lc f) (f_ll f) (f_PS f) (f_mem f) (f_A f) (f_wk f) (f_L f) (f_W f) (f_D f) (f_phi f).
(** prob_line_variability4, src/mc_line.c:2192-2320 *)
Definition prob_line_variability4 (pm : arr) : option R :=
  prob_sets (map (fun k => set_prob (pointers log_erfc type_tf flag con_index line_index ng pm k) pm k) (seq 0 nset)) 0.
(** prob_line_variability_mmap, src/mc_mmap.c:977-1108 *)
Definition prob_line_variability_mmap (pm : arr) : option R :=
  prob_sets (map (fun k => set_prob (mixed_kernels log_erfc erfc con_index line_index ng ty pm k (f_blc (fd k)) (f_bll (fd k))) pm k) (seq 0 nset)) 0.
(** prob_line_variability4_vmap, src/mc_vmap.c:430-536 *)
Definition prob_line_variability4_vmap (pm : arr) : option R :=
  prob_sets (map (fun k => let d := ds k in let f := fd k in
    prob_vmap dsytrf dsytri dsytri_fails (s_nl d) (s_nline d) (s_tline d) (s_fel d) (s_eml d) (s_fall d) nq
      (pointers log_erfc type_tf flag con_index line_index ng pm k) pm (con_index k) (line_index k)
      (f_ll f) (f_PS f) (f_mem f) (f_A f) (f_wk f) (f_L f)) (seq 0 nset)) 0.

(** prob_line_variability4_pmap, src/mc_pmap.c:280-412.  The parameter vector lies at
    [src], model_trans at [dst] of the memory [M]; the matrix comes from model_trans,
    sigma, tau and the systematic error of the continuum from the parameter vector. *)
Definition pmap_set (pm pt : arr) (k : nat) : option R :=
  let d := ds k in let f := fd k in
  let nall := all_points (s_ncon d) (s_nl d) (s_nline d) in
  let PC := array_matrix (s_ncon d) (s_tcon d) (s_fe d) (s_em d) (s_nl d) (s_nline d) (s_tline d) (s_fel d) (s_eml d)
    (pointers log_erfc type_tf flag con_index line_index ng pt k) pt (con_index k) (line_index k) (f_lc f) (f_ll f) (f_PS f) (f_mem f) (f_A f) in
  prob_line_set dsytrf dsytri dsytri_fails dtrtri dlauum nq (s_nl d) (s_ncon d) (s_tcon d) (s_fe d) (s_em d) (s_nline d) (s_tline d) (s_fall d)
    (pm (con_index k + 0)%nat) (pm (con_index k + 1)%nat) (pm (con_index k + 2)%nat)
    (put (f_mem f) (f_A f) (nall * nall) PC) (f_A f) (f_wk f) (f_L f) (f_W f) (f_D f) (f_phi f).
Definition prob_line_variability4_pmap (src dst : nat) (M : arr) : outcome (option R) :=
  let np := num_params nset nlset ng uniform uniform_var in
  match transform_response_ratio Rplus ng (num_params_var nset uniform_var) (num_params_line nset nlset ng uniform) np src dst M with
  | Ok M => Ok (prob_sets (map (pmap_set (fun a => M (src + a)%nat) (fun a => M (dst + a)%nat)) (seq 0 nset)) 0)
  | UB => UB | Exit => Exit | Stuck => Stuck
  end.
End Sets.
