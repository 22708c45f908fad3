(** What the decomposition writes: one file for every component, with the curves of all
    data sets.  Joins decompose of DecompModel.v to the sums, means and grids of RecModel.v
    and OutModel.v.  Real numbers, no rounding; the decimal digits of the files are not
    modelled. *)
From Coq Require Import Reals List Arith.
From Verif Require Import CPrelude SemisepModel SemisepProofs PartModel KernelModel CovModel LikeModel PredModel MixModel EndModel ParamModel SmallModel SetsModel RecModel DecompModel OutModel.
Import ListNotations.
Open Scope R_scope.

Section DecOut.
Variable dgesol : nat -> nat -> arr -> arr -> arr.
Variables log_erfc erfc : R -> R.
Variable type_tf : nat.
Variable flag : bool.
Variable ty : nat -> nat.
Variable nset : nat.
Variable ds : nat -> lcset.
(** con.scale and line[j].scale: curve 0 is the continuum *)
Variable scale : nat -> nat -> R.
Variable ng : nat.
Variable uniform : nat.
Variable uniform_var : bool.
Variable nq : nat.
Variable nd_rec : nat.
Variable junk : nat -> nat -> nat.
(** contents of the work arrays when a set is decomposed: functions of the component, the
    row and the set (simplified as in OutModel.v; the results do not depend on them).
    r_PE is where the transpose of USmat goes. *)
Variable fd : nat -> list R -> nat -> found.
Variable rd : nat -> list R -> nat -> rec_found.
Notation ci := (con_index uniform_var).
Notation li := (line_index nset ds ng uniform uniform_var junk).

(** decompose_single_component, src/line_decomp.c:667-857: PCmat point by point (724),
    USmat (726), ASmat (728), then the algebra *)
Definition dec_one (g : nat) (row : list R) (tall : arr) (pm : arr) (i : nat) : rec_out :=
  let d := ds i in let f := fd g row i in let r := rd g row i in
  let n := all_points (s_ncon d) (s_nl d) (s_nline d) in
  let nall := fun _ : nat => points ds nd_rec i in
  let K := pointers log_erfc type_tf flag ci li ng pm i in
  let K1 := single_pointers log_erfc type_tf flag ci li ng pm i in
  decompose dgesol flag ng pm (li i) nq (s_nl d) (s_ncon d) (s_tcon d) (s_nline d) (s_tline d) (s_fall d)
    (pm (ci i + 1)%nat) (pm (ci i + 2)%nat) nall tall g
    (scalar_matrix (s_ncon d) (s_tcon d) (s_fe d) (s_em d) (s_nl d) (s_nline d) (s_tline d) (s_fel d) (s_eml d) K pm (ci i) (li i) (f_PS f) (f_mem f) (f_A f))
    (set_covar_Umat_line_single (s_ncon d) (s_tcon d) (s_nl d) (s_nline d) (s_tline d) pm (ci i) (k_lc K)
       (fun t s j => s_lc K1 t s j g) (fun t s j => s_ll K1 t s j g) (fun t s j l => s_ll2 K1 t s j l g) n nall tall (r_US r))
    (set_covar_Amat_line_single (s_nl d) pm (ci i) (k_lc K)
       (fun t s j => s_ll K1 t s j g) (fun t s j l => s_ll2 K1 t s j l g) (fun t s j => s_self K1 t s j g) nall tall (r_AS r))
    (f_L f) (r_L r) (r_PE r).
(** decompose_single_component_mmap, src/line_decomp_mmap.c:380-570: PCmat by arrays (437);
    negative responses are refused for this model, src/read.c:474 *)
Definition dec_one_mmap (g : nat) (row : list R) (tall : arr) (pm : arr) (i : nat) : rec_out :=
  let d := ds i in let f := fd g row i in let r := rd g row i in
  let n := all_points (s_ncon d) (s_nl d) (s_nline d) in
  let nall := fun _ : nat => points ds nd_rec i in
  let K := mixed_kernels log_erfc erfc ci li ng ty pm i (f_blc f) (f_bll f) in
  let K1 := single_pointers_mmap log_erfc erfc type_tf false ci li ng ty pm i in
  decompose dgesol false ng pm (li i) nq (s_nl d) (s_ncon d) (s_tcon d) (s_nline d) (s_tline d) (s_fall d)
    (pm (ci i + 1)%nat) (pm (ci i + 2)%nat) nall tall g
    (array_matrix (s_ncon d) (s_tcon d) (s_fe d) (s_em d) (s_nl d) (s_nline d) (s_tline d) (s_fel d) (s_eml d) K pm (ci i) (li i) (f_lc f) (f_ll f) (f_PS f) (f_mem f) (f_A f))
    (set_covar_Umat_line_single (s_ncon d) (s_tcon d) (s_nl d) (s_nline d) (s_tline d) pm (ci i) (k_lc K)
       (fun t s j => s_lc K1 t s j g) (fun t s j => s_ll K1 t s j g) (fun t s j l => s_ll2 K1 t s j l g) n nall tall (r_US r))
    (set_covar_Amat_line_single (s_nl d) pm (ci i) (k_lc K)
       (fun t s j => s_ll K1 t s j g) (fun t s j l => s_ll2 K1 t s j l g) (fun t s j => s_self K1 t s j g) nall tall (r_AS r))
    (f_L f) (r_L r) (r_PE r).

(** A row of the posterior sample as read, src/line_decomp.c:69-86: in the ratio mode it is
    transformed at once *)
Definition read_row (ratio : bool) (row : list R) : list R :=
  map (row_params nset ds ng uniform uniform_var ratio row) (seq 0 (num_params nset (nlset ds) ng uniform uniform_var)).
(** The file of component g, src/line_decomp.c:199-333.  The rows are distributed, the
    values summed and reduced, and the means and errors written as in
    output_reconstruction_parallel; the trend coefficients yq are neither summed nor
    written (nq = 0 below), and the range of times is not extended (src/line_decomp.c:
    167-195; adding 0 to its ends changes nothing). *)
Definition component_file (one : nat -> list R -> arr -> arr -> nat -> rec_out) (ratio : bool) (jk : R) (T : nat) (order : nat -> list nat) (ps : list (list R)) (g : nat)
  : outcome (list (option (list (list (R * (R * R)))))) :=
  outs <- output_all nset ds scale ng uniform uniform_var 0 nd_rec 0 0 (one g) false jk (length ps) T order (concat (map (read_row ratio) ps)) ;;
  Ok (map (option_map fst) outs).
(** output_decompose_line_parallel, src/line_decomp.c:22-375, called by mc_line
    (src/mc_line.c:121-124), ratio = false, and mc_pmap (src/mc_pmap.c:93-96), ratio =
    true, and output_decompose_line_parallel_mmap, src/line_decomp_mmap.c:22-375, called by
    mc_mmap (src/mc_mmap.c:91-94).  [order g i]: how the library combines the tasks *)
Definition all_components (one : nat -> list R -> arr -> arr -> nat -> rec_out) (ratio : bool) (jk : R) (T : nat) (order : nat -> nat -> list nat) (ps : list (list R)) :=
  sequence (map (fun g => component_file one ratio jk T (order g) ps g) (seq 0 ng)).
Definition output_decompose_line_parallel (ratio : bool) := all_components dec_one ratio.
Definition output_decompose_line_parallel_mmap := all_components dec_one_mmap false.
End DecOut.
