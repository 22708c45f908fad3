(** What the reconstruction writes for all data sets: the times of reconstruction, the
    reconstruction of every set for every row of the posterior sample, and the means and
    spreads over the rows.  Joins rec_times and reconstruction of RecModel.v to rec_set of
    EndModel.v, with the parameter layout of SetsModel.v.  Real numbers, no rounding; the
    decimal digits of the files are not modelled. *)
From Coq Require Import Reals List Arith.
From Verif Require Import CPrelude SemisepModel SemisepProofs PartModel KernelModel CovModel LikeModel PredModel MixModel EndModel VmapModel ParamModel SmallModel SetsModel RecModel.
Import ListNotations.
Open Scope R_scope.

(** what the reconstruction of a set finds besides [found]: USmat, ASmat, Larr_rec, fall,
    PEmat1 *)
Record rec_found := RecFound { r_US : arr; r_AS : arr; r_L : arr; r_f : arr; r_PE : arr }.

Section Out.
Context {IP : Type}.
Variable dsytrf : nat -> (nat -> nat -> R) -> (nat -> nat -> R) * IP.
Variable dsytri : nat -> (nat -> nat -> R) -> IP -> nat -> nat -> R.
Variables dtrtri dlauum : nat -> arr -> arr.
Variables log_erfc erfc : R -> R.
Variable type_tf : nat.
Variable flag : bool.
Variable ty : nat -> nat.
Variable nset : nat.
Variable ds : nat -> lcset.
(** con.scale and line[j].scale: curve 0 is the continuum *)
Variable scale : nat -> nat -> R.
Variable ng : nat.
Variable uniform : nat.
Variable uniform_var : bool.
Variable nq : nat.
(** parset.nd_rec, trec_low_ext, trec_upp_ext *)
Variable nd_rec : nat.
Variables low_ext upp_ext : R.
Variable junk : nat -> nat -> nat.
(** contents of the work arrays when the set is reconstructed for a row.  Simplified: a
    function of the row and the set (the results do not depend on it) *)
Variable fd : list R -> nat -> found.
Variable rd : list R -> nat -> rec_found.

(** src/mc_line.c:303-306 *)
Definition points (i : nat) : nat := rec_count (s_ncon (ds i)) nd_rec.
(** tall[i], src/mc_line.c:346-379: the grids of the curves one after the other.  [None]: a
    time is NaN *)
Fixpoint numbers (l : list (option R)) : option (list R) :=
  match l with
  | [] => Some []
  | Some x :: r => match numbers r with Some r => Some (x :: r) | None => None end
  | None :: _ => None
  end.
Definition set_times (i : nat) : outcome (option (list R)) :=
  let d := ds i in
  gs <- rec_times (map (s_tcon d) (seq 0 (s_ncon d))) (map (fun j => map (s_tline d j) (seq 0 (s_nline d j))) (seq 0 (s_nl d))) nd_rec low_ext upp_ext ;;
  Ok (numbers (concat gs)).

(** reconstruct_line_from_varmodel3 (PCmat point by point) and
    reconstruct_line_from_varmodel_mmap (by arrays), called for the parameters pm *)
Definition rec_one (row : list R) (tall : arr) (pm : arr) (i : nat) : rec_out :=
  let d := ds i in let f := fd row i in let r := rd row i in
  rec_set dsytrf dsytri dtrtri dlauum (s_ncon d) (s_tcon d) (s_fe d) (s_em d) (s_nl d) (s_nline d) (s_tline d) (s_fel d) (s_eml d) (s_fall d) nq
    (pointers log_erfc type_tf flag (con_index uniform_var) (line_index nset ds ng uniform uniform_var junk) ng pm i) pm
    (con_index uniform_var i) (line_index nset ds ng uniform uniform_var junk i)
    (f_PS f) (f_mem f) (f_A f) (f_wk f) (f_L f) (f_W f) (f_D f) (f_phi f) (fun _ => points i) tall (r_US r) (r_AS r) (r_L r) (r_f r) (r_PE r).
Definition rec_one_mmap (row : list R) (tall : arr) (pm : arr) (i : nat) : rec_out :=
  let d := ds i in let f := fd row i in let r := rd row i in
  rec_set_mmap dsytrf dsytri dtrtri dlauum (s_ncon d) (s_tcon d) (s_fe d) (s_em d) (s_nl d) (s_nline d) (s_tline d) (s_fel d) (s_eml d) (s_fall d) nq
    (mixed_kernels log_erfc erfc (con_index uniform_var) (line_index nset ds ng uniform uniform_var junk) ng ty pm i (f_blc f) (f_bll f)) pm
    (con_index uniform_var i) (line_index nset ds ng uniform uniform_var junk i) (f_lc f) (f_ll f)
    (f_PS f) (f_mem f) (f_A f) (f_wk f) (f_L f) (f_W f) (f_D f) (f_phi f) (fun _ => points i) tall (r_US r) (r_AS r) (r_L r) (r_f r) (r_PE r).

(** post_model points to the row; in the ratio mode it is transformed first
    (src/mc_line.c:421-424; the loop of the transformation ends, C53) *)
Definition row_values (row : list R) : arr := fun a => nth a row 0.
Definition row_params (ratio : bool) (row : list R) : arr :=
  if ratio then
    match transform_response_ratio_inplace Rplus ng (num_params_var nset uniform_var) (num_params_line nset (nlset ds) ng uniform) 0 (row_values row) with
    | Ok M => M
    | _ => row_values row
    end
  else row_values row.

Definition as_recon (o : rec_out) : recon R := Recon (rec_f o) (rec_fe o) (rec_yq o).
(** output_reconstruction_parallel, src/mc_line.c:172-585, for set i: the lines of
    pall.txt, time, value and error, by curve, and those of trend.txt *)
Definition curve_rows (times : list R) (n c : nat) (vals : list (R * R)) : list (R * (R * R)) :=
  combine (firstn n (skipn (c * n) times)) vals.
Definition output_set (one : list R -> arr -> arr -> nat -> rec_out) (ratio : bool) (jk : R) (num_ps T : nat) (order : list nat) (all : list R) (i : nat)
  : outcome (option (list (list (R * (R * R))) * list (R * R))) :=
  let nl := s_nl (ds i) in
  ts <- set_times i ;;
  match ts with
  | None => Ok None
  | Some times =>
      out <- reconstruction Rarith jk num_ps (num_params nset (nlset ds) ng uniform uniform_var) T order (repeat (points i) (1 + nl)) nq
               (map (scale i) (seq 0 (1 + nl))) (fun row => as_recon (one row (fun a => nth a times 0) (row_params ratio row) i)) all ;;
      let '(cs, tr) := out in
      Ok (Some (map (fun c => curve_rows times (points i) c (nth c cs [])) (seq 0 (1 + nl)), tr))
  end.
Definition output_all (one : list R -> arr -> arr -> nat -> rec_out) (ratio : bool) (jk : R) (num_ps T : nat) (order : nat -> list nat) (all : list R) :=
  sequence (map (fun i => output_set one ratio jk num_ps T (order i) all i) (seq 0 nset)).
(** called by mc_line (src/mc_line.c:119), ratio = false, and mc_pmap (src/mc_pmap.c:91),
    ratio = true *)
Definition output_reconstruction_parallel (ratio : bool) := output_all rec_one ratio.
(** output_reconstruction_parallel_mmap, src/mc_mmap.c:235-648: the same code around
    reconstruct_line_from_varmodel_mmap *)
Definition output_reconstruction_parallel_mmap := output_all rec_one_mmap false.
End Out.
