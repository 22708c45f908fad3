(** The outputs written by one task alone in the virtual mode, output_reconstruction_vmap
    (src/mc_vmap.c:1045-1375), and of the decomposition, output_decompose_line
    (src/line_decomp.c:380-662).  The program calls output_reconstruction_parallel_vmap
    (VoutModel.v) and output_decompose_line_parallel (DecOutModel.v) instead; the two
    functions are there to be called in their place.  Real numbers, no rounding; the decimal
    digits of the files are not modelled. *)
From Coq Require Import Reals List Arith.
From Verif Require Import CPrelude SemisepModel SemisepProofs PartModel KernelModel CovModel LikeModel PredModel MixModel EndModel VmapModel ParamModel SmallModel SetsModel RecModel OutModel VoutModel SeqModel.
From Verif Require Import DecompModel.
From Verif Require DecOutModel.
Import ListNotations.
Open Scope R_scope.

Section Vseq.
Variable dgesol : nat -> nat -> arr -> arr -> arr.
Variable dget : nat -> arr -> arr.
Variable log_erfc : R -> R.
Variable type_tf : nat.
Variable flag : bool.
Variable nset : nat.
Variable ds : nat -> lcset.
Variable scale : nat -> nat -> R.
Variable ng : nat.
Variable uniform : nat.
Variable uniform_var : bool.
Variable nq : nat.
Variable nd_rec : nat.
Variables low_ext upp_ext : R.
Variable junk : nat -> nat -> nat.
Variable fd : list R -> nat -> found.
Variable rd : list R -> nat -> rec_found.
Variable ytail : list R -> nat -> arr.
(** what malloc leaves in the first nq entries of yq (src/mc_vmap.c:1149).  They are not
    set, unlike in the parallel function (src/mc_vmap.c:858-862), and the reconstruction
    writes from nq on.  Simplified: numbers (the memory may also hold NaN) *)
Variable y0 : arr.

Definition yq_unset (row : list R) (i : nat) : arr := fun k => if (k <? nq)%nat then y0 k else ytail row i k.
(** reconstruct_line_from_varmodel_vmap, src/mc_vmap.c:1232 *)
Definition vseq_one (row : list R) (tall : arr) (i : nat) : rec_out :=
  let d := ds i in let f := fd row i in let r := rd row i in let pm := row_values row in
  rec_vmap dgesol dget (s_nl d) (s_nline d) (s_tline d) (s_fel d) (s_eml d) (s_fall d) nq
    (pointers log_erfc type_tf flag (con_index uniform_var) (line_index nset ds ng uniform uniform_var junk) ng pm i) pm
    (con_index uniform_var i) (line_index nset ds ng uniform uniform_var junk i)
    (f_mem f) (f_PS f) (f_L f) (fun _ => vpoints ds nd_rec i) tall (r_US r) (r_AS r) (r_L r) (r_PE r) (yq_unset row i).
(** light_curve_normalize, src/mc_vmap.c:1235; None: the driving curve is divided by zero *)
Definition vseq_curves (tall : arr) (i : nat) (row : list R) : option (arr * arr) :=
  let o := vseq_one row tall i in light_curve_normalize (rec_f o) (rec_fe o) (vpoints ds nd_rec i) (1 / 10).
(** what the row adds to the sums, src/mc_vmap.c:1237-1260.  Without a normalized curve the
    sums of the curves do not matter, since NaN is written. *)
Definition vseq_recon (tall : arr) (i : nat) (row : list R) : recon R :=
  match vseq_curves tall i row with
  | Some (y, ye) => Recon y ye (rec_yq (vseq_one row tall i))
  | None => Recon (fun _ => 0) (fun _ => 0) (rec_yq (vseq_one row tall i))
  end.
(** trend.txt, src/mc_vmap.c:1312-1323: nq lines of zeros, then for line j the entries from
    j*nq on.  Simplified: the sums of RecModel.v also add nq entries more, which are not
    used here (src/mc_vmap.c:1256 adds the first nq*nlset). *)
Definition vseq_trend (num_ps : nat) (s : sums R) (scales : list R) : list (R * R) :=
  match scales with
  | [] => []
  | c :: scales' => repeat (0 * c, 0 * c) nq ++ trend_out Rarith num_ps nq s 0 scales'
  end.
(** One set: the lines of pall.txt by curve (None: the curves are NaN) and those of
    trend.txt.  None: a time is NaN.  Times: src/mc_vmap.c:1115-1127 and 1151-1184, as in
    the parallel function. *)
Definition vseq_set (num_ps : nat) (all : list R) (i : nat) : outcome (option (option (list (list (R * (R * R)))) * list (R * R))) :=
  let nl := s_nl (ds i) in
  let np := num_params nset (nlset ds) ng uniform uniform_var in
  ts <- vset_times ds nd_rec low_ext upp_ext i ;;
  match ts with
  | None => Ok None
  | Some times =>
      let tall := fun a => nth a times 0 in
      let scales := map (scale i) (seq 0 (1 + nl)) in
      s <- seq_sums Rarith num_ps np (repeat (vpoints ds nd_rec i) (1 + nl)) nq (vseq_recon tall i) all ;;
      let cs := vcurves_out num_ps s (vpoints ds nd_rec i) (repeat (vpoints ds nd_rec i) nl) scales in
      Ok (Some ((if has_none (vseq_curves tall i) (vrows num_ps np all) then None
                 else Some (map (fun c => curve_rows times (vpoints ds nd_rec i) c (nth c cs [])) (seq 0 (1 + nl)))),
                vseq_trend num_ps s scales))
  end.
(** output_reconstruction_vmap, src/mc_vmap.c:1045-1375, the files opened *)
Definition output_reconstruction_vmap (num_ps : nat) (all : list R) :=
  sequence (map (vseq_set num_ps all) (seq 0 nset)).
End Vseq.

Section DecSeq.
Variable dgesol : nat -> nat -> arr -> arr -> arr.
Variable log_erfc : R -> R.
Variable type_tf : nat.
Variable flag : bool.
Variable nset : nat.
Variable ds : nat -> lcset.
Variable scale : nat -> nat -> R.
Variable ng : nat.
Variable uniform : nat.
Variable uniform_var : bool.
Variable nq : nat.
Variable nd_rec : nat.
Variable junk : nat -> nat -> nat.
Variable fd : nat -> list R -> nat -> found.
Variable rd : nat -> list R -> nat -> rec_found.
(** The sample, src/line_decomp.c:421-456: all rows are read first; in the ratio mode the
    row is copied and the copy transformed.  Too few numbers: exit *)
Definition dec_rows (ratio : bool) (num_ps : nat) (all : list R) : outcome (list (list R)) :=
  let np := num_params nset (nlset ds) ng uniform uniform_var in
  rows <- sequence (map (fun m => read_row np m all) (seq 0 num_ps)) ;;
  Ok (map (fun row => map (seq_params nset ds ng uniform uniform_var ratio row) (seq 0 np)) rows).
(** The file of component g for set i, src/line_decomp.c:524-633; no trends (nq = 0), range
    of times not extended (src/line_decomp.c:494-522) *)
Definition dec_set (g : nat) (rows : list (list R)) (i : nat) : outcome (option (list (list (R * (R * R))))) :=
  let nall := fun _ : nat => points ds nd_rec i in
  ts <- set_times ds nd_rec 0 0 i ;;
  match ts with
  | None => Ok None
  | Some times =>
      out <- seq_set nset ds scale ng uniform uniform_var 0
               (fun row tall => DecOutModel.dec_one dgesol log_erfc type_tf flag nset ds ng uniform uniform_var nq nd_rec junk fd rd g row tall (row_values row) i)
               (length rows) (concat rows) nall times i ;;
      Ok (Some (fst out))
  end.
(** output_decompose_line, src/line_decomp.c:380-662, the files opened *)
Definition output_decompose_line (ratio : bool) (num_ps : nat) (all : list R) : outcome (list (list (option (list (list (R * (R * R))))))) :=
  rows <- dec_rows ratio num_ps all ;;
  sequence (map (fun g => sequence (map (dec_set g rows) (seq 0 nset))) (seq 0 ng)).
End DecSeq.
