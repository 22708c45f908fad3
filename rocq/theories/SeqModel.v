(** The outputs of the reconstruction written by one task alone, output_reconstruction and
    output_reconstruction2 (src/mc_line.c:591-1264).  The program calls
    output_reconstruction_parallel (OutModel.v) instead; the two functions are there to be
    called in its place.  Real numbers, no rounding, except where a kind of number is a
    parameter; the decimal digits of the files are not modelled. *)
From Coq Require Import Reals List Arith.
From Verif Require Import CPrelude SemisepModel SemisepProofs PartModel KernelModel CovModel LikeModel PredModel MixModel EndModel VmapModel ParamModel SmallModel SetsModel RecModel OutModel.
Import ListNotations.
Open Scope R_scope.

(** Row m of the posterior sample, src/mc_line.c:777-785 and 1104-1112: the numbers are read
    one after the other, and the program exits when there are too few.  [all]: the numbers
    of the file after its first line *)
Definition read_row {F} (np m : nat) (all : list F) : outcome (list F) :=
  if (m * np + np <=? length all)%nat then Ok (firstn np (skipn (m * np) all)) else Exit.
(** The loop over the rows, src/mc_line.c:773-833 and 1102-1150, for one set (the sets are
    independent); sums starting at zero, src/mc_line.c:745-771 and 1074-1100.  [rec] maps a row to its
    reconstruction *)
Definition seq_sums {F} (ops : arith F) (num_ps np : nat) (nall : list nat) (nq : nat) (rec : list F -> recon F) (all : list F) : outcome (sums F) :=
  fold_left (fun acc m => s <- acc ;; row <- read_row np m all ;; Ok (add_row ops nall nq (rec row) s)) (seq 0 num_ps) (Ok (sums0 ops)).
(** Means and spreads and what is written of them, src/mc_line.c:844-894 and 1161-1211: the
    expressions of output_reconstruction_parallel, src/mc_line.c:484-519 *)
Definition seq_reconstruction {F} (ops : arith F) (num_ps np : nat) (nall : list nat) (nq : nat) (scale : list F) (rec : list F -> recon F) (all : list F)
  : outcome (list (list (F * F)) * list (F * F)) :=
  s <- seq_sums ops num_ps np nall nq rec all ;;
  Ok (curves_out ops num_ps s 0 nall scale, trend_out ops num_ps nq s 0 scale).

(** Times of output_reconstruction2 for one curve, src/mc_line.c:1047-1066: its own range,
    with a twentieth of its length added on both sides.  [None]: NaN (one point: 0 times
    tspan/(1-1.0), which is infinite or NaN).  t[n-1] and t[0] are read even when there are
    no points. *)
Definition own_grid (nd_rec : nat) (t : list R) : outcome (list (option R)) :=
  e <- last_ t ;;
  b <- get t 0 ;;
  let tspan := e - b in
  let n := rec_count (length t) nd_rec in
  Ok (map (fun k => if (n =? 1)%nat then None else Some ((tspan + 1 / 10 * tspan) / (INR n - 1) * INR k + b - 5 / 100 * tspan)) (seq 0 n)).

Section Seq.
Context {IP : Type}.
Variable dsytrf : nat -> (nat -> nat -> R) -> (nat -> nat -> R) * IP.
Variable dsytri : nat -> (nat -> nat -> R) -> IP -> nat -> nat -> R.
Variables dtrtri dlauum : nat -> arr -> arr.
Variable log_erfc : R -> R.
Variable type_tf : nat.
Variable flag : bool.
Variable nset : nat.
Variable ds : nat -> lcset.
Variable scale : nat -> nat -> R.
Variable ng : nat.
Variable uniform : nat.
Variable uniform_var : bool.
Variable nq : nat.
Variable nd_rec : nat.
Variables low_ext upp_ext : R.
Variable junk : nat -> nat -> nat.
Variable fd : list R -> nat -> found.
Variable rd : list R -> nat -> rec_found.

(** post_model_trans: the row itself or, in the ratio mode, a transformed copy,
    src/mc_line.c:700-708 and 788-791.  In the memory of the model post_model starts at 0
    and post_model_trans, a block of its own, at num_params. *)
Definition seq_params (ratio : bool) (row : list R) : arr :=
  if ratio then
    let np := num_params nset (nlset ds) ng uniform uniform_var in
    match transform_response_ratio Rplus ng (num_params_var nset uniform_var) (num_params_line nset (nlset ds) ng uniform) np 0 np (row_values row) with
    | Ok M => fun a => M (np + a)%nat
    | _ => row_values row
    end
  else row_values row.
(** reconstruct_line_from_varmodel3 for the numbers of times nall *)
Definition rec_at (nall : nat -> nat) (row : list R) (tall : arr) (pm : arr) (i : nat) : rec_out :=
  let d := ds i in let f := fd row i in let r := rd row i in
  rec_set dsytrf dsytri dtrtri dlauum (s_ncon d) (s_tcon d) (s_fe d) (s_em d) (s_nl d) (s_nline d) (s_tline d) (s_fel d) (s_eml d) (s_fall d) nq
    (pointers log_erfc type_tf flag (con_index uniform_var) (line_index nset ds ng uniform uniform_var junk) ng pm i) pm
    (con_index uniform_var i) (line_index nset ds ng uniform uniform_var junk i)
    (f_PS f) (f_mem f) (f_A f) (f_wk f) (f_L f) (f_W f) (f_D f) (f_phi f) nall tall (r_US r) (r_AS r) (r_L r) (r_f r) (r_PE r).

(** index of the first point of curve c in tall, fall, feall: the counter np of the loops,
    src/mc_line.c:733-742 and 1055-1066 *)
Fixpoint offset (nall : nat -> nat) (c : nat) : nat :=
  match c with O => 0%nat | S c => (offset nall c + nall c)%nat end.
(** time, value and error written for curve c, src/mc_line.c:868-880 and 1185-1197 *)
Definition rows_of (times : list R) (nall : nat -> nat) (c : nat) (vals : list (R * R)) : list (R * (R * R)) :=
  combine (firstn (nall c) (skipn (offset nall c) times)) vals.
(** One set, the times given: the lines of pall.txt by curve and those of trend.txt *)
Definition seq_set (one : list R -> arr -> rec_out) (num_ps : nat) (all : list R) (nall : nat -> nat) (times : list R) (i : nat)
  : outcome (list (list (R * (R * R))) * list (R * R)) :=
  let nc := (1 + s_nl (ds i))%nat in
  out <- seq_reconstruction Rarith num_ps (num_params nset (nlset ds) ng uniform uniform_var) (map nall (seq 0 nc)) nq (map (scale i) (seq 0 nc))
           (fun row => as_recon (one row (fun a => nth a times 0))) all ;;
  let '(cs, tr) := out in
  Ok (map (fun c => rows_of times nall c (nth c cs [])) (seq 0 nc), tr).
(** The lines of pall_each.txt for one row of the sample and one set, by emission line,
    src/mc_line.c:798-806 *)
Definition each_set (one : list R -> arr -> rec_out) (row : list R) (nall : nat -> nat) (times : list R) (i : nat) : list (list (R * (R * R))) :=
  let o := one row (fun a => nth a times 0) in
  map (fun j => map (fun k => let a := (offset nall (1 + j) + k)%nat in (nth a times 0, (rec_f o a * scale i (1 + j), rec_fe o a * scale i (1 + j)))) (seq 0 (nall (1 + j)%nat)))
      (seq 0 (s_nl (ds i))).

(** output_reconstruction, src/mc_line.c:591-950.  [pall], [each], [trend]: whether the three
    files can be opened.  After opening pall_each.txt the pointer of pall.txt is tested
    (src/mc_line.c:642-649), so that without pall_each.txt fprintf is given a null pointer.
    Per set the lines of pall.txt, those of trend.txt, and those of pall_each.txt by row of
    the sample (in the file: row by row, within a row set by set).  [None]: a time is NaN. *)
Definition output_reconstruction_set (ratio : bool) (num_ps : nat) (all : list R) (i : nat)
  : outcome (option (list (list (R * (R * R))) * list (R * R) * list (list (list (R * (R * R)))))) :=
  let nall := fun _ : nat => points ds nd_rec i in
  let one := fun row tall => rec_one dsytrf dsytri dtrtri dlauum log_erfc type_tf flag nset ds ng uniform uniform_var nq nd_rec junk fd rd row tall (seq_params ratio row) i in
  ts <- set_times ds nd_rec low_ext upp_ext i ;;
  match ts with
  | None => Ok None
  | Some times =>
      out <- seq_set one num_ps all nall times i ;;
      rows <- sequence (map (fun m => read_row (num_params nset (nlset ds) ng uniform uniform_var) m all) (seq 0 num_ps)) ;;
      Ok (Some (out, map (fun row => each_set one row nall times i) rows))
  end.
Definition output_reconstruction (ratio pall each trend : bool) (num_ps : nat) (all : list R) :=
  if negb pall then Exit
  else if negb each then UB
  else if negb trend then Exit
  else sequence (map (output_reconstruction_set ratio num_ps all) (seq 0 nset)).

(** output_reconstruction2, src/mc_line.c:955-1264: every curve at times of its own.  The
    arrays tall[i], fall[i] and so on have nall_max*nscale elements (src/mc_line.c:1021-1026);
    nscale is 3 (src/init.c:135).  ntall, which adds the wrong numbers
    (src/mc_line.c:1068-1071), is not used. *)
Variable nall_max : nat.
Definition own_points (i c : nat) : nat := rec_count (match c with O => s_ncon (ds i) | S j => s_nline (ds i) j end) nd_rec.
Definition own_times (i : nat) : outcome (option (list R)) :=
  let d := ds i in
  gs <- sequence (map (own_grid nd_rec) (map (s_tcon d) (seq 0 (s_ncon d)) :: map (fun j => map (s_tline d j) (seq 0 (s_nline d j))) (seq 0 (s_nl d)))) ;;
  if (length (concat gs) <=? nall_max * 3)%nat then Ok (numbers (concat gs)) else UB.
Definition output_reconstruction2_set (ratio : bool) (num_ps : nat) (all : list R) (i : nat) : outcome (option (list (list (R * (R * R))) * list (R * R))) :=
  let one := fun row tall => rec_at (own_points i) row tall (seq_params ratio row) i in
  ts <- own_times i ;;
  match ts with
  | None => Ok None
  | Some times => out <- seq_set one num_ps all (own_points i) times i ;; Ok (Some out)
  end.
(** [pall], [trend]: whether the files can be opened *)
Definition output_reconstruction2 (ratio pall trend : bool) (num_ps : nat) (all : list R) :=
  if negb pall then Exit else if negb trend then Exit
  else sequence (map (output_reconstruction2_set ratio num_ps all) (seq 0 nset)).
End Seq.
