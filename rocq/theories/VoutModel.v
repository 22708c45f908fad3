(** What the reconstruction writes in the virtual mode, for all data sets: the times, the
    reconstruction of every set for every row of the posterior sample, the normalization of
    the driving curve, and the means and spreads over the rows.  Joins rec_vmap and
    light_curve_normalize of VmapModel.v to the sums of RecModel.v, with the parameter
    layout of SetsModel.v.  Real numbers, no rounding; the decimal digits of the files are
    not modelled. *)
From Coq Require Import Reals List Arith.
From Verif Require Import CPrelude SemisepModel SemisepProofs PartModel KernelModel CovModel LikeModel PredModel MixModel EndModel VmapModel ParamModel SmallModel SetsModel RecModel OutModel.
Import ListNotations.
Open Scope R_scope.

(** the largest double *)
Definition DBL_MAX : R := (2 - / 2 ^ 52) * 2 ^ 1023.

Section Vout.
Variable dgesol : nat -> nat -> arr -> arr -> arr.
Variable dget : nat -> arr -> arr.
Variable log_erfc : R -> R.
Variable type_tf : nat.
Variable flag : bool.
Variable nset : nat.
Variable ds : nat -> lcset.
(** con.scale (1.0 in this mode, C47) and line[j].scale *)
Variable scale : nat -> nat -> R.
Variable ng : nat.
Variable uniform : nat.
Variable uniform_var : bool.
Variable nq : nat.
Variable nd_rec : nat.
Variables low_ext upp_ext : R.
Variable junk : nat -> nat -> nat.
(** contents of the work arrays when the set is reconstructed for a row, as in OutModel.v;
    ytail is yq from position nq on *)
Variable fd : list R -> nat -> found.
Variable rd : list R -> nat -> rec_found.
Variable ytail : list R -> nat -> arr.

(** src/mc_vmap.c:746-757; nscale is 3 *)
Definition vpoints (i : nat) : nat :=
  fold_left (fun n j => Nat.max n (Nat.min (s_nline (ds i) j * 3) nd_rec)) (seq 0 (s_nl (ds i))) 0%nat.
(** tall[i], src/mc_vmap.c:795-829.  The earliest time starts at DBL_MAX, the latest at 0.
    With one point the time is NaN ([None]), as in rec_times of RecModel.v. *)
Definition vmap_times (lines : list (list R)) (n : nat) : outcome (list (option R)) :=
  be <- rec_span lines DBL_MAX 0 ;;
  let tbeg := fst be + low_ext in
  let tend := snd be + upp_ext in
  let tspan := tend - tbeg in
  let tbeg := tbeg - 5 / 100 * tspan in
  let tend := tend + 5 / 100 * tspan in
  let tspan := tend - tbeg in
  Ok (concat (repeat (map (fun j => if (n =? 1)%nat then None else Some (tspan / (INR n - 1) * INR j + tbeg)) (seq 0 n)) (1 + length lines))).
Definition vset_times (i : nat) : outcome (option (list R)) :=
  ts <- vmap_times (map (fun j => map (s_tline (ds i) j) (seq 0 (s_nline (ds i) j))) (seq 0 (s_nl (ds i)))) (vpoints i) ;;
  Ok (numbers ts).

(** src/mc_vmap.c:858-862: the first nq entries of yq are set to 0 once; the
    reconstruction writes those from nq on *)
Definition yq_before (row : list R) (i : nat) : arr := fun k => if (k <? nq)%nat then 0 else ytail row i k.
(** reconstruct_line_from_varmodel_vmap, called for the row, src/mc_vmap.c:877 *)
Definition vrec_one (row : list R) (tall : arr) (i : nat) : rec_out :=
  let d := ds i in let f := fd row i in let r := rd row i in let pm := row_values row in
  rec_vmap dgesol dget (s_nl d) (s_nline d) (s_tline d) (s_fel d) (s_eml d) (s_fall d) nq
    (pointers log_erfc type_tf flag (con_index uniform_var) (line_index nset ds ng uniform uniform_var junk) ng pm i) pm
    (con_index uniform_var i) (line_index nset ds ng uniform uniform_var junk i)
    (f_mem f) (f_PS f) (f_L f) (fun _ => vpoints i) tall (r_US r) (r_AS r) (r_L r) (r_PE r) (yq_before row i).
(** followed by light_curve_normalize, src/mc_vmap.c:880; None: the driving curve is
    divided by zero *)
Definition vrow (tall : arr) (i : nat) (row : list R) : option (recon R) :=
  let o := vrec_one row tall i in
  match light_curve_normalize (rec_f o) (rec_fe o) (vpoints i) (1 / 10) with
  | Some (y, ye) => Some (Recon y ye (rec_yq o))
  | None => None
  end.
(** src/mc_vmap.c:932-960: for the driving curve the spread only.  Simplified: the means
    and spreads are those of RecModel.v, of which the first curve is formed anew. *)
Definition vcurves_out (num_ps : nat) (s : sums R) (n : nat) (nall : list nat) (scales : list R) : list (list (R * R)) :=
  match scales with
  | [] => []
  | c :: scales' =>
      map (fun k => (best_of Rarith num_ps (fb s k) * c, std_of Rarith num_ps (fb s k) (fs s k) * c)) (seq 0 n)
      :: curves_out Rarith num_ps s n nall scales'
  end.
(** output_reconstruction_parallel_vmap, src/mc_vmap.c:611-1040, for set i: the lines of
    pall.txt by curve and those of trend.txt.  None: some number is NaN (a time, or the
    driving curve of some row). *)
Definition has_none {A B} (f : A -> option B) (l : list A) : bool := existsb (fun x => match f x with None => true | Some _ => false end) l.
Definition vrows (num_ps np : nat) (all : list R) : list (list R) := map (fun m => firstn np (skipn (m * np) all)) (seq 0 num_ps).
Definition voutput_set (jk : R) (num_ps T : nat) (order : list nat) (all : list R) (i : nat)
  : outcome (option (list (list (R * (R * R))) * list (R * R))) :=
  let nl := s_nl (ds i) in
  let np := num_params nset (nlset ds) ng uniform uniform_var in
  ts <- vset_times i ;;
  match ts with
  | None => Ok None
  | Some times =>
      let tall := fun a => nth a times 0 in
      let scales := map (scale i) (seq 0 (1 + nl)) in
      s <- reduced Rarith jk num_ps np T order (repeat (vpoints i) (1 + nl)) nq
             (fun row => match vrow tall i row with Some r => r | None => Recon (fun _ => 0) (fun _ => 0) (fun _ => 0) end) all ;;
      if has_none (vrow tall i) (vrows num_ps np all) then Ok None else
      let cs := vcurves_out num_ps s (vpoints i) (repeat (vpoints i) nl) scales in
      Ok (Some (map (fun c => curve_rows times (vpoints i) c (nth c cs [])) (seq 0 (1 + nl)), trend_out Rarith num_ps nq s 0 scales))
  end.
Definition output_reconstruction_parallel_vmap (jk : R) (num_ps T : nat) (order : nat -> list nat) (all : list R) :=
  sequence (map (fun i => voutput_set jk num_ps T (order i) all i) (seq 0 nset)).
End Vout.
