(** The state file, the level file and the information on the samples: how the
    sampler writes them and how the post-processing reads them.

    A file is the list of its characters; opening and closing are left out. *)
From Coq Require Import ZArith Reals String List Bool Ascii.
From Flocq Require Import Core BinarySingleNaN.
From Verif Require Import CPrelude TagModel ScanModel TextModel PostModel.
Import ListNotations.
Open Scope Z_scope.

(** Level and its likelihood, cdnest/dnestvars.h:35-47. *)
Record lrow := mklr { l_logX : b64; l_logL : b64; l_tb : b64; l_acc : Z; l_try : Z; l_exc : Z; l_vis : Z }.
(** What is saved of a particle: level, likelihood, tiebreaker, number. *)
Record irow := mkir { i_level : Z; i_logl : b64; i_tb : b64; i_id : Z }.

(** cdnest/dnest.c:572 *)
Definition levels_head : list ascii := list_ascii_of_string "# log_X, log_likelihood, tiebreaker, accepts, tries, exceeds, visits".
(** cdnest/dnest.c:914 *)
Definition info_head : list ascii := list_ascii_of_string "# level assignment, log likelihood, tiebreaker, ID.".
(** cdnest/dnest.c:575-577: "%14.12g %14.12g %f %llu %llu %llu %llu\n" *)
Definition print_level (r : lrow) : list ascii :=
  padl 14 (print_g (l_logX r)) ++ BL :: padl 14 (print_g (l_logL r)) ++ BL :: print_f (l_tb r) ++
  BL :: print_d (l_acc r) ++ BL :: print_d (l_try r) ++ BL :: print_d (l_exc r) ++ BL :: print_d (l_vis r) ++ [nl].
Definition levels_text (rows : list lrow) : list ascii := levels_head ++ nl :: flat_map print_level rows.
(** cdnest/dnest.c:666-669, 682-685: "%d %e %f %d\n" *)
Definition print_info (r : irow) : list ascii :=
  print_d (i_level r) ++ BL :: print_e (i_logl r) ++ BL :: print_f (i_tb r) ++ BL :: print_d (i_id r) ++ [nl].
Definition info_text (rows : list irow) : list ascii := info_head ++ nl :: flat_map print_info rows.
(** cdnest/dnest.c:406, 583: "%d %d\n" *)
Definition state_text (levels saves : Z) : list ascii := print_d levels ++ BL :: print_d saves ++ [nl].

(** sscanf(buf, "%lf %lf %lf", ...) *)
Definition three (buf : list ascii) : option (b64 * b64 * b64) :=
  match scan_lf buf with
  | Some (x, r) =>
    match scan_lf r with
    | Some (y, r) =>
      match scan_lf r with
      | Some (z, _) => Some (x, y, z)
      | None => None
      end
    | None => None
    end
  | None => None
  end.
(** The loops over rows, cdnest/dnestpostprocess.c:111-127 and 140-159.  When the
    file has ended, feof or an empty buffer ends the program. *)
Fixpoint read_rows (k : nat) (f : list ascii) : outcome (list (b64 * b64 * b64)) :=
  match k with
  | O => Ok []
  | S m =>
    let '(buf, f, _) := fgets 255 f in
    match three (cstr buf) with
    | None => Exit
    | Some r => rs <- read_rows m f ;; Ok (r :: rs)
    end
  end.
(** One line is skipped, lines 110 and 139. *)
Definition read_table (k : nat) (f : list ascii) : outcome (list (b64 * b64 * b64)) :=
  let '(_, f, _) := fgets 255 f in read_rows k f.
(** fscanf(fp, "%d %d\n", ...), lines 76-83; a number that is missing leaves its
    variable without a value. *)
Definition read_state (f : list ascii) : outcome (Z * Z) :=
  v <- scan_d f ;;
  match v with
  | None => UB
  | Some (a, f) =>
    v <- scan_d f ;;
    match v with None => UB | Some (b, _) => Ok (a, b) end
  end.
(** The rows as the later steps see them: line 221 converts the level to int.
    The clamping of the level, lines 157-158, is [PostModel.clamp_level]. *)
Definition level_of (r : b64 * b64 * b64) : plevel := let '(x, y, _) := r in mkpl (B2R x) (B2R y).
Definition info_of (r : b64 * b64 * b64) : sinfo := let '(x, y, z) := r in mksi (Ztrunc (B2R x)) (B2R y) (B2R z).
(** cdnest/dnestpostprocess.c:76-160 with dnest_flag_sample_info = 0 *)
Definition load (state levels info : list ascii) : outcome (list plevel * list sinfo) :=
  ns <- read_state state ;;
  let '(num_levels, num_samples) := ns in
  ls <- read_table (Z.to_nat num_levels) levels ;;
  is <- read_table (Z.to_nat num_samples) info ;;
  Ok (map level_of ls, map info_of is).
