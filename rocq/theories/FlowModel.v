(** The steps of a run and their order: src/main.c:118-150, src/run.c:19-75,
    src/mc_con.c:24-180 and the drivers src/mc_line.c:25-165, src/mc_pmap.c:22-133,
    src/mc_vmap.c:22-141, src/mc_mmap.c:22-125, with cdnest/dnest.c:157-188.
    The steps themselves are modelled elsewhere; here they only leave a mark. *)
From Coq Require Import Ascii String Reals List Bool Arith.
From Verif Require Import CPrelude SemisepModel GetoptModel DampModel.
Import ListNotations.
Open Scope nat_scope.

(** what is sampled: the continuum, or the lines with k components *)
Inductive part := Con | Line (k : nat).

Inductive event :=
| Examine                                    (* test_covariance, src/main.c:127-134 *)
| Settings | Data | Setup                    (* src/run.c:39-42 *)
| Sample (p : part) (continued : bool)       (* dnest_run, from a snapshot or from the prior *)
| Posterior (p : part)                       (* dnest_postprocess: posterior sample and evidence *)
| Fit                                        (* postprocess_con: mean and spread of the variability *)
| ConCurve                                   (* pcon.txt and trend_con.txt, src/mc_con.c:70-175 *)
| Priors (k : nat)                           (* load_par_names, set_drw_par_range_load *)
| Table (k : nat) (mean spread : arr)        (* para_names_line.txt_k; the variability it is centred on *)
| Summary (k : nat)                          (* postprocess_line, postprocess_vmap, postprocess_mmap *)
| Curves (k : nat)                           (* output_reconstruction_parallel and the like *)
| Parts (k : nat)                            (* output_decompose_line_parallel and the like *)
| Evidence (z : list (nat * R)).             (* evidence.txt *)

Section Run.
(** Left by earlier runs: a snapshot to continue from (the file that dnest_restart opens,
    cdnest/dnest.c:1901-1908), the levels and samples that the post-processing reads
    (cdnest/dnestpostprocess.c:76-110, 383-388).  [loads k]: the prior file can be read for k
    components and agrees with the continuum fit (src/init.c:590-624).
    [data_dir], [param_dir]: data/ and param/ are directories of the working directory. *)
Variables snapshot kept : part -> bool.
Variable loads : nat -> bool.
Variables data_dir param_dir : bool.
(** mean and spread found by the continuum fit; evidences *)
Variable fit : arr * arr.
Variable logz : nat -> R.
(** settings: mode and numbers of components, num_gaussian_low and num_gaussian_diff *)
Variable m : mode.
Variables low diff : nat.

(** dnest, cdnest/dnest.c:165-188; the flags are those of the command line (C85).  exit(0) is
    called by the root task. *)
Definition dnest (p : part) (restart postprc : bool) : outcome (list event) :=
  if postprc then if kept p then Ok [Posterior p] else Exit
  else if restart && negb (snapshot p) then Exit
  else Ok [Sample p restart; Posterior p].

(** mc_con, src/mc_con.c:24-180 *)
Definition mc_con (restart postprc : bool) : outcome (list event) :=
  d <- dnest Con restart postprc ;; Ok (d ++ [Fit; ConCurve]).

(** dnest_line, src/dnest_line.c:192-216; dnest_pmap, src/dnest_pmap.c:100-122; dnest_vmap,
    src/dnest_vmap.c:113-132; dnest_mmap, src/dnest_mmap.c:159-181 *)
Definition dnest_model (f : flags) (postprc : bool) (var : arr * arr) (k : nat) : outcome (list event) :=
  if load_prior f && negb (loads k) then Exit else
  d <- (if para_name f then Ok [] else dnest (Line k) (restart f) postprc) ;;
  Ok ((if load_prior f then [Priors k] else []) ++ [Table k (fst var) (snd var)] ++ d).

(** one turn of the loop of mc_line, src/mc_line.c:72-131; mc_pmap, src/mc_pmap.c:67-98;
    mc_vmap, src/mc_vmap.c:68-102; mc_mmap, src/mc_mmap.c:63-97, has one turn *)
Definition one_number (f : flags) (postprc : bool) (var : arr * arr) (k : nat) : outcome (list event) :=
  d <- dnest_model f postprc var k ;;
  Ok (d ++
    (if negb (para_name f) && negb (postsample f) then
       [Summary k; Curves k] ++
       (if match m with vmap => false | mmap => decomp f | _ => (1 <? k) && decomp f end then [Parts k] else [])
     else [])).

(** the numbers of components; logz is 0 where nothing is sampled (src/dnest_line.c:27),
    but then nothing is written *)
Definition numbers : list nat := match m with mmap => [low] | _ => map (fun j => low + j) (seq 0 diff) end.
Definition driver (f : flags) (postprc : bool) (var : arr * arr) : outcome (list event) :=
  d <- mapM (one_number f postprc var) numbers ;;
  Ok (concat d ++ (if para_name f then [] else [Evidence (map (fun k => (k, logz k)) numbers)])).

(** begin_run, src/run.c:19-75.  var_param and var_param_std are 0 from src/init.c:306-312
    on.  src/run.c:46-50: flag_postprc is 1 during the continuum step of a restart and 0 after it. *)
Definition zeros : arr * arr := (fun _ => 0%R, fun _ => 0%R).
Definition begin_run (f : flags) : outcome (list event) :=
  if negb (data_dir && param_dir) then Exit else
  let con := runs_mc_con (postprc f) (decomp f) m in
  c <- (if con then if restart f then mc_con true true else mc_con false (postprc f) else Ok []) ;;
  let post := if con && restart f then false else postprc f in
  let var := if con then fit else zeros in
  d <- (match m with nmap => Ok [] | _ => driver f post var end) ;;
  Ok ([Settings; Data; Setup] ++ c ++ d).

(** main after the options, src/main.c:118-150; examine sets flag_end *)
Definition main_run (f : flags) : outcome (list event) :=
  if examine f then Ok [Examine]
  else if endrun f then Ok []
  else begin_run f.
End Run.
