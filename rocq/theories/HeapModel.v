(** The memory blocks of a run: every malloc, free and (for the arrays that live longer than one
    function) access, in the order of the code.  src/main.c:136-141, src/run.c:39-88,
    src/read.c:49, 534-935, 1386-1425, src/init.c:83, 281-409, src/mc_con.c:24-180, 279-474, 655-684,
    src/dnest_con.c:21-82 and the drivers of the lines, cdnest/dnest.c and
    cdnest/dnestpostprocess.c.  Simplifications: a loop that handles several arrays for every data
    set is one statement per array, in the order of the loop body; sizes, contents, files and
    the early exits of the program are left out; the accesses are at least those of the code; gsl_rng_alloc and gsl_rng_free count as
    malloc and free. *)
From Coq Require Import Ascii String List Bool Arith.
From Verif Require Import CPrelude GetoptModel DampModel.
Import ListNotations.
Open Scope nat_scope.
Open Scope string_scope.
Open Scope list_scope.

(** a pointer variable: its name, and its position if it is an element of an array.  [x[]] are
    the pointers kept in the block of [x]. *)
Definition ptr := (string * list nat)%type.
Inductive kind := Malloc | Free | Use.
Definition op := (kind * ptr)%type.

(** how many pointers a statement is about *)
Inductive count := One | Nine | Eleven | Sets | Lines | Params | Levels | Samples.
Definition stmt := (kind * count * list string)%type.

(** What may differ from one call to the next: numbers of parameters, levels and samples, and
    where we are (the positions in the loops that are running). *)
Record env := Env { params : nat; levels : nat; samples : nat; path : list nat }.
Definition enter (e : env) (i : nat) : env := Env (params e) (levels e) (samples e) (i :: path e).

Inductive prog :=
| Skip
| Do (s : stmt)
| Seq (p q : prog)
| Pick (w : env -> bool) (p q : prog)      (* if *)
| Loop (t : env -> nat) (p : prog)         (* for *)
| Each (es : list env) (p : prog).         (* the loop over the numbers of components *)
Notation "p ;; q" := (Seq p q) (at level 61, right associativity).

Section Sizes.
(** number of data sets and lines of each *)
Variable nset : nat.
Variable nlset : nat -> nat.
Definition row (n : nat) : list (list nat) := map (fun i => [i]) (seq 0 n).
Definition domain (e : env) (c : count) : list (list nat) :=
  match c with
  | One => [[]] | Nine => row 9 | Eleven => row 11 | Sets => row nset
  | Lines => flat_map (fun i => map (fun j => [i; j]) (seq 0 (nlset i))) (seq 0 nset)
  | Params => row (params e) | Levels => row (levels e) | Samples => row (samples e)
  end.
Definition trace1 (e : env) (s : stmt) : list op :=
  match s with (k, c, xs) => flat_map (fun i => map (fun x => (k, (x, i))) xs) (domain e c) end.
Fixpoint trace (e : env) (p : prog) : list op :=
  match p with
  | Skip => []
  | Do s => trace1 e s
  | p ;; q => trace e p ++ trace e q
  | Pick w p q => if w e then trace e p else trace e q
  | Loop t p => flat_map (fun i => trace (enter e i) p) (seq 0 (t e))
  | Each es p => flat_map (fun e => trace e p) es
  end.
End Sizes.

Definition new (xs : list string) := Do (Malloc, One, xs).
Definition del (xs : list string) := Do (Free, One, xs).
Definition use (xs : list string) := Do (Use, One, xs).
(** the elements of arrays of pointers: reaching them is an access to the array *)
Definition elems (xs : list string) : list string := map (fun x => x ++ "[]")%string xs.
Definition new_each (c : count) (xs : list string) := use xs ;; Do (Malloc, c, elems xs).
Definition del_each (c : count) (xs : list string) := use xs ;; Do (Free, c, elems xs).
Definition use_each (c : count) (xs : list string) := use xs ;; Do (Use, c, elems xs).
Definition on (b : bool) (p : prog) : prog := if b then p else Skip.
(** the same for the options of the command line *)
Definition when (b : bool) (p q : prog) : prog := Pick (fun _ => b) p q.
(** variables of a function *)
Definition loc (f : string) (xs : list string) : list string := map (fun x => f ++ "." ++ x)%string xs.

Section Task.
(** root: this is the root task.  Settings: mode, FlagGap = 1, lag prior 4.  Oracles: [n s] turns
    of loop s, [yes s] the branch taken at s. *)
Variable root : bool.
Variable m : mode.
Variables gap lag4 : bool.
Variable n : string -> env -> nat.
Variable yes : string -> env -> bool.

(** read_parset, src/read.c:49 *)
Definition read_parset : prog := on root (new ["pardict"] ;; use ["pardict"]).

(** the light curves of all sets; con.t and the like are kept in the block of dataset, line.t
    and the like in the blocks of line *)
Definition curves : list string := ["con.t"; "con.f"; "con.fe"].
Definition line_curves : list string := ["line.t"; "line.f"; "line.fe"].
Definition all_curves : list string := ["alldata.t"; "alldata.f"; "alldata.fe"].
Definition use_data : prog :=
  use ["dataset"] ;; Do (Use, Sets, curves) ;; Do (Use, Sets, ["line"]) ;; Do (Use, Lines, line_curves).
Definition use_alldata : prog := use ["alldata"] ;; Do (Use, Sets, all_curves).

(** read_data, src/read.c:563-638 (727-795 in the null mode), 805-815, 830-893, 895-934 *)
Definition read_data : prog :=
  new ["dataset"] ;; use ["dataset"] ;; Do (Malloc, Sets, curves) ;; Do (Malloc, Sets, ["line"]) ;;
  use ["dataset"] ;; Do (Use, Sets, ["line"]) ;; Do (Malloc, Lines, line_curves) ;;
  use_data ;;
  new ["flux_minmax"] ;; new_each Sets ["flux_minmax"] ;;
  use_data ;; use_each Sets ["flux_minmax"] ;;
  new ["alldata"] ;; use ["alldata"] ;; Do (Malloc, Sets, all_curves) ;; use_data ;; use_alldata.

Definition matrices : list string :=
  ["PNmat"; "PSmat"; "PCmat"; "IPCmat"; "USmat"; "USmatT"; "ASmat"; "Tmat1"; "Tmat2"].
Definition workspaces : list string := ["workspace"; "workspace_ipiv"; "workspace_inv"].
Definition gaps : list string := ["gap_center"; "gap_width"].
(** allocate_memory, src/init.c:281-343 *)
Definition allocate_memory : prog :=
  new matrices ;; new workspaces ;; new ["var_param"; "var_param_std"] ;; use ["var_param"; "var_param_std"] ;;
  new ["idx_con_pm"] ;; use ["idx_con_pm"] ;; new ["logz_arr"] ;;
  on gap (new gaps) ;; on root (new ["pb_mica"]).
(** get_seasonal_gap, src/read.c:1386-1425, for every set if the gaps are not given; one turn
    with a work array where the data cover more than a year *)
Definition seasonal_gap : prog :=
  Loop (n "sets without given gap") (use_data ;; Pick (yes "more than a year") (new ["dt"] ;; use ["dt"] ;; del ["dt"]) Skip ;;
    use gaps).
(** init, src/init.c:25-279 *)
Definition init : prog :=
  use_data ;; new ["width_prior"] ;; use ["width_prior"] ;; allocate_memory ;; on gap (use gaps ;; seasonal_gap).

(** free_memory, src/init.c:345-409 *)
Definition free_memory : prog :=
  use ["dataset"] ;; Do (Free, Sets, curves) ;; Do (Use, Sets, ["line"]) ;; Do (Free, Lines, line_curves) ;;
  Do (Free, Sets, ["line"]) ;; del_each Sets ["flux_minmax"] ;;
  del ["dataset"] ;; del ["flux_minmax"] ;;
  use ["alldata"] ;; Do (Free, Sets, all_curves) ;; del ["alldata"] ;;
  del matrices ;; del ["width_prior"] ;; del workspaces ;; del ["logz_arr"] ;;
  on gap (del gaps) ;; on root (del ["pb_mica"]).

(** lines: what is sampled are the lines, otherwise the continuum *)
Definition ranges : prog := use_each Params ["par_range_model"] ;; use ["par_fix"; "par_fix_val"].
Definition use_lines : prog := use_data ;; use_alldata ;; use ["idx_con_pm"] ;; use_each Sets ["idx_line_pm"] ;; use workspaces.
(** log_likelihoods_cal_* : prob_con_variability_semiseparable (src/mc_con.c:569-653),
    prob_line_variability4 (src/mc_line.c:2192-2321), prob_line_variability4_pmap
    (src/mc_pmap.c:280-412), prob_line_variability4_vmap (src/mc_vmap.c:430-537),
    prob_line_variability_mmap (src/mc_mmap.c:977-1107) *)
Definition likelihood (lines : bool) : prog :=
  if lines then
    use_lines ;; use ["PSmat"; "PCmat"; "Smat_lc"; "Smat_ll"] ;;
    match m with pmap => use ["model_trans"] | mmap => use ["Smat_lc_buf"; "Smat_ll_buf"] | _ => Skip end
  else use_data ;; use ["idx_con_pm"] ;; use workspaces.
(** from_prior_con (src/dnest_con.c:107-123); from_prior_line (src/dnest_line.c:460-532),
    from_prior_vmap (src/dnest_vmap.c:299-366) and from_prior_mmap (src/dnest_mmap.c:199-271) sort
    the centres in a work array; from_prior_pmap (src/dnest_pmap.c:282-325) does not *)
Definition from_prior (lines : bool) : prog :=
  ranges ;;
  on (lines && match m with pmap => false | _ => true end)
    (Pick (yes "sorted centres") (new ["centers"] ;; use ["centers"] ;; del ["centers"]) Skip ;; use ["dataset"] ;; use_each Sets ["idx_line_pm"]).
(** perturb_*: src/dnest_con.c:160-193, src/dnest_line.c:570-705, src/dnest_pmap.c:363-415,
    src/dnest_vmap.c:402-526, src/dnest_mmap.c:307-442 *)
Definition perturb (lines : bool) : prog :=
  ranges ;; on lines (use ["var_param"; "var_param_std"] ;; on gap (use gaps ;; use_each Sets ["idx_line_pm"])).

(** setup, cdnest/dnest.c:926-1162, with options_load, cdnest/dnest.c:1228-1506.  given:
    param_range is not NULL; prior_type and prior_info are treated in the same way. *)
Definition options_load : prog := on root (new ["options_load.pardict"] ;; use ["options_load.pardict"] ;; del ["options_load.pardict"]).
Variable limits : bool.
Definition setup (given lines : bool) : prog :=
  new ["dnest_gsl_r"] ;; on given (new ["dnest_param_range"] ;; use ["dnest_param_range"]) ;;
  options_load ;; new ["particles"] ;; on root (new ["all_above"]) ;;
  new ["above"; "log_likelihoods"; "level_assignments"; "account_unaccepts"] ;; use ["account_unaccepts"] ;;
  new ["levels"] ;; on root (new ["levels_combine"; "copies_of_levels"]) ;;
  on limits (new ["limits"] ;; use ["limits"] ;; on root (new ["copies_of_limits"])) ;;
  new ["dnest_perturb_accept"] ;; use ["dnest_perturb_accept"; "dnest_gsl_r"; "levels"] ;; on root (use ["levels_combine"]) ;;
  Loop (n "particles") (use ["particles"] ;; from_prior lines ;; likelihood lines ;; use ["log_likelihoods"; "level_assignments"; "dnest_gsl_r"]) ;;
  on root (new ["pb"] ;; use ["pb"]).
(** finalise, cdnest/dnest.c:1164-1211; set: dnest_param_range is not NULL *)
Definition finalise (set : bool) : prog :=
  del ["particles"; "above"; "log_likelihoods"; "level_assignments"; "levels"; "account_unaccepts"] ;;
  on limits (del ["limits"]) ;;
  on root (del ["all_above"; "levels_combine"; "copies_of_levels"] ;; on limits (del ["copies_of_limits"])) ;;
  del ["dnest_gsl_r"; "dnest_perturb_accept"] ;; on set (del ["dnest_param_range"]) ;; on root (del ["pb"]).

Definition use_particles : prog := use ["particles"; "log_likelihoods"; "level_assignments"; "levels"] ;; on limits (use ["limits"]).
(** update_particle, cdnest/dnest.c:729-779, and update_level_assignment, 781-823, in either order;
    dnest_mcmc_run, 690-727 *)
Definition one_step (lines : bool) : prog :=
  use_particles ;; new ["proposal"] ;; use ["proposal"; "dnest_gsl_r"; "dnest_perturb_accept"; "account_unaccepts"] ;;
  perturb lines ;; likelihood lines ;; use ["proposal"] ;; del ["proposal"] ;; use_particles ;; use ["above"].
(** the rest of one turn of dnest_run on the root task, cdnest/dnest.c:233-345; do_bookkeeping 414-468,
    kill_lagging_particles 503-560 *)
Definition combine : prog :=
  use ["levels"; "above"] ;; on limits (use ["limits"]) ;;
  on root (use ["copies_of_levels"; "dnest_run.buf_size_above"; "dnest_run.buf_displs"; "all_above"] ;; new ["dnest_run.levels_orig"] ;;
    use ["dnest_run.levels_orig"; "levels_combine"; "copies_of_levels"] ;; del ["dnest_run.levels_orig"] ;;
    on limits (use ["copies_of_limits"; "limits"]) ;;
    Pick (yes "kill") (new ["good"] ;; use ["good"] ;; use_particles ;; use ["dnest_gsl_r"; "good"] ;; del ["good"]) Skip ;; use ["levels_combine"; "levels"]).
(** save_particle, cdnest/dnest.c:605-688: the message is sent by the chosen task and received by
    the root task *)
Definition save_particle : prog :=
  on root (use ["pb"]) ;;
  Pick (yes "message") (new ["particle_message"] ;; use_particles ;; use ["particle_message"] ;; del ["particle_message"]) use_particles.
(** dnest_save_restart, cdnest/dnest.c:1790-1890, and dnest_restart, 1892-2063 *)
Definition copies (f : string) : list string := loc f ["particles_all"; "log_likelihoods_all"; "level_assignments_all"].
Definition save_restart : prog :=
  on root (new (copies "save_restart") ;; use (copies "save_restart")) ;; use_particles ;;
  on root (use ["levels_combine"] ;; use (copies "save_restart") ;; del (copies "save_restart")).
Definition restart_from (lines : bool) : prog :=
  on root (new (copies "restart") ;; use (copies "restart") ;; use ["levels_combine"]) ;; use_particles ;; likelihood lines ;;
  on root (del (copies "restart")).
(** dnest_run, cdnest/dnest.c:199-412 *)
Definition dnest_run (lines : bool) : prog :=
  on root (new ["dnest_run.buf_size_above"; "dnest_run.buf_displs"] ;; use ["pb"]) ;;
  Loop (n "turns") (Loop (n "steps") (one_step lines) ;; combine ;;
    Pick (yes "save") (save_particle ;; Pick (yes "snapshot") save_restart Skip) Skip) ;;
  Pick (yes "last snapshot") save_restart Skip ;;
  on root (use ["levels_combine"] ;; on limits (use ["limits"]) ;; del ["dnest_run.buf_size_above"; "dnest_run.buf_displs"]).

(** dnest_postprocess, cdnest/dnest.c:189-197, and postprocess, cdnest/dnestpostprocess.c:62-473 *)
Definition postprocess : prog :=
  on root (options_load ;;
    new (loc "post" ["levels_orig"]) ;; new_each Levels (loc "post" ["levels_orig"]) ;;
    new (loc "post" ["sample_info"]) ;; new_each Samples (loc "post" ["sample_info"]) ;;
    new (loc "post" ["logl"; "sandwhich"; "psample"]) ;;
    use_each Levels (loc "post" ["levels_orig"]) ;; use_each Samples (loc "post" ["sample_info"]) ;;
    new (loc "post" ["logx_samples"; "logp_samples"; "logP_samples"; "logx_samples_thisLevel"; "logl_samples_thisLevel"]) ;;
    new (loc "post" ["dnest_post_gsl_r"]) ;;
    new (loc "post" ["posterior_sample"; "posterior_sample_info"; "posterior_sample_idx"]) ;;
    use (loc "post" ["logl"; "sandwhich"; "psample"; "logx_samples"; "logp_samples"; "logP_samples"; "logx_samples_thisLevel";
      "logl_samples_thisLevel"; "dnest_post_gsl_r"; "posterior_sample"; "posterior_sample_info"; "posterior_sample_idx"]) ;;
    use_each Levels (loc "post" ["levels_orig"]) ;; use_each Samples (loc "post" ["sample_info"]) ;;
    del_each Levels (loc "post" ["levels_orig"]) ;; del (loc "post" ["levels_orig"]) ;;
    del_each Samples (loc "post" ["sample_info"]) ;; del (loc "post" ["sample_info"; "logl"]) ;;
    del (loc "post" ["logx_samples"; "logx_samples_thisLevel"; "logp_samples"; "logP_samples"; "logl_samples_thisLevel"; "sandwhich"; "psample";
      "posterior_sample"; "posterior_sample_info"; "posterior_sample_idx"; "dnest_post_gsl_r"])).

(** dnest, cdnest/dnest.c:156-187; set: dnest_param_range is not NULL after setup *)
Definition dnest (given set restart postprc lines : bool) : prog :=
  setup given lines ;;
  when postprc postprocess (when restart (restart_from lines) Skip ;; dnest_run lines ;; postprocess) ;;
  finalise set.

(** dnest_con, src/dnest_con.c:21-82 *)
Definition dnest_con (restart postprc : bool) : prog :=
  new ["par_range_model"] ;; new_each Params ["par_range_model"] ;; new ["par_fix"; "par_fix_val"] ;;
  new ["fptrset_con"] ;; use ["fptrset_con"] ;; ranges ;;
  dnest false false restart postprc false ;;
  del ["fptrset_con"] ;; del_each Params ["par_range_model"] ;; del ["par_range_model"] ;; del ["par_fix"; "par_fix_val"].
(** postprocess_con, src/mc_con.c:374-474 *)
Definition postprocess_con : prog :=
  new ["best_model_con"; "best_model_std_con"] ;;
  on root (new (loc "postprocess_con" ["post_model"; "posterior_sample"]) ;; use (loc "postprocess_con" ["post_model"; "posterior_sample"]) ;;
    use ["best_model_con"; "best_model_std_con"] ;; del (loc "postprocess_con" ["post_model"; "posterior_sample"]) ;;
    use ["var_param"; "var_param_std"; "best_model_con"; "best_model_std_con"]) ;;
  use ["var_param"; "var_param_std"].
(** recostruct_con_from_varmodel_semiseparable, src/mc_con.c:279-369 *)
Definition reconstruct_con : prog :=
  new (loc "con" ["PEmat1"; "PEmat2"]) ;; use_data ;; use workspaces ;; use ["USmat"] ;; use (loc "con" ["PEmat1"; "PEmat2"]) ;;
  del (loc "con" ["PEmat1"; "PEmat2"]).
(** mc_con, src/mc_con.c:24-180, with mc_con_end, 677-684 *)
Definition mc_con (restart postprc : bool) : prog :=
  new ["mc_con.argv"] ;; new_each Nine ["mc_con.argv"] ;; use_each Nine ["mc_con.argv"] ;;
  dnest_con restart postprc ;; postprocess_con ;;
  on root (new (loc "mc_con" ["tcon"; "fcon"; "fecon"; "yq"]) ;;
    Loop (n "sets") (use ["idx_con_pm"; "best_model_con"] ;; use_data ;; reconstruct_con ;; use (loc "mc_con" ["tcon"; "fcon"; "fecon"; "yq"])) ;;
    del (loc "mc_con" ["tcon"; "fcon"; "fecon"; "yq"])) ;;
  del ["best_model_con"; "best_model_std_con"] ;;
  del_each Nine ["mc_con.argv"] ;; del ["mc_con.argv"].

(** mc_line_init, src/mc_line.c:2345-2404; mc_pmap_init, src/mc_pmap.c:140-220; mc_vmap_init,
    src/mc_vmap.c:245-304; mc_mmap_init, src/mc_mmap.c:816-951 *)
Definition driver_init : prog :=
  new ["idx_line_pm"] ;; new_each Sets ["idx_line_pm"] ;; new ["Smat_lc"; "Smat_ll"] ;;
  match m with mmap => new ["Smat_lc_buf"; "Smat_ll_buf"] | _ => Skip end ;;
  on lag4 (new ["lag_prior"] ;; use ["lag_prior"]) ;;
  match m with pmap => new ["resp_ratio_prior"] ;; use ["resp_ratio_prior"; "width_prior"] | _ => Skip end.
(** mc_line_end, src/mc_line.c:2406-2424; mc_pmap_end, src/mc_pmap.c:222-228; mc_vmap_end,
    src/mc_vmap.c:306-324; mc_mmap_end, src/mc_mmap.c:953-975 *)
Definition driver_end : prog :=
  del_each Sets ["idx_line_pm"] ;; del ["idx_line_pm"] ;; del ["Smat_lc"; "Smat_ll"] ;;
  match m with mmap => del ["Smat_lc_buf"; "Smat_ll_buf"] | _ => Skip end ;;
  on lag4 (del ["lag_prior"]) ;;
  match m with pmap => del ["resp_ratio_prior"] | _ => Skip end.
(** dnest_line, src/dnest_line.c:24-228; dnest_pmap, src/dnest_pmap.c:24-138; dnest_vmap,
    src/dnest_vmap.c:24-146; dnest_mmap, src/dnest_mmap.c:24-196.  The variability ranges,
    set_par_range_* and set_idx_line_pm, and the prior file are read before the sampler starts. *)
Definition dnest_model (f : flags) (postprc : bool) : prog :=
  new ["fptrset_line"] ;; use ["fptrset_line"; "dataset"] ;;
  new ["par_range_model"] ;; new_each Params ["par_range_model"] ;; new ["par_fix"; "par_fix_val"] ;;
  match m with pmap => new ["model_trans"] | _ => Skip end ;;
  ranges ;; use ["var_param"; "var_param_std"; "width_prior"] ;; on lag4 (use ["lag_prior"]) ;;
  match m with pmap => use ["resp_ratio_prior"; "lag_prior"] | _ => Skip end ;;
  use ["dataset"] ;; use_each Sets ["idx_line_pm"] ;; ranges ;;
  when (para_name f) Skip (dnest false false (restart f) postprc true) ;;
  del ["fptrset_line"] ;; del_each Params ["par_range_model"] ;; del ["par_range_model"] ;; del ["par_fix"; "par_fix_val"] ;;
  match m with pmap => del ["model_trans"] | _ => Skip end.
(** postprocess_line, src/mc_line.c:1269-1366; postprocess_vmap, src/mc_vmap.c:146-243;
    postprocess_mmap, src/mc_mmap.c:133-230 *)
Definition summary : prog :=
  on root (new (loc "summary" ["best_model_line"; "best_model_std_line"; "post_model"; "posterior_sample"]) ;;
    use (loc "summary" ["best_model_line"; "best_model_std_line"; "post_model"; "posterior_sample"]) ;;
    del (loc "summary" ["post_model"; "posterior_sample"; "best_model_line"; "best_model_std_line"])).

(** reconstruct_line_from_varmodel3, src/mc_line.c:1692-1855; reconstruct_line_from_varmodel_vmap,
    src/mc_vmap.c:1382-1540; reconstruct_line_from_varmodel_mmap, src/mc_mmap.c:650-814 *)
Definition pe (f : string) : list string := loc f ["PEmat1"; "PEmat2"; "PEmat3"; "PEmat4"].
Definition reconstruct_line : prog :=
  let xs := match m with vmap => pe "rec" | _ => loc "rec" ["PEmat1"; "PEmat2"] end in
  new xs ;; use_lines ;; use ["PSmat"; "PCmat"; "USmat"; "ASmat"] ;;
  match m with vmap => use ["USmatT"] | _ => Skip end ;; use xs ;; del xs.
(** output_reconstruction_parallel, src/mc_line.c:172-586; output_reconstruction_vmap_parallel,
    src/mc_vmap.c:611-1040; output_reconstruction_parallel_mmap, src/mc_mmap.c:235-648 *)
Definition rec_arrays : list string := loc "rec" ["tall"; "fall"; "feall"; "feall_max"; "fall_best"; "fall_std"; "yq_best"; "yq_std"].
Definition rec_bufs : list string := loc "rec" ["feall_max_buf"; "fall_best_buf"; "fall_std_buf"; "yq_best_buf"; "yq_std_buf"].
Definition reconstruction : prog :=
  on root (new (loc "rec" ["posterior_sample_all"]) ;; use (loc "rec" ["posterior_sample_all"])) ;;
  new (loc "rec" ["posterior_sample_task"]) ;; use (loc "rec" ["posterior_sample_task"]) ;;
  on root (use (loc "rec" ["posterior_sample_all"]) ;; use ["pb_mica"]) ;;
  new (loc "rec" ["nall"]) ;; new rec_arrays ;; new (loc "rec" ["ntall"; "yq"]) ;;
  new_each Sets (loc "rec" ["nall"]) ;; use_data ;; use (loc "rec" ["ntall"]) ;; new_each Sets rec_arrays ;;
  new rec_bufs ;; new_each Sets rec_bufs ;;
  Loop (n "samples of this task") (Loop (n "sets") (reconstruct_line ;; use (loc "rec" ["posterior_sample_task"; "yq"]) ;;
    use_each Sets (loc "rec" ["nall"]) ;; use_each Sets rec_arrays) ;; on root (use ["pb_mica"])) ;;
  use_each Sets rec_arrays ;; use_each Sets rec_bufs ;;
  del (loc "rec" ["posterior_sample_task"]) ;; on root (del (loc "rec" ["posterior_sample_all"])) ;;
  del_each Sets (loc "rec" ["tall"; "fall"; "feall"; "nall"; "feall_max"; "fall_best"; "fall_std"; "yq_best"; "yq_std"]) ;;
  del_each Sets rec_bufs ;;
  del (loc "rec" ["tall"; "fall"; "feall"; "feall_max"; "fall_best"; "fall_std"; "nall"; "ntall"; "yq"; "yq_best"; "yq_std"]) ;;
  del rec_bufs.

(** decompose_single_component, src/line_decomp.c:667-857; decompose_single_component_mmap,
    src/line_decomp_mmap.c:380-570 *)
Definition decompose_one : prog :=
  new (loc "dec" ["fq_all"]) ;; use (loc "dec" ["fq_all"]) ;; new (pe "dec") ;; use_lines ;; use ["PSmat"; "PCmat"; "USmat"; "USmatT"; "ASmat"] ;;
  match m with mmap => use ["Smat_lc"; "Smat_ll"; "Smat_lc_buf"; "Smat_ll_buf"] | _ => Skip end ;;
  use (pe "dec") ;; del (pe "dec") ;; del (loc "dec" ["fq_all"]).
(** output_decompose_line_parallel, src/line_decomp.c:22-375, and output_decompose_line_parallel_mmap,
    src/line_decomp_mmap.c:22-375: the frees of 342-354 leave out feall_max[i] *)
Definition dec_arrays : list string := loc "dec" ["tall"; "fall"; "feall"; "feall_max"; "fall_best"; "fall_std"].
Definition dec_bufs : list string := loc "dec" ["feall_max_buf"; "fall_best_buf"; "fall_std_buf"].
Definition dec_before : prog :=
  on root (new (loc "dec" ["posterior_sample_all"]) ;; use (loc "dec" ["posterior_sample_all"])) ;;
  new (loc "dec" ["posterior_sample_task"]) ;; use (loc "dec" ["posterior_sample_task"]) ;;
  on root (use (loc "dec" ["posterior_sample_all"])) ;;
  new (loc "dec" ["nall"]) ;; new dec_arrays ;; new (loc "dec" ["ntall"]) ;;
  new_each Sets (loc "dec" ["nall"]) ;; use_data ;; use (loc "dec" ["ntall"]) ;; use dec_arrays.
Definition dec_freed_each : list string := loc "dec" ["tall"; "fall"; "feall"; "nall"; "fall_best"; "fall_std"].
Definition dec_after : prog :=
  new (loc "dec" ["yq"]) ;; new dec_bufs ;; new_each Sets dec_bufs ;;
  Loop (n "components") (on root (use ["pb_mica"]) ;; use_each Sets dec_arrays ;;
    Loop (n "samples of this task") (Loop (n "sets") (decompose_one ;; use (loc "dec" ["posterior_sample_task"; "yq"]) ;;
      use_each Sets (loc "dec" ["nall"]) ;; use_each Sets dec_arrays)) ;;
    use_each Sets dec_arrays ;; use_each Sets dec_bufs) ;;
  del (loc "dec" ["posterior_sample_task"]) ;; on root (del (loc "dec" ["posterior_sample_all"])) ;;
  del_each Sets dec_freed_each ;; del_each Sets dec_bufs ;;
  del (loc "dec" ["tall"; "fall"; "feall"; "feall_max"; "fall_best"; "fall_std"; "nall"; "ntall"; "yq"]) ;;
  del dec_bufs.
Definition decomposition : prog := dec_before ;; Do (Malloc, Sets, elems dec_arrays) ;; dec_after.

(** whether the components are taken apart, src/mc_line.c:122-127, src/mc_pmap.c:93-96,
    src/mc_mmap.c:91-94; mc_vmap, src/mc_vmap.c:92-99, never does it *)
Definition takes_apart (f : flags) (k : nat) : bool :=
  match m with vmap => false | mmap => decomp f | _ => Nat.ltb 1 k && decomp f end.
(** one turn of the loop of the drivers; the number of components is the first of the path *)
Definition one_number (f : flags) (postprc : bool) : prog :=
  dnest_model f postprc ;;
  when (para_name f || postsample f) Skip
    (summary ;; reconstruction ;; Pick (fun e => takes_apart f (hd 0 (path e))) decomposition Skip).
(** mc_line, src/mc_line.c:22-167; mc_pmap, src/mc_pmap.c:22-138; mc_vmap, src/mc_vmap.c:22-140;
    mc_mmap, src/mc_mmap.c:22-128; numbers: the turns, see numbers in FlowModel.v *)
Definition driver (f : flags) (postprc : bool) (numbers : list env) : prog :=
  new ["argv"] ;; new_each Eleven ["argv"] ;; use_each Eleven ["argv"] ;;
  driver_init ;; use ["logz_arr"] ;; Each numbers (one_number f postprc) ;; use ["logz_arr"] ;; driver_end ;;
  del_each Eleven ["argv"] ;; del ["argv"].

(** begin_run and end_run, src/run.c:39-88, src/main.c:136-141 *)
Definition main_run (f : flags) (numbers : list env) : prog :=
  let con := runs_mc_con (postprc f) (decomp f) m in
  read_parset ;; read_data ;; init ;;
  when con (mc_con (restart f) (restart f || postprc f)) Skip ;;
  match m with nmap => Skip | _ => driver f (if con && restart f then false else postprc f) numbers end ;;
  free_memory.
End Task.
