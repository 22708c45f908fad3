(** Model of the diffusive nested sampler, cdnest/dnest.c.

    One MPI run is a sequence of rounds.  In a round every task performs
    [thread_steps] MCMC steps on its own data (dnest_mcmc_run), then the root
    task (task 0) merges everything, possibly creates a level, and broadcasts.
    Since the tasks only communicate through collective calls at the end of a
    round, running them one after the other inside a round is equivalent.

    Random numbers, proposals and likelihood values are inputs ("draws"): each
    theorem quantifies over all of them.  Acceptance probabilities only decide
    the value of a coin, so they are absorbed in the coins.

    Doubles that are only compared are [dbl] (CPrelude).  The field [log_X] of
    a level is only used to compute acceptance probabilities and is modelled
    separately over the reals (LogXModel).  Level counters are 64-bit in C and
    unbounded here. *)
From Coq Require Import ZArith List Bool Lia.
From Verif Require Import CPrelude SortModel.
Import ListNotations.
Open Scope Z_scope.

(** Level, cdnest/dnestvars.h:41-47 (without log_X). *)
Record level := mklevel
  { lk : lik; visits : Z; exceeds : Z; accepts : Z; tries : Z }.

(** A particle with its log_likelihoods[i] and level_assignments[i]. *)
Record particle := mkpart { pm : list dbl; plik : lik; plev : nat }.

(** The data owned by one task: particles, levels, above, limits.
    limits[j*2*dim + 2*k], [.. + 2*k + 1] is entry k of row j. *)
Record task := mktask
  { parts : list particle; levels : list level; above : list lik;
    limits : list (list (dbl * dbl)) }.

(** Options in force (DNestOptions, dnest.h:38-56) and derived globals.
    The compression is the rational o_cp/o_cq (every double is rational). *)
Record opts := mkopts
  { o_np : nat;        (* num_particles *)
    o_ts : nat;        (* thread_steps *)
    o_tt : nat;        (* dnest_totaltask *)
    o_nli : nat;       (* new_level_interval *)
    o_si : Z;          (* save_interval *)
    o_maxl : nat;      (* max_num_levels, as broadcast to all tasks *)
    o_maxs : Z;        (* max_num_saves *)
    o_reg : Z;         (* regularisation, an unsigned int *)
    o_cp : Z; o_cq : Z;(* compression *)
    o_lim : bool;      (* dnest_flag_limits *)
    o_dim : nat }.     (* number of parameters *)

(** One row of sample_info: level, likelihood, particle id (dnest.c:682-685). *)
Record info := mkinfo { i_lev : nat; i_lik : lik; i_id : Z }.

(** Global state at the top of the loop in dnest_run. *)
Record gstate := mkg
  { g_tasks : list task;       (* element 0 is the root task *)
    g_comb : list level;       (* levels_combine *)
    g_pool : list lik;         (* all_above *)
    g_rmax : nat;              (* root's options.max_num_levels *)
    g_steps : Z;               (* count_mcmc_steps, unsigned long long *)
    g_saves : Z;               (* count_saves, unsigned int *)
    g_sample : list (list dbl);(* rows written to the sample file *)
    g_info : list info }.      (* rows written to the sample_info file *)

(** LEVEL_NUM_MAX, dnest.h:21. *)
Definition LEVEL_NUM_MAX : nat := Z.to_nat 1000.

(** mod_int, dnest.c:1538-1544; C division truncates, division by 0 is UB. *)
Definition mod_int (y x : Z) : outcome Z :=
  if x =? 0 then UB
  else if 0 <=? y then Ok (y - (Z.quot y x) * x)
  else let y' := - y - 1 in Ok ((x - 1) - (y' - (Z.quot y' x) * x)).

Section Sampler.

(** Verdict of the part of enough_levels (dnest.c:856-880) that looks at the
    differences of successive level log-likelihoods; it reads nothing but the
    values of the level log-likelihoods (and options.max_ptol), so it is a
    function of those. *)
Variable ptol_ok : list dbl -> bool.
Variable o : opts.

(** Allocated length of levels, levels_combine and limits, setup
    (dnest.c:1026-1107). *)
Definition alloc : nat :=
  match o_maxl o with O => LEVEL_NUM_MAX | n => n end.

(** enough_levels, dnest.c:839-883; [mx] is the max_num_levels of the task. *)
Definition enough_levels (mx : nat) (ls : list level) : outcome bool :=
  match mx with
  | O =>
    if (LEVEL_NUM_MAX <=? length ls)%nat then Exit
    else if (length ls <? 10)%nat then Ok false
    else Ok (ptol_ok (map (fun l => lv (lk l)) ls))
  | _ => Ok (mx <=? length ls)%nat
  end.

(** Draws used by one MCMC step (dnest_mcmc_run with the two update
    functions): particle, order of the two updates, proposed parameters and
    likelihood, outcome of [rng <= exp(log_H)], proposed level before mod_int,
    outcome of [rng <= exp(log_A)]. *)
Record sdraw := mkdraw
  { d_which : nat; d_order : bool; d_pm : list dbl; d_lik : lik;
    d_coin1 : bool; d_lev : Z; d_coin2 : bool }.

(** The visits/exceeds loop of update_particle, dnest.c:769-777, as a
    recursion over the level array: skip [n] levels, then count. *)
Fixpoint visit_from (n : nat) (ls : list level) (v : dbl) : list level :=
  match ls with
  | [] => []
  | l :: r =>
    match n with
    | S n' => l :: visit_from n' r v
    | O =>
      match r with
      | [] => [l]   (* current_level = size_levels-1: loop ends *)
      | l2 :: _ =>
        if dlt (lv (lk l2)) v
        then mklevel (lk l) (visits l + 1) (exceeds l + 1) (accepts l) (tries l)
               :: visit_from O r v
        else mklevel (lk l) (visits l + 1) (exceeds l) (accepts l) (tries l) :: r
      end
    end
  end.

(** update_particle, dnest.c:729-779. *)
Definition update_particle (t : task) (d : sdraw) : outcome task :=
  p <- get (parts t) (d_which d) ;;
  lev <- get (levels t) (plev p) ;;
  let acc := d_coin1 d && dlt (lv (lk lev)) (lv (d_lik d)) in
  let p' := if acc then mkpart (d_pm d) (d_lik d) (plev p) else p in
  let lev' := mklevel (lk lev) (visits lev) (exceeds lev)
                (accepts lev + (if acc then 1 else 0)) (tries lev + 1) in
  ls <- put (levels t) (plev p) lev' ;;
  ps <- put (parts t) (d_which d) p' ;;
  Ok (mktask ps (visit_from (plev p) ls (lv (plik p'))) (above t) (limits t)).

(** The loop over parameters of dnest.c:812-818: limits row and particle have
    the same length in C. *)
Fixpoint widen (row : list (dbl * dbl)) (xs : list dbl) : list (dbl * dbl) :=
  match row, xs with
  | (lo, hi) :: r, x :: s => (dmin lo x, dmax hi x) :: widen r s
  | _, _ => row
  end.

(** log_push, dnest.c:825-837: only the bound check matters here. *)
Definition log_push_check (ls : list level) (which_level : nat) : outcome unit :=
  if (length ls <? which_level)%nat then Exit else Ok tt.

(** update_level_assignment, dnest.c:781-823. *)
Definition update_level_assignment (mx : nat) (t : task) (d : sdraw) : outcome task :=
  p <- get (parts t) (d_which d) ;;
  prop <- mod_int (d_lev d) (Z.of_nat (length (levels t))) ;;
  (if prop <? 0 then UB else
   let q := Z.to_nat prop in
   lp <- get (levels t) q ;;
   _ <- get (levels t) (plev p) ;;
   _ <- log_push_check (levels t) q ;;
   _ <- log_push_check (levels t) (plev p) ;;
   _ <- enough_levels mx (levels t) ;;
   if d_coin2 d && dlt (lv (lk lp)) (lv (plik p)) then
     ps <- put (parts t) (d_which d) (mkpart (pm p) (plik p) q) ;;
     if o_lim o then
       row <- get (limits t) q ;;
       lims <- put (limits t) q (widen row (pm p)) ;;
       Ok (mktask ps (levels t) (above t) lims)
     else Ok (mktask ps (levels t) (above t) (limits t))
   else Ok t).

(** One iteration of dnest_mcmc_run, dnest.c:695-725.  [above] is allocated
    with 2*new_level_interval entries (dnest.c:1015). *)
Definition mcmc_step (mx : nat) (t : task) (d : sdraw) : outcome task :=
  t1 <- (if d_order d
         then t' <- update_particle t d ;; update_level_assignment mx t' d
         else t' <- update_level_assignment mx t d ;; update_particle t' d) ;;
  en <- enough_levels mx (levels t1) ;;
  if en then Ok t1 else
    top <- get (levels t1) (length (levels t1) - 1) ;;
    p <- get (parts t1) (d_which d) ;;
    if dlt (lv (lk top)) (lv (plik p)) then
      if (length (above t1) <? 2 * o_nli o)%nat
      then Ok (mktask (parts t1) (levels t1) (above t1 ++ [plik p]) (limits t1))
      else UB
    else Ok t1.

Definition mcmc_run (mx : nat) (t : task) (ds : list sdraw) : outcome task :=
  foldM (mcmc_step mx) ds t.

(** dnest_mcmc_run on every task; only root's max_num_levels may differ. *)
Fixpoint run_tasks (mxs : list nat) (ts : list task) (dss : list (list sdraw)) {struct ts} : outcome (list task) :=
  match ts, mxs, dss with
  | [], _, _ => Ok []
  | t :: ts', mx :: mxs', ds :: dss' =>
    t' <- mcmc_run mx t ds ;; r <- run_tasks mxs' ts' dss' ;; Ok (t' :: r)
  | _, _, _ => Stuck
  end.

(** setup, dnest.c:1007-1010; unsigned 32-bit arithmetic. *)
Definition size_all_above_max : Z :=
  let ceil1c := 1 + (o_cp o + o_cq o - 1) / o_cq o in
  let m := u32 (ceil1c * Z.of_nat (o_ts o) * Z.of_nat (o_tt o)
                * (Z.of_nat (o_nli o) / Z.of_nat (o_ts o) + 1)) in
  if m <? u32 (Z.of_nat (o_nli o) * 2) then u32 (Z.of_nat (o_nli o) * 2) else m.

(** Merging the counters of one task, dnest.c:296-303. *)
Fixpoint add_delta (orig pl c : list level) : outcome (list level) :=
  match orig, pl, c with
  | [], [], [] => Ok []
  | a :: orig', b :: pl', x :: c' =>
    r <- add_delta orig' pl' c' ;;
    Ok (mklevel (lk x) (visits x + (visits b - visits a))
          (exceeds x + (exceeds b - exceeds a))
          (accepts x + (accepts b - accepts a))
          (tries x + (tries b - tries a)) :: r)
  | _, _, _ => UB
  end.

(** dnest.c:289-307. *)
Definition combine_levels (comb : list level) (ts : list task) : outcome (list level) :=
  foldM (fun c t => add_delta comb (levels t) c) ts comb.

(** renormalise_visits, dnest.c:483-501: conversion of a double to an unsigned
    integer truncates; regularisation is an unsigned int. *)
Definition renorm_level (reg : Z) (l : level) : level :=
  let l1 := if reg <=? tries l
            then mklevel (lk l) (visits l) (exceeds l)
                   ((accepts l + 1) * reg / (tries l + 1)) reg
            else l in
  if reg <=? visits l1
  then mklevel (lk l1) reg ((exceeds l1 + 1) * reg / (visits l1 + 1))
         (accepts l1) (tries l1)
  else l1.

(** Draws of kill_lagging_particles: for each particle the outcome of
    [rng <= kill_probability], and for each particle the candidates tried in
    the do-while loop with the outcome of the second test. *)
Record kdraw := mkkill { k_bad : list bool; k_cand : list (list (nat * bool)) }.

(** The do-while loop, dnest.c:538-541. *)
Fixpoint pick (good : list bool) (cands : list (nat * bool)) : outcome nat :=
  match cands with
  | [] => Stuck
  | (c, coin) :: r =>
    g <- get good c ;; if g && coin then Ok c else pick good r
  end.

(** The replacement loop, dnest.c:533-554, from particle [i] on. *)
Fixpoint replace_from (i : nat) (good : list bool) (gs : list bool)
  (cands : list (list (nat * bool))) (ps : list particle) : outcome (list particle) :=
  match gs with
  | [] => Ok ps
  | g :: gs' =>
    match cands with
    | [] => Stuck
    | cs :: cands' =>
      ps' <- (if g then Ok ps
              else c <- pick good cs ;; p <- get ps c ;; put ps i p) ;;
      replace_from (S i) good gs' cands' ps'
    end
  end.

(** kill_lagging_particles, dnest.c:503-560, on root's particles; the bound
    check of log_push uses root's [levels] (not yet updated). *)
Definition kill_lagging (ls : list level) (ps : list particle) (k : kdraw) : outcome (list particle) :=
  _ <- mapM (fun p => log_push_check ls (plev p)) ps ;;
  let good := map negb (k_bad k) in
  if (count_occ bool_dec (k_bad k) true <? o_np o)%nat
  then replace_from O good good (k_cand k) ps
  else Ok ps.

(** do_bookkeeping, dnest.c:414-468 (log_X aside).  Returns root's
    max_num_levels, levels_combine, all_above and root's particles.
    (int)((1.0/compression)*size) is floor(size*cq/cp). *)
Definition new_index (n : nat) : nat := Z.to_nat (Z.of_nat n * o_cq o / o_cp o).

Definition do_bookkeeping (rmax : nat) (comb : list level) (pool : list lik)
  (rootlev : list level) (ps : list particle) (k : kdraw)
  : outcome (nat * list level * list lik * list particle) :=
  en <- enough_levels rmax comb ;;
  if negb en && (o_nli o <=? length pool)%nat then
    let s := msort dnest_cmp pool in
    let idx := new_index (length pool) in
    th <- get s idx ;;
    if (length comb <? alloc)%nat then
      let comb1 := comb ++ [mklevel th 0 0 0 0] in
      let pool1 := firstn idx s in
      en1 <- enough_levels rmax comb1 ;;
      if en1 then Ok (length comb1, map (renorm_level (o_reg o)) comb1, pool1, ps)
      else ps1 <- kill_lagging rootlev ps k ;; Ok (rmax, comb1, pool1, ps1)
    else UB
  else Ok (rmax, comb, pool, ps).

(** Merging limits over tasks, dnest.c:312-327, for the first [n] rows. *)
Fixpoint hull_row (r s : list (dbl * dbl)) : list (dbl * dbl) :=
  match r, s with
  | (lo, hi) :: r', (lo', hi') :: s' => (dmin lo lo', dmax hi hi') :: hull_row r' s'
  | _, _ => r
  end.
Fixpoint hull_rows (n : nat) (a b : list (list (dbl * dbl))) : list (list (dbl * dbl)) :=
  match n, a, b with
  | S n', r :: a', s :: b' => hull_row r s :: hull_rows n' a' b'
  | _, _, _ => a
  end.
(** dnest.c:330-338: rows n-2 .. 0 are widened to contain the next row. *)
Fixpoint nest_rows (n : nat) (a : list (list (dbl * dbl))) : list (list (dbl * dbl)) :=
  match n, a with
  | S (S _ as n'), r :: a' =>
    match nest_rows n' a' with
    | (s :: _) as a'' => hull_row r s :: a''
    | [] => [r]
    end
  | _, _ => a
  end.
Definition merge_limits (n : nat) (root : list (list (dbl * dbl))) (ts : list task)
  : list (list (dbl * dbl)) :=
  nest_rows n (fold_left (fun a t => hull_rows n a (limits t)) ts root).

(** Broadcast of levels and limits, dnest.c:348-353. *)
Definition bcast (comb : list level) (lims : list (list (dbl * dbl))) (t : task) : task :=
  mktask (parts t) comb []
    (if o_lim o then firstn (length comb) lims ++ skipn (length comb) (limits t) else limits t).

(** All draws of one round. *)
Record rdraw := mkrd
  { r_steps : list (list sdraw); r_kill : kdraw; r_task : nat; r_part : nat }.

(** save_particle, dnest.c:605-688. A message from another task carries the
    particle, its likelihood and its level. *)
Definition save_particle (st : gstate) (r : rdraw) : outcome gstate :=
  t <- get (g_tasks st) (r_task r) ;;
  p <- get (parts t) (r_part r) ;;
  Ok (mkg (g_tasks st) (g_comb st) (g_pool st) (g_rmax st) (g_steps st)
        (u32 (g_saves st + 1))
        (g_sample st ++ [pm p])
        (g_info st ++ [mkinfo (plev p) (plik p)
                        (Z.of_nat (r_task r) * Z.of_nat (o_np o) + Z.of_nat (r_part r))])).

(** Termination test, dnest.c:227-229. *)
Definition terminated (st : gstate) : bool :=
  negb (o_maxs o =? 0) && negb (g_saves st =? 0) && (g_saves st mod o_maxs o =? 0).

(** Steps counted per round, dnest.c:284 (32-bit product). *)
Definition round_steps : Z := u32 (Z.of_nat (o_ts o) * Z.of_nat (o_tt o)).

(** Save test, dnest.c:355: the product is computed in 32 bits. *)
Definition save_due (steps saves : Z) : bool :=
  u32 ((saves + 1) * o_si o) <=? steps.

(** One pass through the loop body of dnest_run up to line 353 (everything but
    saving). *)
Definition round_core (st : gstate) (r : rdraw) : outcome gstate :=
  ts <- run_tasks (g_rmax st :: repeat (o_maxl o) (length (g_tasks st) - 1))
          (g_tasks st) (r_steps r) ;;
  let pool := g_pool st ++ flat_map above ts in
  if size_all_above_max <? Z.of_nat (length pool) then Exit else
  comb <- combine_levels (g_comb st) ts ;;
  match ts with
  | [] => UB
  | root :: workers =>
    let lims := if o_lim o then merge_limits (length (levels root)) (limits root) ts
                else limits root in
    b <- do_bookkeeping (g_rmax st) comb pool (levels root) (parts root) (r_kill r) ;;
    let '(rmax', comb', pool', ps') := b in
    let root' := mktask ps' (levels root) (above root) lims in
    Ok (mkg (map (bcast comb' lims) (root' :: workers)) comb' pool' rmax'
          (u64 (g_steps st + round_steps)) (g_saves st) (g_sample st) (g_info st))
  end.

(** The whole loop body. *)
Definition round (st : gstate) (r : rdraw) : outcome gstate :=
  st1 <- round_core st r ;;
  if save_due (g_steps st1) (g_saves st1) then save_particle st1 r else Ok st1.

(** dnest_run, dnest.c:199-382: rounds until termination. *)
Fixpoint run (rs : list rdraw) (st : gstate) : outcome gstate :=
  match rs with
  | [] => Ok st
  | r :: rs' => if terminated st then Ok st else st' <- round st r ;; run rs' st'
  end.

(** Initial state, setup (dnest.c:1115-1145): one level at -DBL_MAX (its
    tiebreaker is drawn by each task separately), particles from the prior on
    level 0, limits empty.  [init] lists for each task the tiebreaker and the
    particles. *)
Definition bottom (tb0 : Z) : level := mklevel (mklik (Val (- DBL_MAX)) tb0) 0 0 0 0.
Definition init_task (x : Z * list (list dbl * lik)) : task :=
  mktask (map (fun p => mkpart (fst p) (snd p) O) (snd x)) [bottom (fst x)] []
    (repeat (repeat (Val DBL_MAX, Val (- DBL_MAX)) (o_dim o)) alloc).
Definition init_state (init : list (Z * list (list dbl * lik))) : gstate :=
  mkg (map init_task init)
    (match init with [] => [] | x :: _ => [bottom (fst x)] end)
    [] (o_maxl o) 0 0 [] [].

End Sampler.
