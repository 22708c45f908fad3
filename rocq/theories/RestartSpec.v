(** Vocabulary for the statements about restarting (PropRestart.v). *)
From Coq Require Import ZArith List Bool Lia.
From Verif Require Import CPrelude SortModel SortProofs ListLemmas DnestModel DnestProofs DnestRound SamplerSpec
  RestartModel RestartProofs.
Import ListNotations.
Open Scope Z_scope.

(** [s] is the raw memory image, taken by dnest_save_restart, of sampler state
    [st]: counters, level table, particles task by task, limits of root. *)
Record snapshot_of (o : opts) (s : snap) (st : gstate) : Prop := mksof
  { so_wf : snap_wf (o_lim o) (o_dim o) (o_tt o * o_np o) s;
    so_saves : s_saves s = g_saves st;
    so_steps : s_steps s = g_steps st;
    so_levels : map level_of (s_levels s) = g_comb st;
    so_parts : all_parts s = flat_map parts (g_tasks st);
    so_assign : Forall (fun a => fst a < Z.of_nat (length (s_levels s))) (s_assign s) }.

(** A restart must use the same number of tasks and particles, the same
    parameters and the same -l switch; intervals and limits may differ. *)
Definition same_shape (a b : opts) : Prop :=
  o_tt a = o_tt b /\ o_np a = o_np b /\ o_dim a = o_dim b /\ o_lim a = o_lim b.

(** Re-evaluated log-likelihoods, one list per task: numbers not below the
    threshold of the bottom level of [s]. *)
Definition values_ok (o : opts) (s : snap) (vs : list (list dbl)) : Prop :=
  length vs = o_tt o /\
  Forall (fun v => length v = o_np o /\
    Forall (fun x => numeric x /\
      forall l, nth_error (s_levels s) 0 = Some l -> dlt x (dbl_of (w_val l)) = false) v) vs.

(** States of a sampler that may have been stopped at any snapshot and
    restarted, with changed limits, any number of times. *)
Inductive lives (ptol_ok : list dbl -> bool) : opts -> gstate -> Prop :=
| lives_fresh : forall o init, valid_opts o -> valid_init o init -> lives ptol_ok o (init_state o init)
| lives_round : forall o st r st', lives ptol_ok o st -> valid_round o r -> terminated o st = false ->
    round ptol_ok o st r = Ok st' -> lives ptol_ok o st'
| lives_restart : forall o1 st1 s o2 vs st2, lives ptol_ok o1 st1 -> valid_opts o2 -> same_shape o1 o2 ->
    snapshot_of o1 s st1 -> values_ok o2 s vs ->
    (o_maxl o2 = O -> (length (s_levels s) < LEVEL_NUM_MAX)%nat) ->
    restart o2 (write_snap (o_lim o1) s) vs = Ok st2 -> lives ptol_ok o2 st2.

(** A likelihood is on or above the threshold of level number [n]. *)
Definition not_below (ls : list level) (n : nat) (x : lik) : Prop :=
  exists l, nth_error ls n = Some l /\ (n = O \/ dle (lv (lk l)) (lv x) = true).
