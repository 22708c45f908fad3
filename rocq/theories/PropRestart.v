(** C17, C18, C19: snapshots, restarts, crashes. *)
From Coq Require Import ZArith List Bool Lia Arith.
From Verif Require Import CPrelude SortModel SortProofs ListLemmas DnestModel DnestProofs DnestRound DnestRuns
  SamplerSpec SamplerFacts SamplerFacts2 SamplerExamples
  RestartModel RestartProofs RestartSpec RestartFacts RestartExamples.
Import ListNotations.
Open Scope Z_scope.

(** ** C17 *)

(** Reading what was written gives back everything bit for bit, except that
    only the low 32 bits of the step counter survive. *)
Theorem C17_snapshot_round_trip : forall lim dim n maxl maxs s, snap_wf lim dim n s ->
  s_levels s <> [] -> Forall (fun a => fst a < Z.of_nat (length (s_levels s))) (s_assign s) ->
  (if (maxl =? 0)%nat then (length (s_levels s) <= LEVEL_NUM_MAX)%nat else (length (s_levels s) <= maxl)%nat) ->
  s_saves s <= maxs ->
  read_snap lim dim n maxl maxs (write_snap lim s) =
    Ok (mksnap (s_saves s) (s_steps s mod 2^32) (s_levels s) (s_assign s) (s_limits s) (s_parts s)).
Proof. exact c17. Qed.
Print Assumptions C17_snapshot_round_trip.

Corollary C17_exact_below_2_32 : forall lim dim n maxl maxs s, snap_wf lim dim n s ->
  s_levels s <> [] -> Forall (fun a => fst a < Z.of_nat (length (s_levels s))) (s_assign s) ->
  (if (maxl =? 0)%nat then (length (s_levels s) <= LEVEL_NUM_MAX)%nat else (length (s_levels s) <= maxl)%nat) ->
  s_saves s <= maxs -> 0 <= s_steps s < 2^32 ->
  read_snap lim dim n maxl maxs (write_snap lim s) = Ok s.
Proof.
  intros lim dim n maxl maxs s W H1 H2 H3 H4 H5. rewrite c17 by assumption. rewrite Z.mod_small by assumption.
  destruct s; reflexivity.
Qed.
Print Assumptions C17_exact_below_2_32.

(** Each task gets back its own particles, levels and likelihoods when the
    likelihood function returns what it returned before. *)
Theorem C17_tasks_get_their_particles_back : forall ptol_ok o1 o2 st1 s, lives ptol_ok o1 st1 ->
  same_shape o1 o2 -> snapshot_of o1 s st1 ->
  (if (o_maxl o2 =? 0)%nat then (length (g_comb st1) <= LEVEL_NUM_MAX)%nat else (length (g_comb st1) <= o_maxl o2)%nat) ->
  g_saves st1 <= o_maxs o2 ->
  (forall t p l, In t (g_tasks st1) -> In p (parts t) -> nth_error (g_comb st1) (plev p) = Some l ->
     dlt (lv (plik p)) (lv (lk l)) = false) ->
  exists st2, restart o2 (write_snap (o_lim o1) s) (map (fun t => map (fun p => lv (plik p)) (parts t)) (g_tasks st1)) = Ok st2 /\
    map parts (g_tasks st2) = map parts (g_tasks st1) /\ g_comb st2 = g_comb st1 /\
    Forall (fun t => levels t = g_comb st1) (g_tasks st2) /\
    (o_lim o2 = true -> Forall (fun t => firstn (length (g_comb st1)) (limits t) = map row_of (s_limits s)) (g_tasks st2)).
Proof.
  intros ptol_ok o1 o2 st1 s H. apply same_values with (ptol_ok := ptol_ok). apply (lives_inv ptol_ok o1 st1 H).
Qed.
Print Assumptions C17_tasks_get_their_particles_back.

(** The step counter itself is not restored beyond 32 bits. *)
Theorem C17_step_counter_refuted : exists s, snap_wf false 1 1 s /\ w64 (s_steps s) /\ s_saves s <= 10 /\
  exists s', read_snap false 1 1 5 10 (write_snap false s) = Ok s' /\ s_steps s' <> s_steps s.
Proof.
  exists (mksnap 1 (2^32 + 7) [enc_level (bottom 0)] [(0, (0, 0))] [] [[0]]).
  split; [apply snap_wf_ok; vm_compute; reflexivity|]. split; [split; vm_compute; congruence|].
  split; [simpl; lia|]. eexists. split; [vm_compute; reflexivity|]. vm_compute. congruence.
Qed.
Print Assumptions C17_step_counter_refuted.

(** The snapshot of the example run: 340 bytes, read back exactly. *)
Example C17_example : length (write_snap true (enc snapst)) = 340%nat /\
  length (s_levels (enc snapst)) = 3%nat /\
  read_snap true 1 4 3 10 (write_snap true (enc snapst)) = Ok (enc snapst).
Proof. repeat split; vm_compute; reflexivity. Qed.

(** ** C18 *)
Theorem C18_fewer_levels_read : forall lim dim n maxl maxs s, snap_wf lim dim n s ->
  (0 < maxl < length (s_levels s))%nat -> s_saves s <= maxs ->
  read_snap lim dim n maxl maxs (write_snap lim s) =
    Ok (mksnap (s_saves s) (s_steps s mod 2^32) (firstn maxl (s_levels s))
          (map (fun a => (Z.min (Z.of_nat maxl - 1) (fst a), snd a)) (s_assign s))
          (firstn maxl (s_limits s)) (s_parts s)).
Proof. exact c18_read. Qed.
Print Assumptions C18_fewer_levels_read.

(** The reassignment loop: it ends on the highest level at or below the old one
    whose threshold the value does not miss. *)
Theorem C18_reassignment : forall ls v a, (a < length ls)%nat ->
  (forall l, nth_error ls 0 = Some l -> dlt v (lv (lk l)) = false) ->
  exists b l, reassign ls v a = Ok b /\ (b <= a)%nat /\ nth_error ls b = Some l /\
    dlt v (lv (lk l)) = false /\
    forall i m, (b < i <= a)%nat -> nth_error ls i = Some m -> dlt v (lv (lk m)) = true.
Proof. exact reassign_spec. Qed.
Print Assumptions C18_reassignment.

(** Through any history of stops and restarts: particles stay on existing
    levels not above their log-likelihood, thresholds are ordered, counters are
    consistent, the table fits, and no round accesses memory out of bounds. *)
Theorem C18_invariants_across_restarts : forall ptol_ok o st, lives ptol_ok o st ->
  (forall t p, In t (g_tasks st) -> In p (parts t) -> not_below (g_comb st) (plev p) (plik p)) /\
  (forall i, In i (g_info st) -> not_below (g_comb st) (i_lev i) (i_lik i)) /\
  nondecreasing (g_comb st) /\ Forall counters_ok (g_comb st) /\
  length (g_tasks st) = o_tt o /\ (0 < length (g_comb st) <= alloc o)%nat.
Proof. exact lives_facts. Qed.
Print Assumptions C18_invariants_across_restarts.

Theorem C18_memory_safe_across_restarts : forall ptol_ok o st r,
  lives ptol_ok o st -> valid_round o r -> round ptol_ok o st r <> UB.
Proof. exact lives_safe. Qed.
Print Assumptions C18_memory_safe_across_restarts.

(** Restarting from a snapshot of such a state succeeds, with the lowest levels
    up to the new limit. *)
Theorem C18_restart_succeeds : forall ptol_ok o1 o2 st1 s vs, lives ptol_ok o1 st1 -> same_shape o1 o2 -> valid_opts o2 ->
  snapshot_of o1 s st1 -> values_ok o2 s vs ->
  (o_maxl o2 = O -> (length (s_levels s) < LEVEL_NUM_MAX)%nat) -> s_saves s <= o_maxs o2 ->
  exists st2, restart o2 (write_snap (o_lim o1) s) vs = Ok st2 /\
    g_comb st2 = firstn (if (o_maxl o2 =? 0)%nat then length (g_comb st1) else o_maxl o2) (g_comb st1) /\
    g_steps st2 = g_steps st1 mod 2^32 /\ g_saves st2 = g_saves st1 /\ g_pool st2 = [].
Proof.
  intros ptol_ok o1 o2 st1 s vs H Hs Hv Hso Hvs H0 Hle. destruct (lives_inv ptol_ok o1 st1 H) as [_ G].
  destruct (restart_ok ptol_ok o1 o2 st1 s vs G Hs Hv Hso Hvs H0 Hle) as (st2 & A & _ & B & C & D & E & _).
  exists st2. repeat split; auto.
Qed.
Print Assumptions C18_restart_succeeds.

(** A log-likelihood below the bottom threshold -DBL_MAX (minus infinity) runs
    the index below zero; a NaN stays on a level it does not exceed. *)
Theorem C18_minus_infinity_refuted : exists ls v a, (a < length ls)%nat /\ numeric v /\ reassign ls v a = UB.
Proof.
  exists [bottom 0], (Val (- INF)), O. split; [simpl; lia|]. split; [eexists; reflexivity|]. vm_compute. reflexivity.
Qed.
Print Assumptions C18_minus_infinity_refuted.
Theorem C18_nan_refuted : exists ls a, (a < length ls)%nat /\ reassign ls NaN a = Ok a /\
  forall x, ~ not_below ls a (mklik NaN x).
Proof.
  exists [bottom 0; mklevel (mklik (Val 5) 0) 0 0 0 0], 1%nat. split; [simpl; lia|]. split; [reflexivity|].
  intros x (l & E & [H|H]); [discriminate|]. injection E as <-. simpl in H. discriminate.
Qed.
Print Assumptions C18_nan_refuted.

(** Two of three levels kept. *)
Example C18_example :
  match read_snap true 1 4 2 10 (write_snap true (enc (fst crash))) with
  | Ok s => (length (s_levels s), map fst (s_assign (enc (fst crash))), map fst (s_assign s), length (s_limits s),
             s_parts s) = (2%nat, [2; 0; 1; 1], [1; 0; 1; 1], 2%nat, s_parts (enc (fst crash)))
  | _ => False
  end.
Proof. vm_compute. reflexivity. Qed.
Example C18_example_lives : lives never cro resumed.
Proof.
  assert (Hr : lives never cro snapst).
  { set (r1 := exround 1). set (r2 := exround 2).
    assert (V : forall k, valid_round cro (exround k)) by (intros; apply vround_ok; reflexivity).
    pose (s1 := getok st0 (round never cro st0 r1)).
    assert (L1 : lives never cro s1).
    { apply (lives_round never cro st0 r1); [apply lives_fresh; [apply cro_valid|apply cro_init]|apply V|vm_compute; reflexivity|vm_compute; reflexivity]. }
    apply (lives_round never cro s1 r2); [exact L1|apply V|vm_compute; reflexivity|vm_compute; reflexivity]. }
  apply (lives_restart never cro snapst (enc snapst) cro (values snapst)).
  - exact Hr.
  - apply cro_valid.
  - repeat split.
  - apply snapst_ok.
  - apply snapst_values.
  - intros H. discriminate.
  - apply resumed_ok.
Qed.

(** ** C19 *)

(** The last snapshot of a run that ended normally is the final state. *)
Theorem C19_last_snapshot_is_final_state : forall ptol_ok o start nsr rs st st' h' d,
  run_snaps ptol_ok o start nsr rs st [] = Ok (st', h') -> terminated o st = false -> terminated o st' = true ->
  last (final_snaps start nsr st' h') d = st'.
Proof. exact final_snapshot. Qed.
Print Assumptions C19_last_snapshot_is_final_state.

(** Rows written after a restart from a snapshot with c saves: M - c, whatever
    was in the files before. *)
Theorem C19_rows_after_restart : forall ptol_ok o1 o2 st1 s vs st2 rs st3,
  lives ptol_ok o1 st1 -> same_shape o1 o2 -> valid_opts o2 -> snapshot_of o1 s st1 -> values_ok o2 s vs ->
  (o_maxl o2 = O -> (length (s_levels s) < LEVEL_NUM_MAX)%nat) -> sizes_ok o2 ->
  restart o2 (write_snap (o_lim o1) s) vs = Ok st2 -> run ptol_ok o2 rs st2 = Ok st3 ->
  (cap o2 <= Z.of_nat (length rs) -> terminated o2 st3 = true) /\
  (terminated o2 st3 = true -> g_saves st3 = o_maxs o2 /\
     Z.of_nat (length (g_sample st3)) = o_maxs o2 - g_saves st1 /\
     Z.of_nat (length (g_info st3)) = o_maxs o2 - g_saves st1).
Proof.
  intros ptol_ok o1 o2 st1 s vs st2 rs st3 H Hs Hv Hso Hvs H0 Hz E Er.
  destruct (lives_inv ptol_ok o1 st1 H) as [_ G].
  assert (Hle : s_saves s <= o_maxs o2).
  { destruct (Z_le_gt_dec (s_saves s) (o_maxs o2)) as [h|h]; [exact h|exfalso].
    unfold restart in E. destruct Hso as [W S1 S2 S3 S4 S5]. destruct Hs as (E1 & E2 & E3 & E4).
    rewrite <- E1, <- E2, <- E3, <- E4 in E.
    erewrite (read_write _ _ _ _ _ _ _ W) in E.
    - destruct (o_maxs o2 <? s_saves s) eqn:El; [discriminate|]. apply Z.ltb_ge in El. lia.
    - apply kept_small; [apply (wf_nlev _ _ _ _ W)|]. intros e. specialize (H0 e). lia. }
  destruct (restart_ok ptol_ok o1 o2 st1 s vs G Hs Hv Hso Hvs H0 Hle) as (st2' & A & _ & B & C & D & _ & F1 & F2).
  rewrite E in A. injection A as <-.
  pose proof (wf_saves _ _ _ _ (so_wf _ _ _ Hso)) as Wsv. rewrite (so_saves _ _ _ Hso) in Wsv, Hle. unfold w32 in Wsv.
  pose proof (Z.mod_pos_bound (g_steps st1) (2^32) ltac:(lia)).
  destruct (session_count ptol_ok o2 Hz rs st2 st3) as (R1 & R2 & R3 & R4 & R5); auto; try lia.
  split; [exact R4|]. intros Ht. specialize (R5 Ht). repeat split; lia.
Qed.
Print Assumptions C19_rows_after_restart.

(** Normal end with M1 samples, restart with limit M2 >= M1: M2 rows in all. *)
Theorem C19_stop_and_continue : forall ptol_ok o1 o2 init rs1 st1 s vs st2 rs2 st3,
  valid_opts o1 -> valid_init o1 init -> Forall (valid_round o1) rs1 -> save_sizes o1 ->
  run ptol_ok o1 rs1 (init_state o1 init) = Ok st1 -> terminated o1 st1 = true ->
  same_shape o1 o2 -> valid_opts o2 -> snapshot_of o1 s st1 -> values_ok o2 s vs ->
  (o_maxl o2 = O -> (length (s_levels s) < LEVEL_NUM_MAX)%nat) -> sizes_ok o2 ->
  restart o2 (write_snap (o_lim o1) s) vs = Ok st2 -> run ptol_ok o2 rs2 st2 = Ok st3 ->
  (cap o2 <= Z.of_nat (length rs2) -> terminated o2 st3 = true) /\
  (terminated o2 st3 = true ->
     Z.of_nat (length (g_sample st1 ++ g_sample st3)) = o_maxs o2 /\
     Z.of_nat (length (g_info st1 ++ g_info st3)) = o_maxs o2).
Proof.
  intros ptol_ok o1 o2 init rs1 st1 s vs st2 rs2 st3 Hv1 Hi Hr1 Hz1 E1 Ht1 Hs Hv2 Hso Hvs H0 Hz2 E2 E3.
  assert (L : lives ptol_ok o1 st1).
  { revert E1. generalize (init_state o1 init), (lives_fresh ptol_ok o1 init Hv1 Hi). clear - Hr1.
    induction Hr1 as [|r rs Hr Hrs IH]; intros st L E; simpl in E; [injection E as <-; exact L|].
    destruct (terminated o1 st) eqn:Et; [injection E as <-; exact L|]. apply bind_ok in E. destruct E as (st' & E & E').
    apply (IH st'); auto. apply (lives_round ptol_ok o1 st r); auto. }
  destruct (c08_final ptol_ok o1 Hz1 Hv1 init rs1 st1 Hi Hr1 E1) as [_ C]. destruct (C Ht1) as (C1 & C2 & C3).
  destruct (C19_rows_after_restart ptol_ok o1 o2 st1 s vs st2 rs2 st3 L Hs Hv2 Hso Hvs H0 Hz2 E2 E3) as [D1 D2].
  split; [exact D1|]. intros Ht. destruct (D2 Ht) as (D3 & D4 & D5). rewrite !app_length. lia.
Qed.
Print Assumptions C19_stop_and_continue.

(** After a crash the files hold [a] sample rows and [b] information rows (what
    had been flushed); the final numbers of rows are off by a - c and b - c. *)
Theorem C19_rows_after_crash : forall ptol_ok o st1 s vs st2 rs st3 (a b : list (list dbl)) ,
  lives ptol_ok o st1 -> valid_opts o -> snapshot_of o s st1 -> values_ok o s vs ->
  (o_maxl o = O -> (length (s_levels s) < LEVEL_NUM_MAX)%nat) -> sizes_ok o ->
  restart o (write_snap (o_lim o) s) vs = Ok st2 -> run ptol_ok o rs st2 = Ok st3 -> terminated o st3 = true ->
  Z.of_nat (length a + length (g_sample st3)) = o_maxs o + (Z.of_nat (length a) - g_saves st1) /\
  Z.of_nat (length b + length (g_info st3)) = o_maxs o + (Z.of_nat (length b) - g_saves st1).
Proof.
  intros ptol_ok o st1 s vs st2 rs st3 a b L Hv Hso Hvs H0 Hz E1 E2 Ht.
  destruct (C19_rows_after_restart ptol_ok o o st1 s vs st2 rs st3 L) as [_ D]; auto.
  { repeat split. }
  destruct (D Ht) as (D1 & D2 & D3). lia.
Qed.
Print Assumptions C19_rows_after_crash.

(** num_saves_restart, dnest.c:1117 for max_num_saves = 10. *)
Definition nsr10 : Z := Z.max (10 / 5) 1.

(** Crash after the third save, restart from the latest snapshot (taken at the
    second): 11 rows instead of 10. *)
Theorem C19_crash_refuted : exists ptol_ok o init rs st hist s vs st2 rs2 st3,
  valid_opts o /\ o_maxs o = 10 /\ valid_init o init /\ Forall (valid_round o) rs /\
  run_snaps ptol_ok o 0 nsr10 rs (init_state o init) [] = Ok (st, hist) /\
  snapshot_of o s (last hist (init_state o init)) /\ values_ok o s vs /\
  restart o (write_snap (o_lim o) s) vs = Ok st2 /\ Forall (valid_round o) rs2 /\
  run ptol_ok o rs2 st2 = Ok st3 /\ terminated o st3 = true /\
  length (g_sample st ++ g_sample st3) = 11%nat.
Proof.
  exists never, cro, exinit, (crounds 3), (fst crash), (snd crash), (enc snapst), (values snapst), resumed, (crounds 20), finished.
  split; [apply cro_valid|]. split; [reflexivity|]. split; [apply cro_init|]. split; [apply crounds_ok|].
  split; [rewrite <- surjective_pairing; apply crash_ok|]. split; [apply snapst_ok|]. split; [apply snapst_values|].
  split; [apply resumed_ok|]. split; [apply crounds_ok|]. split; [apply finished_ok|]. split; vm_compute; reflexivity.
Qed.
Print Assumptions C19_crash_refuted.

Example C19_example_continue : (* the same restart, counted from the snapshot itself *)
  length (g_sample snapst ++ g_sample finished) = 10%nat /\ sizes_ok cro /\ cap cro = 21.
Proof. repeat split; vm_compute; reflexivity. Qed.
