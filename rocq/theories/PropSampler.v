(** The sampler (cdnest/dnest.c): statements C01-C04, C06-C13, C15, C16.
    The model is DnestModel/SortModel; the words used in the statements are in
    SamplerSpec; proofs are in DnestProofs, DnestRound, DnestRuns,
    SamplerFacts, SamplerFacts2, LimitsFacts.  [ptol_ok] is the unmodelled
    floating-point part of enough_levels: everything holds for every such
    function.  The run [exrun] of SamplerExamples (options [exo], initial
    particles [exinit], draws [exrounds]; 3 levels are built, 3 samples saved)
    meets the hypotheses of all positive statements, as the Examples show. *)
From Coq Require Import ZArith List Bool Lia Arith Permutation.
From Verif Require Import CPrelude SortModel SortProofs ListLemmas DnestModel DnestProofs DnestRound DnestRuns
  SamplerSpec SamplerFacts SamplerFacts2 LimitsFacts SamplerExamples.
Import ListNotations.
Open Scope Z_scope.

(** A reachable state of the example run after any number of rounds. *)
Lemma ex_reachable : forall n st, run never exo (firstn n exrounds) (init_state exo exinit) = Ok st ->
  reachable never exo st.
Proof.
  intros n st E. exists exinit, (firstn n exrounds). split; [apply exinit_valid|]. split; [|exact E].
  pose proof exrounds_valid as H. rewrite <- (firstn_skipn n exrounds) in H. apply Forall_app in H. tauto.
Qed.

(** ** The model never runs into undefined behaviour: no read or write outside
    an array, no division by zero. *)
Theorem C00_sampler_memory_safe : forall ptol_ok o init rs,
  valid_opts o -> valid_init o init -> Forall (valid_round o) rs ->
  run ptol_ok o rs (init_state o init) <> UB.
Proof. exact reachable_safe. Qed.
Print Assumptions C00_sampler_memory_safe.

(** ** C01 *)
Theorem C01_particles_inside_their_level : forall ptol_ok o st,
  valid_opts o -> reachable ptol_ok o st ->
  forall t p, In t (g_tasks st) -> In p (parts t) ->
    inside (g_comb st) (plev p) (plik p) /\ inside (levels t) (plev p) (plik p).
Proof. exact c01_particles. Qed.
Print Assumptions C01_particles_inside_their_level.

(** Also after any number of steps inside a round, on any task. *)
Theorem C01_particles_inside_during_round : forall ptol_ok o st,
  valid_opts o -> reachable ptol_ok o st ->
  forall t mx ds t', In t (g_tasks st) -> mx = g_rmax st \/ mx = o_maxl o ->
  Forall (valid_draw o) ds -> (length ds <= o_ts o)%nat ->
  mcmc_run ptol_ok o mx t ds = Ok t' ->
  forall p, In p (parts t') -> inside (levels t') (plev p) (plik p).
Proof. exact c01_mid. Qed.
Print Assumptions C01_particles_inside_during_round.

Theorem C01_rows_inside_their_level : forall ptol_ok o st,
  valid_opts o -> reachable ptol_ok o st ->
  forall i, In i (g_info st) -> inside (g_comb st) (i_lev i) (i_lik i).
Proof. exact c01_rows. Qed.
Print Assumptions C01_rows_inside_their_level.

(** Non-vacuity: a reachable state with a particle on level 2 and three rows. *)
Example C01_example : exists st, reachable never exo st /\
  length (g_info st) = 3%nat /\
  exists t p, In t (g_tasks st) /\ In p (parts t) /\ plev p = 2%nat.
Proof.
  destruct (run never exo (firstn 6 exrounds) (init_state exo exinit)) as [st| | |] eqn:E.
  2-4: vm_compute in E; discriminate.
  exists st. split; [exact (ex_reachable 6 st E)|]. vm_compute in E. injection E as <-.
  split; [reflexivity|]. eexists; eexists. split; [left; reflexivity|]. split; [left; reflexivity|]. reflexivity.
Qed.

(** ** C02 *)
Theorem C02_thresholds_permanent : forall ptol_ok o st rs st',
  valid_opts o -> reachable ptol_ok o st -> Forall (valid_round o) rs ->
  run ptol_ok o rs st = Ok st' ->
  prefix (thresholds (g_comb st)) (thresholds (g_comb st')).
Proof. exact c02_permanent. Qed.
Print Assumptions C02_thresholds_permanent.

Theorem C02_thresholds_nondecreasing : forall ptol_ok o st,
  valid_opts o -> reachable ptol_ok o st -> nondecreasing (g_comb st).
Proof. exact c02_nondecreasing. Qed.
Print Assumptions C02_thresholds_nondecreasing.

Theorem C02_thresholds_increasing : forall ptol_ok o init rs st,
  valid_opts o -> valid_init o init -> Forall (valid_round o) rs ->
  run ptol_ok o rs (init_state o init) = Ok st ->
  tie_free ptol_ok o rs (init_state o init) -> increasing (g_comb st).
Proof. exact c02_increasing. Qed.
Print Assumptions C02_thresholds_increasing.

(** The two rounds in which the example creates its levels are tie free. *)
Example C02_tie_free_example : tie_free never exo (firstn 2 exrounds) (init_state exo exinit).
Proof.
  right. split.
  - intros ts H. vm_compute in H. injection H as <-. vm_compute.
    repeat constructor; simpl; intuition discriminate.
  - intros st' H. vm_compute in H. injection H as <-. right. split.
    + intros ts H. vm_compute in H. injection H as <-. vm_compute.
      repeat constructor; simpl; intuition discriminate.
    + intros st'' _. exact I.
Qed.

(** Without distinct values strictness fails: repeated values are normal (a
    rejected proposal repeats the log-likelihood) and two levels can get the
    same threshold. *)
Theorem C02_strict_without_distinct_values_refuted : exists ptol_ok o init rs st,
  valid_opts o /\ valid_init o init /\ Forall (valid_round o) rs /\
  run ptol_ok o rs (init_state o init) = Ok st /\ ~ increasing (g_comb st).
Proof.
  destruct (run never tio tirounds (init_state tio ovinit)) as [st| | |] eqn:E.
  2-4: vm_compute in E; discriminate.
  exists never, tio, ovinit, tirounds, st.
  split; [constructor; simpl; lia|]. split; [split; [reflexivity|repeat constructor]|].
  split; [apply vrounds_ok; vm_compute; reflexivity|]. split; [exact E|].
  vm_compute in E. injection E as <-. intros H. specialize (H 2%nat 3%nat _ _ ltac:(lia) eq_refl eq_refl).
  vm_compute in H. discriminate.
Qed.
Print Assumptions C02_strict_without_distinct_values_refuted.

(** ** C03 *)
Theorem C03_counters_consistent : forall ptol_ok o st,
  valid_opts o -> reachable ptol_ok o st ->
  Forall counters_ok (g_comb st) /\ forall t, In t (g_tasks st) -> Forall counters_ok (levels t).
Proof. exact c03. Qed.
Print Assumptions C03_counters_consistent.
Example C03_example : valid_opts exo /\ exists st, reachable never exo st /\
  map (fun l => (visits l, exceeds l, accepts l, tries l)) (g_comb st) = [(5, 5, 9, 9); (4, 4, 3, 3); (0, 0, 0, 0)].
Proof.
  split; [exact exo_valid|].
  destruct (run never exo (firstn 6 exrounds) (init_state exo exinit)) as [st| | |] eqn:E.
  2-4: vm_compute in E; discriminate.
  exists st. split; [exact (ex_reachable 6 st E)|]. vm_compute in E. injection E as <-. reflexivity.
Qed.

(** ** C04 *)
Theorem C04_no_lost_work : forall ptol_ok o st r st',
  valid_opts o -> reachable ptol_ok o st -> valid_round o r ->
  round ptol_ok o st r = Ok st' ->
  exists ts, after_steps ptol_ok o st r ts /\
    forall j l, nth_error (g_comb st) j = Some l ->
      let l1 := mklevel (lk l) (visits l + added visits j (visits l) ts)
                  (exceeds l + added exceeds j (exceeds l) ts)
                  (accepts l + added accepts j (accepts l) ts)
                  (tries l + added tries j (tries l) ts) in
      nth_error (g_comb st') j =
        Some (if (length (g_comb st) <? length (g_comb st'))%nat &&
                 (match enough_levels ptol_ok (o_maxl o) (g_comb st') with Ok b => b | _ => false end)
              then renorm_level (o_reg o) l1 (* the round that closes level building *)
              else l1).
Proof. exact c04_round. Qed.
Print Assumptions C04_no_lost_work.

Theorem C04_tries_count_steps : forall ptol_ok o st,
  valid_opts o -> Z.of_nat (o_tt o * o_ts o) < 2^32 ->
  reachable ptol_ok o st -> building ptol_ok (o_maxl o) (g_comb st) ->
  g_steps st = u64 (sumZ (map tries (g_comb st))).
Proof. exact c04_tries. Qed.
Print Assumptions C04_tries_count_steps.

Example C04_example : exists st, reachable never exo st /\ building never (o_maxl exo) (g_comb st) /\
  sumZ (map tries (g_comb st)) = 4.
Proof.
  destruct (run never exo (firstn 1 exrounds) (init_state exo exinit)) as [st| | |] eqn:E.
  2-4: vm_compute in E; discriminate.
  exists st. split; [exact (ex_reachable 1 st E)|]. vm_compute in E. injection E as <-.
  split; reflexivity.
Qed.

(** ** C06: compression at least 6/5 *)
Theorem C06_pool_fits : forall ptol_ok o st,
  valid_opts o -> 5 * o_cp o >= 6 * o_cq o -> pool_size_fits o -> reachable ptol_ok o st ->
  forall r ts, valid_round o r -> after_steps ptol_ok o st r ts ->
    Z.of_nat (length (g_pool st ++ flat_map above ts)) <= size_all_above_max o /\
    Forall (fun t => (length (above t) <= 2 * o_nli o)%nat) ts.
Proof. exact c06_fits. Qed.
Print Assumptions C06_pool_fits.

(** The only abort left is the 1000-level limit when no maximum is set. *)
Theorem C06_no_overflow_abort : forall ptol_ok o st r,
  valid_opts o -> 5 * o_cp o >= 6 * o_cq o -> pool_size_fits o ->
  reachable ptol_ok o st -> valid_round o r -> round ptol_ok o st r = Exit ->
  o_maxl o = O /\ S (length (g_comb st)) = LEVEL_NUM_MAX.
Proof. exact c06_no_abort. Qed.
Print Assumptions C06_no_overflow_abort.

Example C06_example : 5 * o_cp exo >= 6 * o_cq exo /\ pool_size_fits exo.
Proof. vm_compute. split; congruence. Qed.

Theorem C06_small_compression_refuted : exists ptol_ok o init rs,
  valid_opts o /\ o_maxl o <> O /\ pool_size_fits o /\ 10 * o_cp o = 11 * o_cq o /\ valid_init o init /\
  Forall (valid_round o) rs /\ run ptol_ok o rs (init_state o init) = Exit.
Proof.
  exists never, ovo, ovinit, (map ovround [1;2;3;4;5;6;7;8;9;10]).
  split; [constructor; simpl; lia|]. split; [discriminate|]. split; [vm_compute; reflexivity|].
  split; [reflexivity|]. split; [split; [reflexivity|repeat constructor]|].
  split; [apply vrounds_ok; vm_compute; reflexivity|]. vm_compute. reflexivity.
Qed.
Print Assumptions C06_small_compression_refuted.

(** ** C07 *)
Theorem C07_level_count_bounded : forall ptol_ok o st,
  valid_opts o -> reachable ptol_ok o st ->
  (o_maxl o <> O -> (length (g_comb st) <= o_maxl o)%nat) /\
  (o_maxl o = O -> (length (g_comb st) < LEVEL_NUM_MAX)%nat) /\
  (length (g_comb st) <= alloc o)%nat /\
  forall t, In t (g_tasks st) -> length (levels t) = length (g_comb st).
Proof. exact c07. Qed.
Print Assumptions C07_level_count_bounded.
Example C07_example : valid_opts exo /\ o_maxl exo = 3%nat /\ exists st, reachable never exo st /\ length (g_comb st) = 3%nat.
Proof.
  split; [exact exo_valid|]. split; [reflexivity|].
  destruct (run never exo (firstn 6 exrounds) (init_state exo exinit)) as [st| | |] eqn:E.
  2-4: vm_compute in E; discriminate.
  exists st. split; [exact (ex_reachable 6 st E)|]. vm_compute in E. injection E as <-. reflexivity.
Qed.

(** ** C08 *)
Theorem C08_saves_at_any_time : forall ptol_ok o,
  save_sizes o -> valid_opts o -> forall st, reachable ptol_ok o st ->
  g_saves st <= o_maxs o /\ Z.of_nat (length (g_sample st)) = g_saves st /\
  length (g_info st) = length (g_sample st) /\
  (Z.of_nat (o_tt o * o_ts o) <= o_si o -> g_saves st = g_steps st / o_si o).
Proof. exact c08_any_time. Qed.
Print Assumptions C08_saves_at_any_time.

(** A run that is given enough rounds has ended, with exactly M rows. *)
Theorem C08_exactly_M_samples : forall ptol_ok o,
  save_sizes o -> valid_opts o -> forall init rs st, valid_init o init ->
  Forall (valid_round o) rs -> run ptol_ok o rs (init_state o init) = Ok st ->
  (o_maxs o * (o_si o / Z.of_nat (o_tt o * o_ts o) + 1) <= Z.of_nat (length rs) -> terminated o st = true) /\
  (terminated o st = true ->
    g_saves st = o_maxs o /\ Z.of_nat (length (g_sample st)) = o_maxs o /\
    Z.of_nat (length (g_info st)) = o_maxs o).
Proof. exact c08_final. Qed.
Print Assumptions C08_exactly_M_samples.

(** Once level building is over nothing can stop a round. *)
Theorem C08_no_abort_after_building : forall ptol_ok o rs st,
  valid_opts o -> reachable ptol_ok o st -> Forall (valid_round o) rs ->
  building_done ptol_ok (o_maxl o) (g_comb st) ->
  Z.of_nat (length (g_pool st)) <= size_all_above_max o ->
  (o_maxl o = O -> S (length (g_comb st)) <> LEVEL_NUM_MAX) ->
  exists st', run ptol_ok o rs st = Ok st'.
Proof.
  intros ptol_ok o rs st Hv Hre. exact (run_done_ok ptol_ok o rs st Hv (reachable_ginv ptol_ok o st Hv Hre)).
Qed.
Print Assumptions C08_no_abort_after_building.

Example C08_example : save_sizes exo /\ exists st,
  run never exo exrounds (init_state exo exinit) = Ok st /\
  o_maxs exo * (o_si exo / Z.of_nat (o_tt exo * o_ts exo) + 1) <= Z.of_nat (length exrounds).
Proof.
  split; [vm_compute; repeat split; congruence|]. eexists. split; [vm_compute; reflexivity|vm_compute; congruence].
Qed.

(** MaxNumberSaves times the save interval beyond 32 bits: a sample is saved
    one round after the previous one, far too early. *)
Theorem C08_wraparound_refuted : exists ptol_ok o init rs st,
  valid_opts o /\ valid_init o init /\ Forall (valid_round o) rs /\ 0 < o_si o < 2^32 /\
  Z.of_nat (o_tt o * o_ts o) <= o_si o /\
  run ptol_ok o rs (init_state o init) = Ok st /\ g_saves st <> g_steps st / o_si o.
Proof.
  assert (Hn : exists n, Z.of_nat n = 2^20) by (exists (Z.to_nat (2^20)); apply Z2Nat.id; lia).
  destruct Hn as [n Hn].
  assert (Hv : valid_opts (wro n)) by (constructor; simpl; lia).
  assert (Hi : valid_init (wro n) ovinit) by (split; [reflexivity|repeat constructor]).
  assert (Hr : Forall (valid_round (wro n)) (wrrounds n)).
  { apply Forall_forall. intros r Hr. apply repeat_spec in Hr. subst r.
    constructor.
    - reflexivity.
    - constructor; [|constructor]. split; [apply repeat_length|].
      apply Forall_forall. intros d Hd. apply repeat_spec in Hd. subst d. apply Nat.lt_0_1.
    - split; [reflexivity|]. repeat constructor.
    - apply Nat.lt_0_1.
    - apply Nat.lt_0_1. }
  destruct (run_done_ok never (wro n) (wrrounds n) (init_state (wro n) ovinit) Hv
             (init_ginv never (wro n) ovinit Hv Hi) Hr) as [st E].
  - reflexivity.
  - simpl g_pool. unfold size_all_above_max. cbn [wro o_cp o_cq o_ts o_tt o_nli length].
    rewrite Hn. vm_compute. congruence.
  - discriminate.
  - exists never, (wro n), ovinit, (wrrounds n), st. split; [exact Hv|]. split; [exact Hi|]. split; [exact Hr|].
    split; [cbn [wro o_si]; lia|].
    split; [cbn [wro o_tt o_ts o_si]; lia|].
    split; [exact E|].
    pose proof (run_counts never (wro n) Hv (wrrounds n) _ st (init_ginv never (wro n) ovinit Hv Hi) Hr E) as C.
    assert (X : cnt_run (wro n) (length (wrrounds n))
                  (g_steps (init_state (wro n) ovinit), g_saves (init_state (wro n) ovinit))
                = (2^31 + 2^20, 2)).
    { unfold wrrounds. rewrite repeat_length. cbn [init_state g_steps g_saves ovinit].
      assert (RS : round_steps (wro n) = 2^20).
      { unfold round_steps. cbn [wro o_ts o_tt]. rewrite Hn. reflexivity. }
      assert (CN : forall c, cnt_next (wro n) c =
         (u64 (fst c + 2^20), if u32 ((snd c + 1) * 2^31) <=? u64 (fst c + 2^20) then u32 (snd c + 1) else snd c)).
      { intros c. unfold cnt_next, save_due. rewrite RS. reflexivity. }
      assert (CR : forall k c, cnt_run (wro n) k c = (fix go (k : nat) (c : Z * Z) : Z * Z :=
         match k with O => c | S k' => if negb (snd c =? 0) && (snd c mod 3 =? 0) then c
           else go k' (u64 (fst c + 2^20), if u32 ((snd c + 1) * 2^31) <=? u64 (fst c + 2^20) then u32 (snd c + 1) else snd c) end) k c).
      { induction k as [|k IH]; intros c; [reflexivity|]. cbn [cnt_run wro o_maxs]. fold (wro n). rewrite IH, CN. reflexivity. }
      rewrite CR. vm_compute. reflexivity. }
    rewrite X in C. injection C as -> ->. vm_compute. discriminate.
Qed.
Print Assumptions C08_wraparound_refuted.

(** ** C09 *)
Theorem C09_rows_describe_one_particle : forall ptol_ok o, valid_opts o ->
  forall init rs st, valid_init o init -> Forall (valid_round o) rs ->
  run ptol_ok o rs (init_state o init) = Ok st ->
  length (g_sample st) = length (g_info st) /\
  forall k row inf, nth_error (g_sample st) k = Some row -> nth_error (g_info st) k = Some inf ->
  exists rs1 rs2 st1 i j t p,
    rs = rs1 ++ rs2 /\ run ptol_ok o rs1 (init_state o init) = Ok st1 /\ length (g_sample st1) = S k /\
    nth_error (g_tasks st1) i = Some t /\ nth_error (parts t) j = Some p /\
    row = pm p /\ inf = mkinfo (plev p) (plik p) (Z.of_nat i * Z.of_nat (o_np o) + Z.of_nat j).
Proof. exact c09. Qed.
Print Assumptions C09_rows_describe_one_particle.
Example C09_example : valid_opts exo /\ valid_init exo exinit /\ Forall (valid_round exo) exrounds /\ exists st,
  run never exo exrounds (init_state exo exinit) = Ok st /\ g_sample st = [[Val 103]; [Val 203]; [Val 303]] /\
  map (fun i => (i_lev i, lv (i_lik i), i_id i)) (g_info st) = [(0%nat, Val 103, 3); (1%nat, Val 203, 3); (1%nat, Val 303, 3)].
Proof.
  split; [exact exo_valid|]. split; [exact exinit_valid|]. split; [exact exrounds_valid|].
  eexists. split; [vm_compute; reflexivity|]. split; reflexivity.
Qed.

(** ** C10 *)
Theorem C10_same_tables : forall ptol_ok o, valid_opts o -> forall st, reachable ptol_ok o st ->
  forall t, In t (g_tasks st) ->
    length (levels t) = length (g_comb st) /\
    forall j a b, nth_error (levels t) j = Some a -> nth_error (g_comb st) j = Some b ->
      lv (lk a) = lv (lk b) /\ visits a = visits b /\ exceeds a = exceeds b /\
      accepts a = accepts b /\ tries a = tries b.
Proof. exact c10_tables. Qed.
Print Assumptions C10_same_tables.

(** From the first round on the tables are identical in all fields. *)
Theorem C10_identical_after_a_round : forall ptol_ok o st r st',
  round ptol_ok o st r = Ok st' ->
  forall t, In t (g_tasks st') -> levels t = g_comb st' /\ above t = [].
Proof. exact c10_exact. Qed.
Print Assumptions C10_identical_after_a_round.

Theorem C10_agree_on_building : forall ptol_ok o, valid_opts o -> forall st, reachable ptol_ok o st ->
  exists b, forall t, In t (g_tasks st) ->
    enough_levels ptol_ok (g_rmax st) (levels t) = Ok b /\ enough_levels ptol_ok (o_maxl o) (levels t) = Ok b.
Proof. exact c10_agree. Qed.
Print Assumptions C10_agree_on_building.
Example C10_example : exists st, reachable never exo st /\ length (g_tasks st) = 2%nat /\ length (g_comb st) = 3%nat /\
  forall t, In t (g_tasks st) -> enough_levels never (o_maxl exo) (levels t) = Ok true.
Proof.
  destruct (run never exo (firstn 6 exrounds) (init_state exo exinit)) as [st| | |] eqn:E.
  2-4: vm_compute in E; discriminate.
  exists st. split; [exact (ex_reachable 6 st E)|]. vm_compute in E. injection E as <-.
  split; [reflexivity|]. split; [reflexivity|]. intros t [<-|[<-|[]]]; reflexivity.
Qed.

(** ** C11.  [k_bad] tells which particles are lagging. *)
Theorem C11_replacement_copies_a_survivor : forall o ls ps k ps',
  length ps = o_np o -> valid_kill o k -> Forall (fun p => (plev p < length ls)%nat) ps ->
  kill_lagging o ls ps k = Ok ps' ->
  length ps' = length ps /\
  (forall i p, nth_error ps' i = Some p -> nth_error (k_bad k) i = Some false -> nth_error ps i = Some p) /\
  (forall i p, nth_error ps' i = Some p -> nth_error (k_bad k) i = Some true ->
     (exists c, nth_error (k_bad k) c = Some false) ->
     exists c, nth_error (k_bad k) c = Some false /\ nth_error ps c = Some p) /\
  ((forall i, nth_error (k_bad k) i <> Some false) -> ps' = ps).
Proof. exact c11. Qed.
Print Assumptions C11_replacement_copies_a_survivor.

Example C11_example :
  let ps := [mkpart [Val 1] (mklik (Val 1) 0) 0; mkpart [Val 2] (mklik (Val 2) 0) 1] in
  kill_lagging exo [bottom 0; bottom 0] ps
    (mkkill [true; false] [[(1%nat, false); (0%nat, true); (1%nat, true)]; []])
  = Ok [mkpart [Val 2] (mklik (Val 2) 0) 1; mkpart [Val 2] (mklik (Val 2) 0) 1].
Proof. reflexivity. Qed.

(** ** C12 *)
Theorem C12_limits_nested : forall ptol_ok o, o_lim o = true ->
  forall st, valid_opts o -> reachable ptol_ok o st ->
  forall t t', In t (g_tasks st) -> In t' (g_tasks st) ->
    limits t = limits t' /\ length (limits t) = alloc o /\
    forall j k a b, (j < k)%nat -> nth_error (limits t) j = Some a -> nth_error (limits t) k = Some b ->
      row_contains a b.
Proof. exact c12_nested. Qed.
Print Assumptions C12_limits_nested.

Theorem C12_limits_only_grow : forall ptol_ok o, o_lim o = true ->
  forall st r st', valid_opts o -> reachable ptol_ok o st -> valid_round o r ->
  round ptol_ok o st r = Ok st' ->
  forall t t' j a, In t (g_tasks st) -> In t' (g_tasks st') -> nth_error (limits t) j = Some a ->
    exists b, nth_error (limits t') j = Some b /\ row_contains b a.
Proof. exact c12_grow. Qed.
Print Assumptions C12_limits_only_grow.

(** Whenever a step of task [i] moves a particle to level [q], the limits of
    level [q] on every task contain its parameters at the end of the round. *)
Theorem C12_limits_contain_recorded : forall ptol_ok o, o_lim o = true ->
  forall st r st', valid_opts o -> reachable ptol_ok o st -> valid_round o r ->
  round ptol_ok o st r = Ok st' ->
  forall i t mx ds1 d ds2 t1 q xs,
    nth_error (g_tasks st) i = Some t -> nth_error (r_steps r) i = Some (ds1 ++ d :: ds2) ->
    mx = (if Nat.eqb i 0 then g_rmax st else o_maxl o) ->
    mcmc_run ptol_ok o mx t ds1 = Ok t1 -> moves_to t1 d q xs ->
    forall t', In t' (g_tasks st') ->
      exists row, nth_error (limits t') q = Some row /\
        forall k x iv, nth_error xs k = Some x -> nth_error row k = Some iv -> within x iv.
Proof. exact c12_records. Qed.
Print Assumptions C12_limits_contain_recorded.

(** In the example run level 2 has recorded parameters and level 1 contains them. *)
Example C12_example : o_lim exo = true /\ exists st, reachable never exo st /\
  map limits (g_tasks st) =
   [ [[(Val 101, Val 304)]; [(Val 201, Val 304)]; [(Val 301, Val 301)]];
     [[(Val 101, Val 304)]; [(Val 201, Val 304)]; [(Val 301, Val 301)]] ].
Proof.
  split; [reflexivity|].
  destruct (run never exo (firstn 6 exrounds) (init_state exo exinit)) as [st| | |] eqn:E.
  2-4: vm_compute in E; discriminate.
  exists st. split; [exact (ex_reachable 6 st E)|]. vm_compute in E. injection E as <-. reflexivity.
Qed.

(** ** C13 *)
Theorem C13_level_wraparound : forall y n, 0 < n ->
  exists r, mod_int y n = Ok r /\ 0 <= r < n /\ exists q, y = q * n + r.
Proof. exact mod_int_range. Qed.
Print Assumptions C13_level_wraparound.
Example C13_example : mod_int (-7) 3 = Ok 2 /\ mod_int 7 3 = Ok 1 /\ mod_int (-3) 3 = Ok 0.
Proof. repeat split. Qed.

(** ** C16 *)
Theorem C16_new_level_is_quantile : forall ptol_ok o, valid_opts o ->
  forall rmax comb pool rootlev ps k rmax' comb' pool' ps',
  Forall (fun e => numeric (lv e)) pool ->
  do_bookkeeping ptol_ok o rmax comb pool rootlev ps k = Ok (rmax', comb', pool', ps') ->
  (comb' = comb /\ pool' = pool) \/
  exists th removed,
    thresholds comb' = thresholds comb ++ [th] /\
    Permutation pool (pool' ++ th :: removed) /\
    Z.of_nat (length pool') = Z.of_nat (length pool) * o_cq o / o_cp o /\
    (forall e, In e pool' -> lik_ge e th) /\ (forall e, In e removed -> lik_ge th e).
Proof. exact c16. Qed.
Print Assumptions C16_new_level_is_quantile.

(** The pools handed to it in a run hold numbers only. *)
Theorem C16_pools_are_numeric : forall ptol_ok o, valid_opts o ->
  forall st r ts, reachable ptol_ok o st -> valid_round o r ->
  after_steps ptol_ok o st r ts -> Forall (fun e => numeric (lv e)) (g_pool st ++ flat_map above ts).
Proof. exact pool_numeric. Qed.
Print Assumptions C16_pools_are_numeric.
(** Five recorded values and compression 2: the third largest becomes the new
    threshold, the two above it stay in the pool. *)
Example C16_example : let pool := map (fun v => mklik (Val v) 0) [30; 10; 50; 20; 40] in
  let ps := [mkpart [Val 1] (mklik (Val 1) 0) 0; mkpart [Val 2] (mklik (Val 2) 0) 0] in
  exists rmax' comb' pool' ps',
  do_bookkeeping never exo 3 [bottom 0] pool [bottom 0] ps (mkkill [false; false] [[]; []]) = Ok (rmax', comb', pool', ps') /\
  map (fun l => lv (lk l)) comb' = [Val (- DBL_MAX); Val 30] /\ map lv pool' = [Val 50; Val 40].
Proof. intros pool ps. do 4 eexists. split; [vm_compute; reflexivity|]. split; reflexivity. Qed.
