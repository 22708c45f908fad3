(** Proofs of the statements of PropSampler.v, continued. *)
From Coq Require Import ZArith List Bool Lia Arith Permutation Sorted.
From Verif Require Import CPrelude SortModel SortProofs ListLemmas DnestModel DnestProofs DnestRound DnestRuns SamplerSpec SamplerFacts.
Import ListNotations.
Open Scope Z_scope.

Section Facts2.
Variable ptol_ok : list dbl -> bool.
Variable o : opts.
Notation ginv := (ginv ptol_ok o dlt).

(** The memory reserved for the pool is computed in 32-bit arithmetic; this
    says that the product does not wrap. *)
Definition pool_size_fits : Prop :=
  (1 + (o_cp o + o_cq o - 1) / o_cq o) * Z.of_nat (o_ts o) * Z.of_nat (o_tt o)
    * (Z.of_nat (o_nli o) / Z.of_nat (o_ts o) + 1) < 2^32.

(** ** C06 *)
Lemma reachable_pool : forall st, valid_opts o -> 5 * o_cp o >= 6 * o_cq o -> pool_size_fits ->
  reachable ptol_ok o st -> (length (g_pool st) <= pool_bound o)%nat.
Proof.
  intros st Hv Hc Hw (init & rs & Hi & Hr & E).
  pose proof (run_no_exit ptol_ok o dlt rl rs (init_state o init) Hv Hc Hw (init_ginv ptol_ok o init Hv Hi)) as S.
  rewrite E in S. apply S; auto. simpl. lia.
Qed.

Lemma c06_fits : forall st, valid_opts o -> 5 * o_cp o >= 6 * o_cq o -> pool_size_fits ->
  reachable ptol_ok o st ->
  forall r ts, valid_round o r -> after_steps ptol_ok o st r ts ->
    Z.of_nat (length (g_pool st ++ flat_map above ts)) <= size_all_above_max o /\
    Forall (fun t => (length (above t) <= 2 * o_nli o)%nat) ts.
Proof.
  intros st Hv Hc Hw Hre r ts Hr Hts. pose proof (reachable_pool st Hv Hc Hw Hre) as Hp.
  pose proof (size_max_ge o Hv Hw) as Hs. pose proof (reachable_ginv ptol_ok o st Hv Hre) as G.
  destruct (enough_agree ptol_ok o dlt st G) as (en & E1 & E2).
  pose proof (run_tasks_spec ptol_ok o dlt (@rl) en (g_comb st) (gi_len _ _ _ _ G)
    ltac:(destruct Hv; nia) (g_tasks st) (g_rmax st :: repeat (o_maxl o) (length (g_tasks st) - 1))
    (r_steps r) (gi_tasks _ _ _ _ G)) as RT.
  unfold after_steps in Hts. rewrite Hts in RT. destruct RT as [L F].
  { constructor; [exact E1|]. apply Forall_forall. intros x Hx. apply repeat_spec in Hx. subst. exact E2. }
  { apply (vr_steps _ _ Hr). }
  assert (Ha : Forall (fun t => (length (above t) <= o_ts o)%nat) ts).
  { eapply Forall_impl; [|exact F]. intros t Ht. apply (ti_above_len _ _ _ _ _ _ _ _ Ht). }
  split.
  - pose proof (flat_map_above_len _ _ Ha). rewrite (gi_tt _ _ _ _ G) in L. rewrite L in H.
    rewrite app_length. lia.
  - eapply Forall_impl; [|exact Ha]. intros t Ht. simpl in Ht. destruct Hv. nia.
Qed.

Lemma c06_no_abort : forall st r, valid_opts o -> 5 * o_cp o >= 6 * o_cq o -> pool_size_fits ->
  reachable ptol_ok o st -> valid_round o r -> round ptol_ok o st r = Exit ->
  o_maxl o = O /\ S (length (g_comb st)) = LEVEL_NUM_MAX.
Proof.
  intros st r Hv Hc Hw Hre Hr E. pose proof (reachable_ginv ptol_ok o st Hv Hre) as G.
  pose proof (round_spec ptol_ok o dlt rl st r Hv G Hr) as S. rewrite E in S. simpl in S.
  apply (no_exit_round ptol_ok o st); auto. apply reachable_pool; auto.
Qed.

(** ** C07 *)
Lemma c07 : forall st, valid_opts o -> reachable ptol_ok o st ->
  (o_maxl o <> O -> (length (g_comb st) <= o_maxl o)%nat) /\
  (o_maxl o = O -> (length (g_comb st) < LEVEL_NUM_MAX)%nat) /\
  (length (g_comb st) <= alloc o)%nat /\
  forall t, In t (g_tasks st) -> length (levels t) = length (g_comb st).
Proof.
  intros st Hv Hre. pose proof (reachable_ginv ptol_ok o st Hv Hre) as G.
  pose proof (gi_len _ _ _ _ G) as [_ L]. repeat split; auto.
  - intros Hm. unfold alloc in L. destruct (o_maxl o); [congruence|exact L].
  - apply (gi_max0 _ _ _ _ G).
  - intros t Ht. pose proof (gi_tasks _ _ _ _ G) as T. rewrite Forall_forall in T. specialize (T t Ht).
    rewrite <- (vals_length (levels t)), (t0_vals o _ _ T). apply vals_length.
Qed.

(** ** C08 *)

Lemma round_rel_round : forall st r st', round_rel ptol_ok o dlt st r st' -> round ptol_ok o st r = Ok st'.
Proof.
  intros st r st' (st1 & E1 & _ & H). unfold round. rewrite E1. cbn [bind].
  destruct H as [[D (t & p & Ht & Hp & ->)]|[D ->]]; rewrite D; [|reflexivity].
  unfold save_particle, get. rewrite Ht. cbn [bind]. rewrite Hp. reflexivity.
Qed.

Definition T := round_steps o.
(** Number of rounds that always suffices for one save. *)
Definition rounds_per_save : Z := o_si o / T + 1.

Record save_inv (n : Z) (st : gstate) : Prop := mksi
  { si_steps : g_steps st = n * T;
    si_le : 0 <= g_saves st <= o_maxs o;
    si_rows : Z.of_nat (length (g_sample st)) = g_saves st;
    si_n : 0 <= n <= o_maxs o * rounds_per_save;
    si_ge : n / rounds_per_save <= g_saves st;
    si_floor : T <= o_si o -> g_saves st = g_steps st / o_si o }.

Definition save_sizes : Prop :=
  0 < o_si o /\ 0 < o_maxs o /\ o_maxs o * o_si o < 2^32 /\
  0 < Z.of_nat (o_tt o * o_ts o) < 2^32.

Lemma T_eq : save_sizes -> T = Z.of_nat (o_tt o * o_ts o).
Proof. intros (_ & _ & _ & H). unfold T, round_steps, u32. rewrite Z.mod_small; lia. Qed.

Lemma save_bounds : save_sizes -> forall n, 0 <= n <= o_maxs o * rounds_per_save -> n * T < 2^64.
Proof.
  intros Hs n Hn. pose proof (T_eq Hs) as HT. destruct Hs as (H1 & H2 & H3 & H4).
  rewrite <- HT in H4. unfold rounds_per_save in Hn.
  assert (o_maxs o < 2^32) by nia.
  assert (A : o_si o / T * T <= o_si o) by (pose proof (Z.mul_div_le (o_si o) T ltac:(lia)); lia).
  assert (0 <= o_si o / T) by (apply Z.div_pos; lia).
  assert (n * T <= o_maxs o * (o_si o / T + 1) * T) by nia.
  assert (o_maxs o * (o_si o / T + 1) * T = o_maxs o * (o_si o / T * T) + o_maxs o * T) by ring.
  assert (o_maxs o * (o_si o / T * T) <= o_maxs o * o_si o) by nia.
  assert (o_maxs o * T <= (2^32 - 1) * (2^32 - 1)) by nia. lia.
Qed.

Lemma save_inv_round : save_sizes -> forall n st r st', save_inv n st -> terminated o st = false ->
  round_rel ptol_ok o dlt st r st' -> save_inv (n + 1) st'.
Proof.
  intros Hs n st r st' [I1 I2 I3 I4 I5 I6] Ht Hr.
  destruct (round_counts ptol_ok o dlt st r st' Hr) as [Hc Hl]. unfold cnt_next in Hc. simpl in Hc.
  injection Hc as Hst Hsv. pose proof (T_eq Hs) as HT. pose proof (save_bounds Hs) as HB.
  pose proof Hs as (H1 & H2 & H3 & H4). rewrite <- HT in H4.
  assert (HK : 0 < rounds_per_save).
  { unfold rounds_per_save. assert (0 <= o_si o / T) by (apply Z.div_pos; lia). lia. }
  assert (HKT : o_si o < rounds_per_save * T).
  { unfold rounds_per_save. pose proof (Z.div_mod (o_si o) T ltac:(lia)).
    pose proof (Z.mod_pos_bound (o_si o) T ltac:(lia)). nia. }
  assert (Hlt : g_saves st < o_maxs o).
  { destruct (Z.eq_dec (g_saves st) (o_maxs o)) as [e|]; [|lia]. exfalso.
    unfold terminated in Ht. rewrite e, Z.mod_same in Ht by lia. simpl in Ht.
    destruct (o_maxs o =? 0) eqn:E0; [apply Z.eqb_eq in E0; lia|]. discriminate. }
  assert (Hn : n < o_maxs o * rounds_per_save).
  { apply Z.div_lt_upper_bound in Hlt || idtac.
    pose proof (Z.div_mod n rounds_per_save ltac:(lia)).
    pose proof (Z.mod_pos_bound n rounds_per_save ltac:(lia)). nia. }
  assert (Hsteps : g_steps st' = (n + 1) * T).
  { rewrite Hst, I1. unfold u64. rewrite Z.mod_small; [unfold T; ring|].
    pose proof (HB (n + 1) ltac:(lia)). split; [|fold T; lia]. fold T. nia. }
  assert (Hdue : save_due o (g_steps st') (g_saves st) = ((g_saves st + 1) * o_si o <=? (n + 1) * T)).
  { unfold save_due, u32. rewrite Z.mod_small by nia. rewrite Hsteps. reflexivity. }
  rewrite <- Hst in Hsv. rewrite Hdue in Hsv, Hl.
  assert (Hfl : T <= o_si o -> g_saves st = n * T / o_si o) by (intros h; rewrite (I6 h), I1; reflexivity).
  assert (Hfl2 : forall k, k * o_si o <= (n + 1) * T < (k + 1) * o_si o -> (n + 1) * T / o_si o = k).
  { intros k Hk. symmetry. apply (Z.div_unique _ _ k ((n + 1) * T - k * o_si o)); lia. }
  assert (Hpd : (n + 1) / rounds_per_save <= n / rounds_per_save + 1).
  { rewrite <- (Z.div_add n 1 rounds_per_save) by lia. apply Z.div_le_mono; lia. }
  assert (Hrange : T <= o_si o -> g_saves st * o_si o <= n * T < (g_saves st + 1) * o_si o).
  { intros h. rewrite (Hfl h). pose proof (Z.div_mod (n * T) (o_si o) ltac:(lia)).
    pose proof (Z.mod_pos_bound (n * T) (o_si o) ltac:(lia)). nia. }
  destruct ((g_saves st + 1) * o_si o <=? (n + 1) * T) eqn:E.
  - apply Z.leb_le in E.
    assert (Hv : g_saves st' = g_saves st + 1).
    { rewrite Hsv. unfold u32. apply Z.mod_small. nia. }
    constructor; try lia.
    intros h. rewrite Hsteps. specialize (Hrange h). rewrite Hv. symmetry. apply Hfl2. lia.
  - apply Z.leb_gt in E. constructor; try lia.
    + rewrite Hsv. destruct (Z_lt_le_dec (g_saves st) ((n + 1) / rounds_per_save)) as [Hq|Hq]; [|exact Hq].
      exfalso.
      pose proof (Z.mul_div_le (n + 1) rounds_per_save ltac:(lia)).
      assert ((g_saves st + 1) * rounds_per_save <= n + 1) by nia.
      assert ((g_saves st + 1) * rounds_per_save * T <= (n + 1) * T) by nia. nia.
    + intros h. rewrite Hsteps. specialize (Hrange h). rewrite Hsv. symmetry. apply Hfl2. lia.
Qed.

Lemma save_run : save_sizes -> valid_opts o -> forall init rs st, valid_init o init ->
  Forall (valid_round o) rs -> run ptol_ok o rs (init_state o init) = Ok st ->
  exists n, save_inv n st /\ n <= Z.of_nat (length rs) /\ (n < Z.of_nat (length rs) -> terminated o st = true).
Proof.
  intros Hs Hv init rs st Hi Hr E.
  destruct (run_ind ptol_ok o dlt rl (fun done s => save_inv (Z.of_nat (length done)) s) Hv rs _ st
    (init_ginv ptol_ok o init Hv Hi) Hr E) as (done & rest & El & H & Ht).
  - pose proof (T_eq Hs). destruct Hs as (H1 & H2 & H3 & H4).
    assert (0 <= o_si o / T) by (apply Z.div_pos; lia).
    assert (0 < rounds_per_save) by (unfold rounds_per_save; lia).
    constructor; simpl; try lia; try nia.
    + rewrite Z.div_0_l; lia.
    + intros _. rewrite Z.div_0_l; lia.
  - intros done r a b _ _ _ Hta Hab Ha. rewrite app_length. simpl length.
    rewrite Nat2Z.inj_add. eapply save_inv_round; eauto.
  - exists (Z.of_nat (length done)). rewrite El, app_length. split; [exact H|]. split; [lia|].
    intros Hlt. apply Ht. intros ->. simpl in Hlt. lia.
Qed.

Lemma c08_any_time : save_sizes -> valid_opts o -> forall st, reachable ptol_ok o st ->
  g_saves st <= o_maxs o /\ Z.of_nat (length (g_sample st)) = g_saves st /\
  length (g_info st) = length (g_sample st) /\
  (Z.of_nat (o_tt o * o_ts o) <= o_si o -> g_saves st = g_steps st / o_si o).
Proof.
  intros Hs Hv st Hre. pose proof (reachable_ginv ptol_ok o st Hv Hre) as G.
  destruct Hre as (init & rs & Hi & Hr & E).
  destruct (save_run Hs Hv init rs st Hi Hr E) as (n & [I1 I2 I3 I4 I5 I6] & _).
  rewrite (T_eq Hs) in I6. pose proof (gi_rows _ _ _ _ G). repeat split; auto; lia.
Qed.

Lemma c08_final : save_sizes -> valid_opts o -> forall init rs st, valid_init o init ->
  Forall (valid_round o) rs -> run ptol_ok o rs (init_state o init) = Ok st ->
  (o_maxs o * (o_si o / Z.of_nat (o_tt o * o_ts o) + 1) <= Z.of_nat (length rs) -> terminated o st = true) /\
  (terminated o st = true ->
    g_saves st = o_maxs o /\ Z.of_nat (length (g_sample st)) = o_maxs o /\
    Z.of_nat (length (g_info st)) = o_maxs o).
Proof.
  intros Hs Hv init rs st Hi Hr E.
  assert (Hre : reachable ptol_ok o st) by (exists init, rs; auto).
  destruct (c08_any_time Hs Hv st Hre) as (A1 & A2 & A3 & _).
  destruct (save_run Hs Hv init rs st Hi Hr E) as (n & [I1 I2 I3 I4 I5 I6] & Hn & Ht).
  rewrite <- (T_eq Hs). fold rounds_per_save. pose proof (T_eq Hs) as HT.
  destruct Hs as (H1 & H2 & H3 & H4).
  assert (HK : 0 < rounds_per_save).
  { unfold rounds_per_save. assert (0 <= o_si o / T) by (apply Z.div_pos; lia). lia. }
  split.
  - intros Hl. destruct (Z_lt_le_dec n (Z.of_nat (length rs))) as [h|h]; [auto|].
    assert (n = o_maxs o * rounds_per_save) by lia. subst n. rewrite Z.div_mul in I5 by lia.
    unfold terminated. replace (g_saves st) with (o_maxs o) by lia. rewrite Z.mod_same by lia.
    destruct (o_maxs o =? 0) eqn:E0; [apply Z.eqb_eq in E0; lia|reflexivity].
  - intros Hte. unfold terminated in Hte. apply andb_true_iff in Hte. destruct Hte as [Hte Hm].
    apply andb_true_iff in Hte. destruct Hte as [_ Hte]. apply Z.eqb_eq in Hm.
    destruct (g_saves st =? 0) eqn:E0; [discriminate|]. apply Z.eqb_neq in E0.
    assert (g_saves st = o_maxs o).
    { destruct (Z.eq_dec (g_saves st) (o_maxs o)); [auto|]. rewrite Z.mod_small in Hm; lia. }
    repeat split; auto; lia.
Qed.

(** Counting alone, with wrap-around; a run follows it. *)
Fixpoint cnt_run (n : nat) (c : Z * Z) : Z * Z :=
  match n with
  | O => c
  | S n' => if negb (o_maxs o =? 0) && negb (snd c =? 0) && (snd c mod o_maxs o =? 0) then c
            else cnt_run n' (cnt_next o c)
  end.

Lemma run_counts : valid_opts o -> forall rs st st', ginv st -> Forall (valid_round o) rs ->
  run ptol_ok o rs st = Ok st' -> (g_steps st', g_saves st') = cnt_run (length rs) (g_steps st, g_saves st).
Proof.
  intros Hv. induction rs as [|r rs IH]; intros st st' Hg Hr E; simpl in *; [injection E as <-; reflexivity|].
  unfold terminated in E. destruct (negb (o_maxs o =? 0) && _ && _) eqn:Et; [injection E as <-; reflexivity|].
  inversion Hr; subst. pose proof (round_spec ptol_ok o dlt rl st r Hv Hg H1) as S.
  destruct (round ptol_ok o st r) as [st1| | |]; try discriminate. destruct S as [S1 S2]. cbn [bind] in E.
  rewrite (IH st1 st' S2 H2 E). destruct (round_counts ptol_ok o dlt st r st1 S1) as [-> _]. reflexivity.
Qed.

(** Once level building is over no round can abort or wait for draws. *)
Lemma bind_nostuck : forall A B (x : outcome A) (f : A -> outcome B),
  x <> Stuck -> (forall a, f a <> Stuck) -> bind x f <> Stuck.
Proof. intros A B [a| | |] f H1 H2; simpl; auto; discriminate. Qed.
Lemma get_nostuck : forall A (l : list A) n, get l n <> Stuck.
Proof. intros. unfold get. destruct (nth_error l n); discriminate. Qed.
Lemma put_nostuck : forall A (l : list A) n a, put l n a <> Stuck.
Proof. intros. unfold put. destruct (set_nth n a l); discriminate. Qed.
Lemma enough_nostuck : forall mx ls, enough_levels ptol_ok mx ls <> Stuck.
Proof. intros. unfold enough_levels. destruct mx; [|discriminate]. repeat (destruct (_ <=? _)%nat || destruct (_ <? _)%nat); discriminate. Qed.
Hint Resolve get_nostuck put_nostuck enough_nostuck : core.
Lemma mcmc_step_nostuck : forall mx t d, mcmc_step ptol_ok o mx t d <> Stuck.
Proof.
  intros mx t d.
  assert (U : forall t, update_particle t d <> Stuck).
  { intros t0. unfold update_particle. repeat (apply bind_nostuck; [auto|intros]). discriminate. }
  assert (L : forall t, update_level_assignment ptol_ok o mx t d <> Stuck).
  { intros t0. unfold update_level_assignment. apply bind_nostuck; [auto|intros p].
    apply bind_nostuck; [unfold mod_int; repeat destruct (_ =? _); try destruct (_ <=? _); discriminate|intros q].
    destruct (q <? 0); [discriminate|].
    assert (C : forall l n, log_push_check l n <> Stuck) by (intros l n; unfold log_push_check; destruct (_ <? _)%nat; discriminate).
    do 5 (apply bind_nostuck; [auto|intros]).
    destruct (_ && _); [|discriminate]. apply bind_nostuck; [auto|intros].
    destruct (o_lim o); [|discriminate]. do 2 (apply bind_nostuck; [auto|intros]). discriminate. }
  unfold mcmc_step. apply bind_nostuck.
  - destruct (d_order d); apply bind_nostuck; auto.
  - intros t1. apply bind_nostuck; [auto|intros en]. destruct en; [discriminate|].
    do 2 (apply bind_nostuck; [auto|intros]). destruct (dlt _ _); [|discriminate]. destruct (_ <? _)%nat; discriminate.
Qed.
Lemma mcmc_run_nostuck : forall mx ds t, mcmc_run ptol_ok o mx t ds <> Stuck.
Proof.
  intros mx. unfold mcmc_run. induction ds as [|d ds IH]; intros t; simpl; [discriminate|].
  apply bind_nostuck; [apply mcmc_step_nostuck|auto].
Qed.
Lemma run_tasks_nostuck : forall ts mxs dss, (length ts <= length mxs)%nat -> (length ts <= length dss)%nat ->
  run_tasks ptol_ok o mxs ts dss <> Stuck.
Proof.
  induction ts as [|t ts IH]; intros mxs dss H1 H2; simpl; [discriminate|].
  destruct mxs; simpl in H1; [lia|]. destruct dss; simpl in H2; [lia|].
  apply bind_nostuck; [apply mcmc_run_nostuck|intros]. apply bind_nostuck; [apply IH; lia|discriminate].
Qed.

Lemma round_done_ok : forall st r, valid_opts o -> ginv st -> valid_round o r ->
  building_done ptol_ok (o_maxl o) (g_comb st) ->
  Z.of_nat (length (g_pool st)) <= size_all_above_max o -> (o_maxl o = O -> S (length (g_comb st)) <> LEVEL_NUM_MAX) ->
  exists st', round ptol_ok o st r = Ok st' /\ ginv st' /\
    building_done ptol_ok (o_maxl o) (g_comb st') /\ g_pool st' = g_pool st /\ length (g_comb st') = length (g_comb st).
Proof.
  intros st r Hv G Hr Hb Hp Hm. pose proof (round_spec ptol_ok o dlt rl st r Hv G Hr) as S.
  destruct (enough_agree ptol_ok o dlt st G) as (en & E1 & E2). unfold building_done in Hb.
  assert (en = true) by congruence. subst en. clear Hb.
  destruct (round ptol_ok o st r) as [st'| | |] eqn:E; simpl in S.
  - exists st'. split; [reflexivity|]. destruct S as [(st1 & _ & F & Hs) G']. split; [exact G'|].
    assert (X : building_done ptol_ok (o_maxl o) (g_comb st1) /\ g_pool st1 = g_pool st /\ length (g_comb st1) = length (g_comb st)).
    { destruct (rf_mid _ _ _ _ _ _ F)
        as (en & ts & comb & rmax' & pool' & ps' & En & Lts & Fts & Ert & Ecomb & Hvc & Hlk & _ & Hbk & Ep & Erm).
      assert (en = true) by congruence. subst en.
      assert (Hnil : flat_map above ts = []).
      { apply flat_map_above_nil. eapply Forall_impl; [|exact Fts]. intros t Ht. apply (ti_above_en _ _ _ _ _ _ _ _ Ht). reflexivity. }
      destruct Hbk as [(_ & _ & H1 & H2 & _)|(Hf & _)].
      - unfold building_done. rewrite H1, Ep, H2, Hnil, app_nil_r. repeat split; auto.
        + rewrite <- E2. apply enough_ext. exact Hvc.
        + rewrite <- !vals_length, Hvc. reflexivity.
      - rewrite (enough_ext ptol_ok _ comb (g_comb st) Hvc) in Hf. congruence. }
    destruct Hs as [[_ (t & p & _ & _ & ->)]|[_ ->]]; exact X.
  - exfalso. destruct S as [[H1 H2]|[[_ H2]|H2]]; [exact (Hm H1 H2)|congruence|lia].
  - contradiction.
  - exfalso. unfold round in E.
    assert (N : round_core ptol_ok o st r <> Stuck).
    { unfold round_core. pose proof (gi_tt _ _ _ _ G) as Gt. pose proof (vr_len _ _ Hr) as Vl.
      pose proof (vo_tt _ Hv).
      pose proof (run_tasks_nostuck (g_tasks st) (g_rmax st :: repeat (o_maxl o) (length (g_tasks st) - 1)) (r_steps r)) as N1.
      simpl in N1. rewrite repeat_length in N1. specialize (N1 ltac:(lia) ltac:(lia)).
      pose proof (run_tasks_spec ptol_ok o dlt (@rl) true (g_comb st) (gi_len _ _ _ _ G)
        ltac:(destruct Hv; nia) (g_tasks st) (g_rmax st :: repeat (o_maxl o) (length (g_tasks st) - 1))
        (r_steps r) (gi_tasks _ _ _ _ G)) as RT.
      destruct (run_tasks ptol_ok o _ (g_tasks st) (r_steps r)) as [ts| | |]; try discriminate; try congruence.
      cbn [bind]. destruct (_ <? _); [discriminate|].
      destruct RT as [L F].
      { constructor; [exact E1|]. apply Forall_forall. intros x Hx. apply repeat_spec in Hx. subst. exact E2. }
      { apply (vr_steps _ _ Hr). }
      destruct (combine_levels_spec (g_comb st) ts) as (comb & Ec & _ & Hlk & _).
      { eapply Forall_impl; [|exact F]. intros t Ht.
        rewrite <- (vals_length (levels t)), (ti_vals _ _ _ _ _ _ _ _ Ht). apply vals_length. }
      rewrite Ec. cbn [bind]. destruct ts as [|root w]; [discriminate|].
      unfold do_bookkeeping. rewrite (enough_ext ptol_ok _ comb (g_comb st) (vals_lk _ _ Hlk)), E1. discriminate. }
    destruct (round_core ptol_ok o st r) as [st1| | |]; try congruence; try discriminate.
    cbn [bind] in E. destruct (save_due o _ _); [|discriminate].
    revert E. unfold save_particle. repeat (apply bind_nostuck; [auto|intros]). discriminate.
Qed.

Lemma run_done_ok : forall rs st, valid_opts o -> ginv st -> Forall (valid_round o) rs ->
  building_done ptol_ok (o_maxl o) (g_comb st) ->
  Z.of_nat (length (g_pool st)) <= size_all_above_max o -> (o_maxl o = O -> S (length (g_comb st)) <> LEVEL_NUM_MAX) ->
  exists st', run ptol_ok o rs st = Ok st'.
Proof.
  induction rs as [|r rs IH]; intros st Hv G Hr Hb Hp Hm; simpl; [eauto|].
  destruct (terminated o st); [eauto|]. inversion Hr; subst.
  destruct (round_done_ok st r Hv G H1 Hb Hp Hm) as (st' & -> & G' & Hb' & Ep & El). cbn [bind].
  apply IH; auto; rewrite ?Ep, ?El; auto.
Qed.

(** ** C09 *)
Lemma c09 : valid_opts o -> forall init rs st, valid_init o init -> Forall (valid_round o) rs ->
  run ptol_ok o rs (init_state o init) = Ok st ->
  length (g_sample st) = length (g_info st) /\
  forall k row inf, nth_error (g_sample st) k = Some row -> nth_error (g_info st) k = Some inf ->
  exists rs1 rs2 st1 i j t p,
    rs = rs1 ++ rs2 /\ run ptol_ok o rs1 (init_state o init) = Ok st1 /\ length (g_sample st1) = S k /\
    nth_error (g_tasks st1) i = Some t /\ nth_error (parts t) j = Some p /\
    row = pm p /\ inf = mkinfo (plev p) (plik p) (Z.of_nat i * Z.of_nat (o_np o) + Z.of_nat j).
Proof.
  intros Hv init rs st Hi Hr E.
  split; [apply (gi_rows _ _ _ _ (reachable_ginv ptol_ok o st Hv ltac:(exists init, rs; auto)))|].
  pose (Q := fun (done : list rdraw) s =>
    run ptol_ok o done (init_state o init) = Ok s /\
    forall k row inf, nth_error (g_sample s) k = Some row -> nth_error (g_info s) k = Some inf ->
    exists rs1 rs2 st1 i j t p,
    done = rs1 ++ rs2 /\ run ptol_ok o rs1 (init_state o init) = Ok st1 /\ length (g_sample st1) = S k /\
    nth_error (g_tasks st1) i = Some t /\ nth_error (parts t) j = Some p /\
    row = pm p /\ inf = mkinfo (plev p) (plik p) (Z.of_nat i * Z.of_nat (o_np o) + Z.of_nat j)).
  destruct (run_ind ptol_ok o dlt rl Q Hv rs _ st (init_ginv ptol_ok o init Hv Hi) Hr E) as (done & rest & El & [_ H] & _).
  - split; [reflexivity|]. intros k row inf Hk. simpl in Hk. destruct k; discriminate.
  - intros done r a b Ga Gb Hvr Ht Hab [Ea Ha].
    assert (Eb : run ptol_ok o (done ++ [r]) (init_state o init) = Ok b).
    { rewrite run_app, Ea. cbn [bind]. simpl. rewrite Ht, (round_rel_round _ _ _ Hab). reflexivity. }
    split; [exact Eb|]. destruct Hab as (st1 & _ & F & Hs).
    pose proof (rf_sample _ _ _ _ _ _ F) as Es. pose proof (rf_ginfo _ _ _ _ _ _ F) as Ei.
    destruct Hs as [[_ (t & p & Ht' & Hp' & Eb')]|[_ Eb']]; subst b; simpl in *.
    + intros k row inf Hk Hk'. rewrite Es in Hk. rewrite Ei in Hk'.
      pose proof (gi_rows _ _ _ _ Ga) as Lr.
      destruct (lt_dec k (length (g_sample a))) as [h|h].
      * rewrite nth_error_app1 in Hk by lia. rewrite nth_error_app1 in Hk' by lia.
        destruct (Ha k row inf Hk Hk') as (rs1 & rs2 & s1 & i & j & t1 & p1 & -> & rest').
        exists rs1, (rs2 ++ [r]), s1, i, j, t1, p1. rewrite app_assoc. tauto.
      * assert (k = length (g_sample a)).
        { apply nth_error_lt in Hk. rewrite app_length in Hk. simpl in Hk. lia. }
        subst k. rewrite nth_error_app2, Nat.sub_diag in Hk by lia. rewrite Lr in Hk'.
        rewrite nth_error_app2, Nat.sub_diag in Hk' by lia.
        simpl in Hk, Hk'. injection Hk as <-. injection Hk' as <-.
        eexists (done ++ [r]), [], _, (r_task r), (r_part r), t, p.
        split; [rewrite app_nil_r; reflexivity|]. split; [exact Eb|].
        split; [simpl; rewrite Es, app_length; simpl; lia|]. auto.
    + intros k row inf Hk Hk'. rewrite Es in Hk. rewrite Ei in Hk'.
      destruct (Ha k row inf Hk Hk') as (rs1 & rs2 & s1 & i & j & t1 & p1 & -> & rest').
      exists rs1, (rs2 ++ [r]), s1, i, j, t1, p1. rewrite app_assoc. tauto.
  - intros k row inf Hk Hk'. destruct (H k row inf Hk Hk') as (rs1 & rs2 & s1 & i & j & t1 & p1 & -> & rest').
    exists rs1, (rs2 ++ rest), s1, i, j, t1, p1. rewrite El, app_assoc. tauto.
Qed.

(** ** C10 *)
Lemma c10_tables : valid_opts o -> forall st, reachable ptol_ok o st ->
  forall t, In t (g_tasks st) ->
    length (levels t) = length (g_comb st) /\
    forall j a b, nth_error (levels t) j = Some a -> nth_error (g_comb st) j = Some b ->
      lv (lk a) = lv (lk b) /\ visits a = visits b /\ exceeds a = exceeds b /\
      accepts a = accepts b /\ tries a = tries b.
Proof.
  intros Hv st Hre t Ht. pose proof (reachable_ginv ptol_ok o st Hv Hre) as G.
  pose proof (gi_tasks _ _ _ _ G) as T. rewrite Forall_forall in T. specialize (T t Ht).
  pose proof (t0_lev _ _ _ _ T) as E. split.
  - rewrite <- (map_length sk), E. apply map_length.
  - intros j a b Ha Hb. apply (map_nth_error sk) in Ha, Hb. rewrite E, Hb in Ha.
    unfold sk in Ha. injection Ha as -> -> -> -> ->. auto.
Qed.

Lemma c10_exact : forall st r st', round ptol_ok o st r = Ok st' ->
  forall t, In t (g_tasks st') -> levels t = g_comb st' /\ above t = [].
Proof.
  intros st r st' E. unfold round in E.
  destruct (round_core ptol_ok o st r) as [st1| | |] eqn:Ec; try discriminate. cbn [bind] in E.
  assert (X : forall t, In t (g_tasks st1) -> levels t = g_comb st1 /\ above t = []).
  { unfold round_core in Ec.
    destruct (run_tasks ptol_ok o _ (g_tasks st) (r_steps r)) as [ts| | |]; try discriminate. cbn [bind] in Ec.
    destruct (_ <? _); [discriminate|].
    destruct (combine_levels (g_comb st) ts) as [comb| | |]; try discriminate. cbn [bind] in Ec.
    destruct ts as [|root w]; [discriminate|].
    destruct (do_bookkeeping ptol_ok o _ _ _ _ _ _) as [[[[rm cb] pl] pp]| | |]; try discriminate.
    cbn [bind] in Ec. injection Ec as <-. simpl. intros t [<-|Ht]; [auto|].
    apply in_map_iff in Ht. destruct Ht as (t0 & <- & _). auto. }
  destruct (save_due o _ _).
  - unfold save_particle in E. destruct (get (g_tasks st1) (r_task r)); try discriminate. cbn [bind] in E.
    destruct (get (parts a) (r_part r)); try discriminate. cbn [bind] in E. injection E as <-. exact X.
  - injection E as <-. exact X.
Qed.

Lemma c10_agree : valid_opts o -> forall st, reachable ptol_ok o st ->
  exists b, forall t, In t (g_tasks st) ->
    enough_levels ptol_ok (g_rmax st) (levels t) = Ok b /\ enough_levels ptol_ok (o_maxl o) (levels t) = Ok b.
Proof.
  intros Hv st Hre. pose proof (reachable_ginv ptol_ok o st Hv Hre) as G.
  destruct (enough_agree ptol_ok o dlt st G) as (en & E1 & E2). exists en. intros t Ht.
  pose proof (gi_tasks _ _ _ _ G) as T. rewrite Forall_forall in T. specialize (T t Ht).
  rewrite <- E1 at 1. rewrite <- E2. split; apply enough_ext; apply (t0_vals o _ _ T).
Qed.

(** ** C11 *)
Lemma c11 : forall ls ps k ps', length ps = o_np o -> valid_kill o k ->
  Forall (fun p => (plev p < length ls)%nat) ps ->
  kill_lagging o ls ps k = Ok ps' ->
  length ps' = length ps /\
  (forall i p, nth_error ps' i = Some p -> nth_error (k_bad k) i = Some false -> nth_error ps i = Some p) /\
  (forall i p, nth_error ps' i = Some p -> nth_error (k_bad k) i = Some true ->
     (exists c, nth_error (k_bad k) c = Some false) ->
     exists c, nth_error (k_bad k) c = Some false /\ nth_error ps c = Some p) /\
  ((forall i, nth_error (k_bad k) i <> Some false) -> ps' = ps).
Proof.
  intros ls ps k ps' Hl Hk Hp E. pose proof (kill_lagging_spec o ls ps k Hl Hk Hp) as S.
  rewrite E in S. simpl in S. destruct S as (L & H1 & H2).
  assert (H1' : (exists c, nth_error (k_bad k) c = Some false) ->
     forall j p, nth_error ps' j = Some p -> survivor_copy (map negb (k_bad k)) ps j p).
  { intros [c Hc]. apply H1. left. exists false. split; [eapply nth_error_In; eauto|reflexivity]. }
  assert (H2' : (forall i, nth_error (k_bad k) i <> Some false) -> ps' = ps).
  { intros H. apply H2. destruct Hk as [Hk _]. rewrite <- Hk. clear -H.
    induction (k_bad k) as [|b l IH]; simpl; [reflexivity|]. f_equal.
    - specialize (H O). simpl in H. destruct b; congruence.
    - apply IH. intros i. apply (H (S i)). }
  split; [exact L|]. split; [|split; [|exact H2']].
  - intros i p Hi Hb. specialize (H1' ltac:(eauto) i p Hi). unfold survivor_copy in H1'.
    rewrite (map_nth_error negb i (k_bad k) Hb) in H1'. exact H1'.
  - intros i p Hi Hb Hex. specialize (H1' Hex i p Hi). unfold survivor_copy in H1'.
    rewrite (map_nth_error negb i (k_bad k) Hb) in H1'. simpl in H1'.
    destruct H1' as (c & Hc & Hcp). exists c. split; [|exact Hcp].
    apply nth_error_map_inv in Hc. destruct Hc as (b & Hb' & Hn). destruct b; [discriminate|exact Hb'].
Qed.

(** ** C16 *)
Lemma nth_error_split_firstn : forall A (l : list A) n a, nth_error l n = Some a ->
  l = firstn n l ++ a :: skipn (S n) l /\ length (firstn n l) = n.
Proof.
  induction l as [|x l IH]; intros [|n] a H; simpl in *; try discriminate.
  - injection H as <-. auto.
  - destruct (IH n a H) as [E L]. split; [f_equal; exact E|f_equal; exact L].
Qed.

Lemma c16 : valid_opts o -> forall rmax comb pool rootlev ps k rmax' comb' pool' ps',
  Forall (fun e => numeric (lv e)) pool ->
  do_bookkeeping ptol_ok o rmax comb pool rootlev ps k = Ok (rmax', comb', pool', ps') ->
  (comb' = comb /\ pool' = pool) \/
  exists th removed,
    thresholds comb' = thresholds comb ++ [th] /\
    Permutation pool (pool' ++ th :: removed) /\
    Z.of_nat (length pool') = Z.of_nat (length pool) * o_cq o / o_cp o /\
    (forall e, In e pool' -> lik_ge e th) /\ (forall e, In e removed -> lik_ge th e).
Proof.
  intros Hv rmax comb pool rootlev ps k rmax' comb' pool' ps' Hn E.
  apply bk_cases in E. destruct E as [(_ & _ & -> & -> & _)|(_ & Hl & _ & th & Hth & -> & Hc)]; [left; auto|right].
  pose proof (dnest_sort_sorted pool Hn) as HS.
  destruct (nth_error_split_firstn _ _ _ _ Hth) as [Esp Lf].
  exists th, (skipn (S (new_index o (length pool))) (msort dnest_cmp pool)). split; [|split; [|split; [|split]]].
  - unfold thresholds. destruct Hc as [(_ & _ & -> & _)|(_ & _ & -> & _)]; rewrite ?map_lk_renorm, map_app; reflexivity.
  - rewrite <- Esp. apply Permutation_sym, msort_perm.
  - rewrite Lf. unfold new_index. apply Z2Nat.id. destruct Hv. apply Z.div_pos; nia.
  - intros e He. apply nth_error_firstn_in in He. destruct He as (i & Hi & Ei).
    eapply StronglySorted_nth; eauto.
  - intros e He. apply In_nth_error in He. destruct He as [i Hi].
    eapply (StronglySorted_nth _ _ _ (new_index o (length pool)) (S (new_index o (length pool)) + i)); eauto; [lia|].
    rewrite Esp, nth_error_app2 by lia. rewrite Lf.
    replace (S (new_index o (length pool)) + i - new_index o (length pool))%nat with (S i) by lia. exact Hi.
Qed.

(** Pools of reachable states, with what a round adds, hold numbers only. *)
Lemma pool_numeric : valid_opts o -> forall st r ts, reachable ptol_ok o st -> valid_round o r ->
  after_steps ptol_ok o st r ts -> Forall (fun e => numeric (lv e)) (g_pool st ++ flat_map above ts).
Proof.
  intros Hv st r ts Hre Hr Hts. pose proof (reachable_ginv ptol_ok o st Hv Hre) as G.
  destruct (enough_agree ptol_ok o dlt st G) as (en & E1 & E2).
  pose proof (run_tasks_spec ptol_ok o dlt (@rl) en (g_comb st) (gi_len _ _ _ _ G)
    ltac:(destruct Hv; nia) (g_tasks st) (g_rmax st :: repeat (o_maxl o) (length (g_tasks st) - 1))
    (r_steps r) (gi_tasks _ _ _ _ G)) as RT.
  unfold after_steps in Hts. rewrite Hts in RT. destruct RT as [L F].
  { constructor; [exact E1|]. apply Forall_forall. intros x Hx. apply repeat_spec in Hx. subst. exact E2. }
  { apply (vr_steps _ _ Hr). }
  apply Forall_app. split.
  - eapply Forall_impl; [|apply (gi_pool _ _ _ _ G)]. intros e He. apply dle_numeric in He. tauto.
  - apply flat_map_above_Forall. eapply Forall_impl; [|exact F]. intros t Ht.
    eapply Forall_impl; [|apply (ti_above _ _ _ _ _ _ _ _ Ht)]. intros e He. apply dlt_dle, dle_numeric in He. tauto.
Qed.

End Facts2.
