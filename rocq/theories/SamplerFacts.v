(** Proofs of the statements of PropSampler.v. *)
From Coq Require Import ZArith List Bool Lia Arith Permutation Sorted.
From Verif Require Import CPrelude SortModel SortProofs ListLemmas DnestModel DnestProofs DnestRound DnestRuns SamplerSpec.
Import ListNotations.
Open Scope Z_scope.

Section Facts.
Variable ptol_ok : list dbl -> bool.
Variable o : opts.

Notation ginv := (ginv ptol_ok o dlt).
Lemma rl : forall a b, dlt a b = true -> dlt a b = true.
Proof. auto. Qed.

Lemma alloc_pos : (0 < alloc o)%nat.
Proof. unfold alloc. pose proof LEVEL_NUM_MAX_pos. destruct (o_maxl o); lia. Qed.

Lemma init_ginv : forall init, valid_opts o -> valid_init o init -> ginv (init_state o init).
Proof.
  intros init Hv [Hl HF]. pose proof (vo_tt _ Hv) as Htt.
  destruct init as [|x0 init]; [simpl in Hl; lia|]. pose proof alloc_pos.
  constructor; simpl.
  - rewrite map_length. exact Hl.
  - lia.
  - intros _. apply LEVEL_NUM_MAX_pos.
  - repeat constructor.
  - repeat constructor.
  - assert (G : forall x, length (snd x) = o_np o -> t0inv o dlt [bottom (fst x0)] (init_task o x)).
    { intros x Hx. constructor; simpl.
      - rewrite map_length. exact Hx.
      - reflexivity.
      - apply Forall_forall. intros p Hp. apply in_map_iff in Hp. destruct Hp as (q & <- & _).
        exists (Val (- DBL_MAX)). simpl. split; [reflexivity|left; reflexivity].
      - reflexivity.
      - apply repeat_length. }
    inversion HF; subst. constructor; [apply G; auto|].
    apply Forall_forall. intros t Ht. apply in_map_iff in Ht. destruct Ht as (x & <- & Hx).
    apply G. rewrite Forall_forall in H3. auto.
  - constructor.
  - repeat constructor; simpl; lia.
  - left. reflexivity.
  - reflexivity.
  - constructor.
Qed.

Lemma reachable_ginv : forall st, valid_opts o -> reachable ptol_ok o st -> ginv st.
Proof.
  intros st Hv (init & rs & Hi & Hr & E).
  pose proof (run_spec ptol_ok o dlt rl rs _ Hv (init_ginv init Hv Hi) Hr) as S.
  rewrite E in S. exact S.
Qed.

Lemma reachable_safe : forall init rs, valid_opts o -> valid_init o init -> Forall (valid_round o) rs ->
  run ptol_ok o rs (init_state o init) <> UB.
Proof.
  intros init rs Hv Hi Hr E.
  pose proof (run_spec ptol_ok o dlt rl rs _ Hv (init_ginv init Hv Hi) Hr) as S.
  rewrite E in S. exact S.
Qed.

Lemma run_app : forall rs1 rs2 st, run ptol_ok o (rs1 ++ rs2) st =
  bind (run ptol_ok o rs1 st) (run ptol_ok o rs2).
Proof.
  induction rs1 as [|r rs1 IH]; intros rs2 st; [reflexivity|].
  simpl. destruct (terminated o st) eqn:E.
  - cbn [bind]. destruct rs2; simpl; [reflexivity|]. rewrite E. reflexivity.
  - destruct (round ptol_ok o st r) as [st'| | |]; try reflexivity. cbn [bind]. apply IH.
Qed.

Lemma reachable_round : forall st r st', reachable ptol_ok o st -> valid_round o r ->
  terminated o st = false -> round ptol_ok o st r = Ok st' -> reachable ptol_ok o st'.
Proof.
  intros st r st' (init & rs & Hi & Hr & E) Hr' Ht Hs.
  exists init, (rs ++ [r]). split; [exact Hi|]. split; [apply Forall_app; auto|].
  rewrite run_app, E. cbn [bind]. simpl. rewrite Ht, Hs. reflexivity.
Qed.

Lemma reachable_run : forall st rs st', reachable ptol_ok o st -> Forall (valid_round o) rs ->
  run ptol_ok o rs st = Ok st' -> reachable ptol_ok o st'.
Proof.
  intros st rs st' (init & rs0 & Hi & Hr & E) Hr' Hs.
  exists init, (rs0 ++ rs). split; [exact Hi|]. split; [apply Forall_app; auto|].
  rewrite run_app, E. cbn [bind]. exact Hs.
Qed.

Lemma vals_nth : forall ls n v, nth_error (vals ls) n = Some v ->
  exists l, nth_error ls n = Some l /\ lv (lk l) = v.
Proof. intros ls n v H. apply nth_error_map_inv in H. exact H. Qed.

Lemma pinv_inside : forall ls p, pinv dlt (vals ls) p -> inside ls (plev p) (plik p).
Proof.
  intros ls p (v & Hv & H). apply vals_nth in Hv. destruct Hv as (l & Hl & <-). exists l. auto.
Qed.

Lemma t0_vals : forall comb t, t0inv o dlt comb t -> vals (levels t) = vals comb.
Proof. intros comb t H. apply vals_sk. apply (t0_lev _ _ _ _ H). Qed.

(** ** C01 *)
Lemma c01_particles : forall st, valid_opts o -> reachable ptol_ok o st ->
  forall t p, In t (g_tasks st) -> In p (parts t) ->
    inside (g_comb st) (plev p) (plik p) /\ inside (levels t) (plev p) (plik p).
Proof.
  intros st Hv Hr t p Ht Hp. pose proof (reachable_ginv st Hv Hr) as G.
  pose proof (gi_tasks _ _ _ _ G) as T. rewrite Forall_forall in T. specialize (T t Ht).
  pose proof (t0_parts _ _ _ _ T) as P. rewrite Forall_forall in P. specialize (P p Hp).
  split; apply pinv_inside; [exact P|]. rewrite (t0_vals _ _ T). exact P.
Qed.

Lemma c01_rows : forall st, valid_opts o -> reachable ptol_ok o st ->
  forall i, In i (g_info st) -> inside (g_comb st) (i_lev i) (i_lik i).
Proof.
  intros st Hv Hr i Hi. pose proof (reachable_ginv st Hv Hr) as G.
  pose proof (gi_info _ _ _ _ G) as T. rewrite Forall_forall in T. specialize (T i Hi).
  destruct T as (v & Hn & H). apply vals_nth in Hn. destruct Hn as (l & Hl & <-). exists l. auto.
Qed.

(** In the middle of a round: after any number of the steps of a task. *)
Lemma task_mid : forall st, valid_opts o -> ginv st ->
  forall t mx ds, In t (g_tasks st) -> mx = g_rmax st \/ mx = o_maxl o ->
  Forall (valid_draw o) ds -> (length ds <= o_ts o)%nat ->
  exists en, enough_levels ptol_ok mx (g_comb st) = Ok en /\
  spec False (mcmc_run ptol_ok o mx t ds) (tinv o dlt en (vals (g_comb st)) (g_comb st) (length ds) (length ds)).
Proof.
  intros st Hv G t mx ds Ht Hmx Hds Hl.
  destruct (enough_agree ptol_ok o dlt st G) as (en & E1 & E2).
  assert (E : enough_levels ptol_ok mx (g_comb st) = Ok en) by (destruct Hmx; subst; auto).
  exists en. split; [exact E|].
  apply mcmc_run_spec; auto.
  - apply t0_tinv. pose proof (gi_tasks _ _ _ _ G) as T. rewrite Forall_forall in T. auto.
  - rewrite vals_length. apply (gi_len _ _ _ _ G).
  - intros ls Els. rewrite <- E. apply enough_ext. exact Els.
  - destruct Hv. nia.
Qed.

Lemma c01_mid : forall st, valid_opts o -> reachable ptol_ok o st ->
  forall t mx ds t', In t (g_tasks st) -> mx = g_rmax st \/ mx = o_maxl o ->
  Forall (valid_draw o) ds -> (length ds <= o_ts o)%nat ->
  mcmc_run ptol_ok o mx t ds = Ok t' ->
  forall p, In p (parts t') -> inside (levels t') (plev p) (plik p).
Proof.
  intros st Hv Hr t mx ds t' Ht Hmx Hds Hl E p Hp.
  destruct (task_mid st Hv (reachable_ginv st Hv Hr) t mx ds Ht Hmx Hds Hl) as (en & _ & S).
  rewrite E in S. simpl in S. pose proof (ti_parts _ _ _ _ _ _ _ _ S) as P.
  rewrite Forall_forall in P. apply pinv_inside. rewrite (ti_vals _ _ _ _ _ _ _ _ S). auto.
Qed.

(** ** C02 *)
Lemma c02_permanent : forall st rs st', valid_opts o -> reachable ptol_ok o st ->
  Forall (valid_round o) rs -> run ptol_ok o rs st = Ok st' ->
  prefix (thresholds (g_comb st)) (thresholds (g_comb st')).
Proof.
  intros st rs st' Hv Hr Hrs E.
  exact (run_ext ptol_ok o dlt rl rs st st' Hv (reachable_ginv st Hv Hr) Hrs E).
Qed.

Lemma c02_nondecreasing : forall st, valid_opts o -> reachable ptol_ok o st -> nondecreasing (g_comb st).
Proof.
  intros st Hv Hr i j a b Hij Ha Hb. pose proof (gi_sorted _ _ _ _ (reachable_ginv st Hv Hr)) as S.
  eapply (StronglySorted_nth _ _ _ i j _ _ S Hij);
    apply (nth_error_map_ok _ _ (fun l => lv (lk l))); assumption.
Qed.

Definition sinv (st : gstate) : Prop :=
  StronglySorted (fun a b => dlt a b = true) (vals (g_comb st)) /\
  Forall (fun v => v = last (vals (g_comb st)) NaN \/ dlt v (last (vals (g_comb st)) NaN) = true) (vals (g_comb st)) /\
  Forall (fun e => dlt (last (vals (g_comb st)) NaN) (lv e) = true) (g_pool st).

Lemma dlt_trans : forall a b c, dlt a b = true -> dlt b c = true -> dlt a c = true.
Proof. intros [|x] [|y] [|z] H1 H2; simpl in *; try discriminate. lia. Qed.

Lemma StronglySorted_firstn_distinct : forall l i th e,
  StronglySorted lik_ge l -> NoDup (map lv l) -> nth_error l i = Some th -> In e (firstn i l) ->
  dlt (lv th) (lv e) = true.
Proof.
  intros l i th e HS HN Hth He. apply nth_error_firstn_in in He. destruct He as (k & Hk & Ek).
  pose proof (StronglySorted_nth _ _ _ _ _ _ _ HS Hk Ek Hth) as (x & y & Ex & Ey & Hxy).
  rewrite Ex, Ey. simpl. apply Z.ltb_lt.
  destruct (Z.eq_dec x y) as [->|]; [|lia]. exfalso.
  assert (k = i); [|lia].
  assert (L : (k < length (map lv l))%nat) by (rewrite map_length; eapply nth_error_lt; eauto).
  apply (proj1 (NoDup_nth_error (map lv l)) HN k i L).
  rewrite (map_nth_error lv k l Ek), (map_nth_error lv i l Hth). congruence.
Qed.

Lemma sinv_round : forall st r st', valid_opts o -> ginv st -> valid_round o r ->
  (forall ts, after_steps ptol_ok o st r ts -> distinct_values (g_pool st ++ flat_map above ts)) ->
  sinv st -> round_rel ptol_ok o dlt st r st' -> sinv st'.
Proof.
  intros st r st' Hv Hg Hr Hd (S1 & S2 & S3) (st1 & _ & F & Hs).
  assert (G : sinv st1).
  { destruct (rf_mid _ _ _ _ _ _ F)
      as (en & ts & comb & rmax' & pool' & ps' & _ & _ & Fts & Ert & _ & Hvc & Hlk & _ & Hbk & Ep & _).
    specialize (Hd ts Ert). set (pool := g_pool st ++ flat_map above ts) in *.
    assert (Hpool : Forall (fun e => dlt (last (vals (g_comb st)) NaN) (lv e) = true) pool).
    { unfold pool. apply Forall_app. split; [exact S3|]. apply flat_map_above_Forall.
      eapply Forall_impl; [|exact Fts]. intros t Ht. apply (ti_above _ _ _ _ _ _ _ _ Ht). }
    unfold sinv. rewrite Ep.
    destruct Hbk as [(_ & _ & E1 & E2 & _)|(_ & _ & _ & th & Hth & E2 & Hc)].
    - rewrite E1, E2, Hvc. auto.
    - assert (Hin : In th pool) by (apply (Permutation_in th (msort_perm dnest_cmp pool)); eapply nth_error_In; eauto).
      assert (Hth' : dlt (last (vals (g_comb st)) NaN) (lv th) = true) by (rewrite Forall_forall in Hpool; auto).
      assert (Hv1 : vals (g_comb st1) = vals (g_comb st) ++ [lv th]).
      { destruct Hc as [(_ & _ & -> & _)|(_ & _ & -> & _)].
        - rewrite (vals_lk _ (comb ++ [mklevel th 0 0 0 0])) by apply map_lk_renorm.
          rewrite vals_app, Hvc. reflexivity.
        - rewrite vals_app, Hvc. reflexivity. }
      assert (HA : Forall (fun v => dlt v (lv th) = true) (vals (g_comb st))).
      { eapply Forall_impl; [|exact S2]. intros v [->|Hlt]; [exact Hth'|exact (dlt_trans _ _ _ Hlt Hth')]. }
      rewrite Hv1, last_last. split; [|split].
      + apply StronglySorted_snoc; auto.
      + apply Forall_app. split; [|repeat constructor]. eapply Forall_impl; [|exact HA]. intros v Hvv; right; exact Hvv.
      + rewrite E2. apply Forall_forall. intros e He.
        apply (StronglySorted_firstn_distinct (msort dnest_cmp pool) (new_index o (length pool))); auto.
        * apply dnest_sort_sorted. eapply Forall_impl; [|exact Hpool]. intros a Ha.
          apply dlt_dle, dle_numeric in Ha. tauto.
        * apply (Permutation_NoDup (l := map lv pool)); [|exact Hd].
          apply Permutation_map, Permutation_sym, msort_perm. }
  destruct Hs as [[_ (t & p & _ & _ & ->)]|[_ ->]]; exact G.
Qed.

Lemma sinv_run : forall rs st st', valid_opts o -> ginv st -> Forall (valid_round o) rs ->
  tie_free ptol_ok o rs st -> sinv st -> run ptol_ok o rs st = Ok st' -> sinv st'.
Proof.
  induction rs as [|r rs IH]; intros st st' Hv Hg Hrs Ht Hs E; simpl in *.
  - injection E as <-. exact Hs.
  - destruct (terminated o st) eqn:Et; [injection E as <-; exact Hs|].
    destruct Ht as [Ht|[Hd Ht]]; [discriminate|]. inversion Hrs; subst.
    pose proof (round_spec ptol_ok o dlt rl st r Hv Hg H1) as S.
    destruct (round ptol_ok o st r) as [st1| | |] eqn:Er; try discriminate. cbn [bind] in E.
    destruct S as [Rr G1]. apply (IH st1); auto. apply (sinv_round st r st1); auto.
Qed.

Lemma c02_increasing : forall init rs st, valid_opts o -> valid_init o init ->
  Forall (valid_round o) rs -> run ptol_ok o rs (init_state o init) = Ok st ->
  tie_free ptol_ok o rs (init_state o init) -> increasing (g_comb st).
Proof.
  intros init rs st Hv Hi Hr E Ht i j a b Hij Ha Hb.
  assert (S : sinv st).
  { eapply sinv_run; eauto; [apply init_ginv; auto|].
    destruct Hi as [Hl _]. pose proof (vo_tt _ Hv).
    destruct init as [|x init]; [simpl in Hl; lia|]. repeat constructor. }
  destruct S as [S _].
  eapply (StronglySorted_nth _ _ _ i j _ _ S Hij);
    apply (nth_error_map_ok _ _ (fun l => lv (lk l))); assumption.
Qed.

(** ** C03 *)
Lemma c03 : forall st, valid_opts o -> reachable ptol_ok o st ->
  Forall counters_ok (g_comb st) /\ forall t, In t (g_tasks st) -> Forall counters_ok (levels t).
Proof.
  intros st Hv Hr. pose proof (reachable_ginv st Hv Hr) as G.
  pose proof (gi_cnt _ _ _ _ G) as C. split; [exact C|].
  intros t Ht. pose proof (gi_tasks _ _ _ _ G) as T. rewrite Forall_forall in T. specialize (T t Ht).
  pose proof (t0_lev _ _ _ _ T) as E. revert C E. generalize (g_comb st) (levels t). clear.
  intros a b HC. revert b. induction HC as [|x a Hx _ IH]; intros [|y b] E; try discriminate; constructor.
  - simpl in E. injection E as _ E1 E2 E3 E4 _. unfold cnt_ok, counters_ok in *. lia.
  - apply IH. simpl in E. congruence.
Qed.

(** ** C04 *)
Lemma added_gained : forall (f : level -> Z) j base ts a, nth_error base j = Some a ->
  gained f j base ts = added f j (f a) ts.
Proof.
  intros f j base ts a Ha. unfold gained. induction ts as [|t ts IH]; simpl; [reflexivity|].
  rewrite Ha, IH in *. destruct (nth_error (levels t) j); reflexivity.
Qed.

Lemma created_rmax : forall st comb, ginv st -> vals comb = vals (g_comb st) ->
  enough_levels ptol_ok (g_rmax st) comb = Ok false -> g_rmax st = o_maxl o.
Proof.
  intros st comb Hg Hvc Hf. destruct (gi_rmax _ _ _ _ Hg) as [Hq|[Hq1 Hq2]]; [exact Hq|].
  destruct (enough_agree ptol_ok o dlt st Hg) as (e & A1 & A2).
  rewrite (enough_ext ptol_ok _ comb (g_comb st) Hvc) in Hf. congruence.
Qed.

Lemma c04_round : forall st r st', valid_opts o -> reachable ptol_ok o st -> valid_round o r ->
  round ptol_ok o st r = Ok st' ->
  exists ts, after_steps ptol_ok o st r ts /\
    forall j l, nth_error (g_comb st) j = Some l ->
      let l1 := mklevel (lk l) (visits l + added visits j (visits l) ts)
                  (exceeds l + added exceeds j (exceeds l) ts)
                  (accepts l + added accepts j (accepts l) ts)
                  (tries l + added tries j (tries l) ts) in
      nth_error (g_comb st') j =
        Some (if (length (g_comb st) <? length (g_comb st'))%nat &&
                 (match enough_levels ptol_ok (o_maxl o) (g_comb st') with Ok b => b | _ => false end)
              then renorm_level (o_reg o) l1 else l1).
Proof.
  intros st r st' Hv Hre Hr E. pose proof (reachable_ginv st Hv Hre) as Hg.
  pose proof (round_spec ptol_ok o dlt rl st r Hv Hg Hr) as S. rewrite E in S. destruct S as [Rr G'].
  destruct Rr as (st1 & _ & F & Hs).
  assert (Ec : g_comb st' = g_comb st1) by (destruct Hs as [[_ (t & p & _ & _ & ->)]|[_ ->]]; reflexivity).
  rewrite Ec.
  destruct (rf_mid _ _ _ _ _ _ F)
    as (en & ts & comb & rmax' & pool' & ps' & En & Lts & Fts & Ert & Ecomb & Hvc & Hlk & _ & Hbk & Ep & Erm).
  exists ts. split; [exact Ert|]. intros j l Hl l1.
  destruct (combine_levels_spec (g_comb st) ts) as (comb0 & Ec0 & Lc & _ & _ & Hn).
  { eapply Forall_impl; [|exact Fts]. intros t Ht.
    rewrite <- (vals_length (levels t)), (ti_vals _ _ _ _ _ _ _ _ Ht). apply vals_length. }
  rewrite Ecomb in Ec0. injection Ec0 as <-.
  assert (Hj : nth_error comb j = Some l1).
  { rewrite (Hn j l Hl). unfold add_gained, l1.
    rewrite !(fun f => added_gained f j (g_comb st) ts l Hl). reflexivity. }
  assert (Hjl : (j < length comb)%nat) by (eapply nth_error_lt; eauto).
  destruct Hbk as [(_ & _ & E1 & _)|(Hf & _ & _ & th & _ & _ & Hc)].
  - rewrite E1, Lc, Nat.ltb_irrefl. simpl. exact Hj.
  - assert (Hrm : g_rmax st = o_maxl o) by (eapply created_rmax; eauto).
    destruct Hc as [(Hen & _ & E1 & _)|(Hen & _ & E1 & _)]; rewrite E1.
    + rewrite map_length, app_length. simpl length.
      replace (length (g_comb st) <? length comb + 1)%nat with true by (symmetry; apply Nat.ltb_lt; lia).
      rewrite (enough_ext ptol_ok (o_maxl o) _ (comb ++ [mklevel th 0 0 0 0]))
        by (apply vals_lk, map_lk_renorm).
      rewrite <- Hrm, Hen. cbn [andb].
      rewrite nth_error_map, nth_error_app1 by exact Hjl. rewrite Hj. reflexivity.
    + rewrite <- Hrm, Hen, andb_false_r. rewrite nth_error_app1 by exact Hjl. exact Hj.
Qed.

(** Tries are counted once for each step. *)
Definition tries_inv (st : gstate) : Prop :=
  enough_levels ptol_ok (o_maxl o) (g_comb st) = Ok false ->
  g_steps st = u64 (sumZ (map tries (g_comb st))).

Lemma combine_tries : forall base ts c k,
  Forall (fun t => length (levels t) = length base /\
     sumZ (map tries (levels t)) = sumZ (map tries base) + Z.of_nat k) ts ->
  combine_levels base ts = Ok c ->
  sumZ (map tries c) = sumZ (map tries base) + Z.of_nat (length ts * k).
Proof.
  intros base ts c k H E.
  destruct (combine_levels_spec base ts) as (c0 & Ec0 & _ & _ & Hs & _).
  { eapply Forall_impl; [|exact H]. intros t [Ht _]. exact Ht. }
  rewrite E in Ec0. injection Ec0 as <-. rewrite Hs. clear E Hs.
  f_equal. induction H as [|t ts [_ Ht] _ IH]; simpl; [reflexivity|]. lia.
Qed.

Lemma tries_round : forall st r st', valid_opts o -> Z.of_nat (o_tt o * o_ts o) < 2^32 -> ginv st ->
  tries_inv st -> round_rel ptol_ok o dlt st r st' -> tries_inv st'.
Proof.
  intros st r st' Hv Hw Hg Hi (st1 & _ & F & Hs).
  assert (G : tries_inv st1).
  { destruct (rf_mid _ _ _ _ _ _ F)
    as (en & ts & comb & rmax' & pool' & ps' & En & Lts & Fts & Ert & Ecomb & Hvc & Hlk & _ & Hbk & Ep & Erm).
    unfold tries_inv in *. rewrite (rf_steps _ _ _ _ _ _ F).
    assert (Hsum : sumZ (map tries comb) = sumZ (map tries (g_comb st)) + Z.of_nat (o_tt o * o_ts o)).
    { rewrite <- Lts. eapply combine_tries; eauto. eapply Forall_impl; [|exact Fts].
      intros t Ht. split; [|apply (ti_tries _ _ _ _ _ _ _ _ Ht)].
      rewrite <- (vals_length (levels t)), (ti_vals _ _ _ _ _ _ _ _ Ht). apply vals_length. }
    assert (Hrs : round_steps o = Z.of_nat (o_tt o * o_ts o)).
    { unfold round_steps, u32. rewrite Z.mod_small; lia. }
    assert (Hgo : forall c, sumZ (map tries c) = sumZ (map tries comb) ->
        enough_levels ptol_ok (o_maxl o) (g_comb st) = Ok false ->
        u64 (g_steps st + round_steps o) = u64 (sumZ (map tries c))).
    { intros c Hc Hf. rewrite (Hi Hf), Hc, Hsum, Hrs. unfold u64. apply Zplus_mod_idemp_l. }
    destruct Hbk as [(_ & _ & E1 & _)|(Hf & _ & _ & th & _ & _ & Hc)].
    - rewrite E1. intros Hf. apply Hgo; [reflexivity|].
      rewrite <- Hf. apply enough_ext. symmetry. exact Hvc.
    - assert (Hrm : g_rmax st = o_maxl o) by (eapply created_rmax; eauto).
      rewrite Hrm in Hf. rewrite Hrm in Hc.
      destruct Hc as [(Hen & _ & E1 & _)|(Hen & _ & E1 & _)]; rewrite E1.
      + intros Hx. rewrite (enough_ext ptol_ok (o_maxl o) _ (comb ++ [mklevel th 0 0 0 0])) in Hx
          by (apply vals_lk, map_lk_renorm). congruence.
      + intros _. apply Hgo; [|rewrite <- Hf; apply enough_ext; symmetry; exact Hvc].
        rewrite map_app, sumZ_app. simpl. lia. }
  destruct Hs as [[_ (t & p & _ & _ & ->)]|[_ ->]]; exact G.
Qed.

Lemma c04_tries : forall st, valid_opts o -> Z.of_nat (o_tt o * o_ts o) < 2^32 ->
  reachable ptol_ok o st -> building ptol_ok (o_maxl o) (g_comb st) ->
  g_steps st = u64 (sumZ (map tries (g_comb st))).
Proof.
  intros st Hv Hw (init & rs & Hi & Hr & E) Hb.
  destruct (run_ind ptol_ok o dlt rl (fun _ s => tries_inv s) Hv rs _ st (init_ginv init Hv Hi) Hr E)
    as (_ & _ & _ & H & _); [| |apply H; exact Hb].
  - intros _. destruct init; reflexivity.
  - intros done r a b Ga _ _ _ Rab Ha. eapply tries_round; eauto.
Qed.

End Facts.
