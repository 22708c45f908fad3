(** C05 (prior masses of levels), C14 (periodic wrap), C15 (sorting). *)
From Coq Require Import Reals ZArith List Bool Lia Lra Permutation Sorted.
From Verif Require Import CPrelude SortModel SortProofs ListLemmas DnestModel DnestProofs DnestRound
  SamplerSpec SamplerFacts LogXModel LogXProofs SamplerExamples.
Import ListNotations.

(** ** C05 *)
Section C05.
Open Scope R_scope.
Theorem C05_log_prior_mass : forall ptol_ok o st,
  valid_opts o -> (0 < o_reg o)%Z -> reachable ptol_ok o st ->
  let c := IZR (o_cp o) / IZR (o_cq o) in
  let X := recalculate_log_X c (o_reg o) (g_comb st) in
  nth_error X 0 = Some 0 /\ length X = length (g_comb st) /\
  (forall j, (j < length (g_comb st))%nat -> nth_error X j =
     Some (sumR (fun l => ln ((IZR (exceeds l) + IZR (o_reg o) / c) / (IZR (visits l) + IZR (o_reg o))))
             (firstn j (g_comb st)))) /\
  (forall i j x y, (i < j)%nat -> nth_error X i = Some x -> nth_error X j = Some y -> y < x).
Proof.
  intros ptol_ok o st Hv Hr Hre c X. pose proof (reachable_ginv ptol_ok o st Hv Hre) as G.
  pose proof (gi_len _ _ _ _ G) as [Hl _].
  assert (Hc : 1 < c).
  { unfold c. destruct (vo_c _ Hv) as [H1 H2]. apply IZR_lt in H1, H2.
    apply (Rmult_lt_reg_r (IZR (o_cq o))); [lra|]. unfold Rdiv. rewrite Rmult_assoc, Rinv_l by lra. lra. }
  assert (Hn : forall j, (j < length (g_comb st))%nat -> nth_error X j =
     Some (sumR (fun l => ln ((IZR (exceeds l) + IZR (o_reg o) / c) / (IZR (visits l) + IZR (o_reg o))))
             (firstn j (g_comb st)))).
  { intros j Hj. unfold X. rewrite log_X_nth by exact Hj. f_equal. induction (firstn j (g_comb st)) as [|l ls IH]; simpl; [reflexivity|].
    rewrite IH. unfold shrink. do 4 f_equal. unfold Rdiv. ring. }
  split; [rewrite Hn by exact Hl; reflexivity|]. split; [apply log_X_length|]. split; [exact Hn|].
  intros i j x y. apply log_X_decreasing; auto. apply (c03 ptol_ok o st Hv Hre).
Qed.
Print Assumptions C05_log_prior_mass.
(** Three levels with counters 5/5, 4/4 and none, compression 2, regularisation 10. *)
Example C05_example : valid_opts exo /\ (0 < o_reg exo)%Z /\ exists st, reachable never exo st /\
  recalculate_log_X 2 (o_reg exo) (g_comb st) =
    [0; ln (10 / 15); ln (10 / 15) + ln (9 / 14)].
Proof.
  split; [exact exo_valid|]. split; [reflexivity|].
  destruct (run never exo exrounds (init_state exo exinit)) as [st| | |] eqn:E.
  2-4: vm_compute in E; discriminate.
  exists st. split; [exists exinit, exrounds; split; [exact exinit_valid|split; [exact exrounds_valid|exact E]]|].
  pose proof exrun as X. rewrite E in X. unfold summary in X.
  apply (f_equal (option_map (fun x => snd (fst (fst (fst x)))))) in X. cbn [option_map fst snd] in X. clear E.
  destruct (g_comb st) as [|a [|b [|d [|e l]]]]; try discriminate. cbn [map] in X.
  assert (A1 : exceeds a = 5%Z) by congruence. assert (A2 : visits a = 5%Z) by congruence.
  assert (B1 : exceeds b = 4%Z) by congruence. assert (B2 : visits b = 4%Z) by congruence.
  cbn [recalculate_log_X log_X_loop]. unfold shrink. rewrite A1, A2, B1, B2. cbn [exo o_reg].
  replace (10 / 15) with ((5 + 1 / 2 * 10) / (5 + 10)) by lra. replace (9 / 14) with ((4 + 1 / 2 * 10) / (4 + 10)) by lra.
  rewrite Rplus_0_l. reflexivity.
Qed.

(** ** C14 *)
Theorem C14_wrap : forall x lo hi, lo < hi ->
  exists r, dnest_wrap x lo hi = Ok r /\ lo <= r < hi /\ exists k, x = r + IZR k * (hi - lo).
Proof. exact wrap_spec. Qed.
Print Assumptions C14_wrap.
Theorem C14_wrap_identity : forall x lo hi, lo <= x < hi -> dnest_wrap x lo hi = Ok x.
Proof. exact wrap_id. Qed.
Print Assumptions C14_wrap_identity.
Theorem C14_wrap_idempotent : forall x lo hi r, lo < hi ->
  dnest_wrap x lo hi = Ok r -> dnest_wrap r lo hi = Ok r.
Proof. exact wrap_idem. Qed.
Print Assumptions C14_wrap_idempotent.
Theorem C14_wrap_empty_interval : forall x lo, dnest_wrap x lo lo = Ok lo.
Proof. exact wrap_empty. Qed.
Print Assumptions C14_wrap_empty_interval.
Theorem C14_wrap_reversed_interval_exits : forall x lo hi, hi < lo -> dnest_wrap x lo hi = Exit.
Proof. exact wrap_reversed. Qed.
Print Assumptions C14_wrap_reversed_interval_exits.
Theorem C14_clamp : forall x lo hi, lo <= hi ->
  lo <= wrap_limit x lo hi <= hi /\ (lo <= x <= hi -> wrap_limit x lo hi = x).
Proof. exact wrap_limit_spec. Qed.
Print Assumptions C14_clamp.
(** 7.5 wrapped into [1,3) is 1.5, three lengths away. *)
Example C14_example : dnest_wrap 7.5 1 3 = Ok 1.5.
Proof.
  destruct (wrap_spec 7.5 1 3) as (r & E & Hr & k & Hk); [lra|]. rewrite E. f_equal.
  assert (k = 3%Z); [|subst; simpl in Hk; lra].
  assert (IZR 2 < IZR k) by lra. assert (IZR k < IZR 4) by lra. apply lt_IZR in H, H0. lia.
Qed.
End C05.

(** ** C15 *)
Section C15.
Open Scope Z_scope.
(** The callbacks are not orderings: the level comparison says an element must
    come after itself, and neither it nor the sample comparison is ever
    negative. *)
Theorem C15_callbacks_inconsistent :
  (exists a, numeric (lv a) /\ dnest_cmp a a = 1) /\ (forall a b, 0 <= dnest_cmp a b) /\
  (forall a b, 0 <= cmp_sample a b) /\ (exists a, numeric a /\ mica_cmp a a = 1).
Proof.
  split; [exists (mklik (Val 0) 0); split; [eexists; reflexivity|reflexivity]|].
  split; [intros a b; unfold dnest_cmp; destruct (dlt _ _); [lia|destruct (_ && _); lia]|].
  split; [intros a b; unfold cmp_sample; destruct (dlt _ _); [lia|destruct (_ && _); lia]|].
  exists (Val 0). split; [eexists; reflexivity|reflexivity].
Qed.
Print Assumptions C15_callbacks_inconsistent.

(** Whatever the callback, the merge sort permutes. *)
Theorem C15_sort_permutes : forall A (cmp : A -> A -> Z) l, Permutation (msort cmp l) l.
Proof. exact @msort_perm. Qed.
Print Assumptions C15_sort_permutes.

(** Level creation: descending in (value, tiebreaker). *)
Theorem C15_level_pool_descending : forall l, Forall (fun a => numeric (lv a)) l ->
  StronglySorted lik_ge (msort dnest_cmp l).
Proof. exact dnest_sort_sorted. Qed.
Print Assumptions C15_level_pool_descending.

(** Post-processing: ascending in (value, tiebreaker). *)
Theorem C15_samples_ascending : forall l, Forall (fun a => numeric (lv a)) l ->
  StronglySorted (fun a b => lik_ge b a) (msort cmp_sample l).
Proof. exact sample_sort_sorted. Qed.
Print Assumptions C15_samples_ascending.

(** Lag centres: ascending. *)
Theorem C15_centres_ascending : forall l, Forall numeric l ->
  StronglySorted dbl_le (msort mica_cmp l).
Proof. exact mica_sort_sorted. Qed.
Print Assumptions C15_centres_ascending.

Example C15_example :
  msort dnest_cmp [mklik (Val 3) 1; mklik (Val 5) 0; mklik (Val 3) 2; mklik (Val 3) 1]
  = [mklik (Val 5) 0; mklik (Val 3) 2; mklik (Val 3) 1; mklik (Val 3) 1] /\
  msort mica_cmp [Val 2; Val 3; Val 2; Val 1] = [Val 1; Val 2; Val 2; Val 3].
Proof. split; reflexivity. Qed.
End C15.
