(** Runs of the sampler model: consequences of the round invariant. *)
From Coq Require Import ZArith List Bool Lia Arith Permutation Sorted.
From Verif Require Import CPrelude SortModel SortProofs ListLemmas DnestModel DnestProofs DnestRound.
Import ListNotations.
Open Scope Z_scope.

Section Runs.
Variable ptol_ok : list dbl -> bool.
Variable o : opts.
Variable rel : dbl -> dbl -> bool.
Hypothesis rel_lt : forall a b, dlt a b = true -> rel a b = true.

Notation ginv := (ginv ptol_ok o rel).
Notation round_core := (round_core ptol_ok o).
Notation round := (round ptol_ok o).
Notation run := (run ptol_ok o).

(** The three ways a round can call exit(). *)
Definition exit_cond (st : gstate) : Prop :=
  (o_maxl o = O /\ S (length (g_comb st)) = LEVEL_NUM_MAX) \/
  (size_all_above_max o < Z.of_nat (length (g_pool st) + o_tt o * o_ts o) /\
     enough_levels ptol_ok (g_rmax st) (g_comb st) = Ok false) \/
  size_all_above_max o < Z.of_nat (length (g_pool st)).

Lemma round_core_spec : forall st r, valid_opts o -> ginv st -> valid_round o r ->
  spec (exit_cond st) (round_core st r) (round_facts ptol_ok o rel st r).
Proof.
  intros st r Hv Hg Hr. apply round_core_facts; auto; unfold exit_cond; intros; tauto.
Qed.

Definition save_rel (st1 : gstate) (r : rdraw) (st2 : gstate) : Prop :=
  exists t p, nth_error (g_tasks st1) (r_task r) = Some t /\ nth_error (parts t) (r_part r) = Some p /\
   st2 = mkg (g_tasks st1) (g_comb st1) (g_pool st1) (g_rmax st1) (g_steps st1)
        (u32 (g_saves st1 + 1)) (g_sample st1 ++ [pm p])
        (g_info st1 ++ [mkinfo (plev p) (plik p)
           (Z.of_nat (r_task r) * Z.of_nat (o_np o) + Z.of_nat (r_part r))]).

(** A round is a round without saving followed, if due, by a save. *)
Definition round_rel (st : gstate) (r : rdraw) (st' : gstate) : Prop :=
  exists st1, round_core st r = Ok st1 /\ round_facts ptol_ok o rel st r st1 /\
    ((save_due o (g_steps st1) (g_saves st1) = true /\ save_rel st1 r st') \/
     (save_due o (g_steps st1) (g_saves st1) = false /\ st' = st1)).

Lemma save_inv : forall st1 r st2, ginv st1 -> save_rel st1 r st2 -> ginv st2.
Proof.
  intros st1 r st2 [H1 H2 H3 H4 H5 H6 H7 H8 H9 H10 H11] (t & p & Ht & Hp & ->).
  constructor; simpl; auto.
  - rewrite !app_length. simpl. lia.
  - apply Forall_app. split; [exact H11|]. constructor; [|constructor].
    pose proof (Forall_nth_error _ _ _ _ _ H6 Ht) as T.
    pose proof (Forall_nth_error _ _ _ _ _ (t0_parts _ _ _ _ T) Hp) as P. exact P.
Qed.

Lemma round_spec : forall st r, valid_opts o -> ginv st -> valid_round o r ->
  spec (exit_cond st) (round st r) (fun st' => round_rel st r st' /\ ginv st').
Proof.
  intros st r Hv Hg Hr. unfold round.
  pose proof (round_core_spec st r Hv Hg Hr) as S.
  destruct (round_core st r) as [st1| | |] eqn:E; simpl in *; auto.
  destruct (save_due o (g_steps st1) (g_saves st1)) eqn:Ed.
  - pose proof (rf_inv _ _ _ _ _ _ S) as Gi.
    unfold save_particle. eapply spec_bind.
    { apply get_spec; [rewrite (gi_tt _ _ _ _ Gi); apply (vr_task _ _ Hr)|]. intros t Ht. exact Ht. }
    intros t Ht. eapply spec_bind.
    { apply get_spec.
      - pose proof (Forall_nth_error _ _ _ _ _ (gi_tasks _ _ _ _ Gi) Ht) as T.
        rewrite (t0_np _ _ _ _ T). apply (vr_part _ _ Hr).
      - intros p Hp. exact Hp. }
    intros p Hp. apply spec_ok.
    match goal with |- round_rel _ _ ?s /\ _ => set (st2 := s) end.
    assert (SR : save_rel st1 r st2) by (exists t, p; auto).
    split; [|eapply save_inv; eauto].
    exists st1. split; [exact E|]. split; [exact S|]. left. auto.
  - apply spec_ok. split; [|apply (rf_inv _ _ _ _ _ _ S)].
    exists st1. split; [exact E|]. split; [exact S|]. right. auto.
Qed.

Lemma run_spec : forall rs st, valid_opts o -> ginv st -> Forall (valid_round o) rs ->
  spec True (run rs st) ginv.
Proof.
  induction rs as [|r rs IH]; intros st Hv Hg Hr; simpl; [exact Hg|].
  destruct (terminated o st); [exact Hg|]. inversion Hr; subst.
  eapply spec_bind with (P := ginv).
  { eapply spec_impl; [apply round_spec; auto|auto|]. intros a [_ Ha]. exact Ha. }
  intros st' Hst'. apply IH; auto.
Qed.

(** General induction principle for runs that end normally. *)
Lemma run_ind : forall (P : list rdraw -> gstate -> Prop),
  valid_opts o ->
  forall rs st st', ginv st -> Forall (valid_round o) rs -> run rs st = Ok st' ->
  P [] st ->
  (forall done r a b, ginv a -> ginv b -> valid_round o r -> terminated o a = false ->
     round_rel a r b -> P done a -> P (done ++ [r]) b) ->
  exists done rest, rs = done ++ rest /\ P done st' /\ (rest <> [] -> terminated o st' = true).
Proof.
  intros P Hv rs st st' Hg Hr Hrun H0 Hs.
  assert (G : forall rs done st, ginv st -> Forall (valid_round o) rs -> run rs st = Ok st' -> P done st ->
     exists done' rest, done ++ rs = done' ++ rest /\ P done' st' /\ (rest <> [] -> terminated o st' = true)).
  { clear rs st Hg Hr Hrun H0. induction rs as [|r rs IH]; intros done st Hg Hr Hrun HP; simpl in Hrun.
    - injection Hrun as <-. exists done, []. repeat split; auto.
    - destruct (terminated o st) eqn:Et.
      + injection Hrun as <-. exists done, (r :: rs). repeat split; auto.
      + inversion Hr; subst. pose proof (round_spec st r Hv Hg H1) as S.
        destruct (round st r) as [st1| | |]; try discriminate. cbn [bind] in Hrun. simpl in S.
        destruct S as [S1 S2].
        destruct (IH (done ++ [r]) st1) as (d & rest & E & HP' & HT); auto.
        { apply (Hs done r st st1); auto. }
        exists d, rest. rewrite <- E, <- app_assoc. auto. }
  apply (G rs [] st); auto.
Qed.

(** Thresholds are permanent. *)
Lemma round_core_ext : forall st r st1, round_facts ptol_ok o rel st r st1 ->
  exists ext, map lk (g_comb st1) = map lk (g_comb st) ++ ext /\ (length ext <= 1)%nat.
Proof.
  intros st r st1 F. destruct (rf_mid _ _ _ _ _ _ F)
    as (en & ts & comb & rmax' & pool' & ps' & _ & _ & _ & _ & _ & _ & Hlk & _ & Hbk & _).
  destruct Hbk as [(_ & _ & -> & _)|(_ & _ & _ & th & _ & _ & Hc)].
  - exists []. rewrite app_nil_r. split; [exact Hlk|simpl; lia].
  - exists [th]. split; [|simpl; lia].
    destruct Hc as [(_ & _ & -> & _)|(_ & _ & -> & _)]; rewrite ?map_lk_renorm, map_app, Hlk; reflexivity.
Qed.

Lemma round_ext : forall st r st', round_rel st r st' ->
  exists ext, map lk (g_comb st') = map lk (g_comb st) ++ ext /\ (length ext <= 1)%nat.
Proof.
  intros st r st' (st1 & _ & F & [(_ & t & p & _ & _ & ->)|(_ & ->)]); simpl; eapply round_core_ext; eauto.
Qed.

Lemma run_ext : forall rs st st', valid_opts o -> ginv st -> Forall (valid_round o) rs ->
  run rs st = Ok st' -> exists ext, map lk (g_comb st') = map lk (g_comb st) ++ ext.
Proof.
  intros rs st st' Hv Hg Hr Hrun.
  destruct (run_ind (fun _ s => exists ext, map lk (g_comb s) = map lk (g_comb st) ++ ext) Hv rs st st' Hg Hr Hrun)
    as (_ & _ & _ & H & _); [exists []; rewrite app_nil_r; reflexivity| |exact H].
  intros done r a b _ _ _ _ Hab [ext E]. destruct (round_ext _ _ _ Hab) as (ext' & E' & _).
  exists (ext ++ ext'). rewrite E', E, app_assoc. reflexivity.
Qed.

(** ** Pool size *)

Lemma pool_step : forall st r st1, ginv st -> round_facts ptol_ok o rel st r st1 ->
  exists n, (length (g_pool st) <= n <= length (g_pool st) + o_tt o * o_ts o)%nat /\
    ((length (g_pool st1) = n /\ (n < o_nli o \/ n = length (g_pool st))%nat) \/
     length (g_pool st1) = new_index o n).
Proof.
  intros st r st1 Hg F. destruct (rf_mid _ _ _ _ _ _ F)
    as (en & ts & comb & rmax' & pool' & ps' & En & Lts & Fts & _ & _ & Hvc & _ & _ & Hbk & Ep & _).
  assert (Hpe : en = true -> flat_map above ts = []).
  { intros ->. apply flat_map_above_nil. eapply Forall_impl; [|exact Fts]. intros t Ht.
    apply (ti_above_en _ _ _ _ _ _ _ _ Ht). reflexivity. }
  assert (Hlen : (length (flat_map above ts) <= o_tt o * o_ts o)%nat).
  { rewrite <- Lts. apply flat_map_above_len. eapply Forall_impl; [|exact Fts]. intros t Ht.
    apply (ti_above_len _ _ _ _ _ _ _ _ Ht). }
  set (pool := g_pool st ++ flat_map above ts) in *.
  assert (Lp : length pool = (length (g_pool st) + length (flat_map above ts))%nat)
    by (unfold pool; apply app_length).
  exists (length pool). split; [lia|]. rewrite Ep.
  destruct Hbk as [(Hn & _ & _ & -> & _)|(_ & _ & _ & th & Hth & -> & _)].
  - left. split; [reflexivity|]. destruct Hn as [Hn|Hn]; [|left; exact Hn]. right.
    rewrite (enough_ext ptol_ok _ comb (g_comb st) Hvc), En in Hn.
    assert (E : en = true) by congruence. rewrite (Hpe E) in Lp. simpl in Lp. lia.
  - right. rewrite firstn_length. apply nth_error_lt in Hth. lia.
Qed.

(** Compression of at least 6/5: the pool never exceeds this. *)
Definition pool_bound : nat := Nat.max (o_nli o) (5 * (o_tt o * o_ts o)).

Lemma new_index_le : forall n B, valid_opts o -> 5 * o_cp o >= 6 * o_cq o ->
  (n <= B + o_tt o * o_ts o)%nat -> (5 * (o_tt o * o_ts o) <= B)%nat -> (new_index o n <= B)%nat.
Proof.
  intros n B Hv Hc Hn HB. unfold new_index. destruct Hv as [_ _ _ _ Hcp _].
  assert (Z.of_nat n * o_cq o / o_cp o <= Z.of_nat B); [|lia].
  apply Z.div_le_upper_bound; [lia|].
  assert (5 * (Z.of_nat n * o_cq o) <= 5 * (Z.of_nat B + Z.of_nat (o_tt o * o_ts o)) * o_cq o) by nia.
  assert (5 * Z.of_nat (o_tt o * o_ts o) <= Z.of_nat B) by lia.
  nia.
Qed.

Lemma pool_bounded : forall st r st1, valid_opts o -> 5 * o_cp o >= 6 * o_cq o -> ginv st ->
  round_facts ptol_ok o rel st r st1 ->
  (length (g_pool st) <= pool_bound)%nat -> (length (g_pool st1) <= pool_bound)%nat.
Proof.
  intros st r st1 Hv Hc Hg F Hp. unfold pool_bound in *.
  destruct (pool_step st r st1 Hg F) as (n & Hn & [[E [H|H]]|E]); rewrite E; try lia.
  apply new_index_le; auto; lia.
Qed.

Lemma size_max_ge : valid_opts o ->
  (1 + (o_cp o + o_cq o - 1) / o_cq o) * Z.of_nat (o_ts o) * Z.of_nat (o_tt o)
    * (Z.of_nat (o_nli o) / Z.of_nat (o_ts o) + 1) < 2^32 ->
  Z.of_nat (pool_bound + o_tt o * o_ts o) <= size_all_above_max o.
Proof.
  intros [Hnp Htt Hts Hnli Hc Hreg] Hw. unfold size_all_above_max, pool_bound.
  set (T := o_ts o) in *. set (N := o_nli o) in *. set (K := o_tt o) in *.
  set (c1 := 1 + (o_cp o + o_cq o - 1) / o_cq o) in *.
  assert (Hc1 : 3 <= c1).
  { unfold c1. assert (2 <= (o_cp o + o_cq o - 1) / o_cq o) by (apply Z.div_le_lower_bound; lia). lia. }
  set (q := Z.of_nat N / Z.of_nat T) in *.
  assert (Hq : Z.of_nat N < Z.of_nat T * (q + 1)).
  { unfold q. pose proof (Z.mod_pos_bound (Z.of_nat N) (Z.of_nat T) ltac:(lia)).
    pose proof (Z.div_mod (Z.of_nat N) (Z.of_nat T) ltac:(lia)). lia. }
  assert (Hq1 : Z.of_nat K <= q).
  { unfold q. apply Z.div_le_lower_bound; [lia|]. rewrite <- Nat2Z.inj_mul, Nat.mul_comm. lia. }
  set (m := c1 * Z.of_nat T * Z.of_nat K * (q + 1)) in *.
  assert (Hm : m = c1 * (Z.of_nat K * (Z.of_nat T * (q + 1)))) by (unfold m; ring).
  assert (HKT : Z.of_nat (K * T) = Z.of_nat K * Z.of_nat T) by apply Nat2Z.inj_mul.
  assert (A : Z.of_nat N <= Z.of_nat K * (Z.of_nat T * (q + 1))) by nia.
  assert (B : 2 * (Z.of_nat K * Z.of_nat T) <= Z.of_nat K * (Z.of_nat T * (q + 1))) by nia.
  assert (M1 : 3 * (Z.of_nat K * (Z.of_nat T * (q + 1))) <= m) by nia.
  assert (Hu : u32 m = m) by (unfold u32; apply Z.mod_small; lia).
  rewrite Hu. destruct (m <? u32 (Z.of_nat N * 2)) eqn:E; [apply Z.ltb_lt in E|]; lia.
Qed.

Lemma no_exit_round : forall st, valid_opts o -> 5 * o_cp o >= 6 * o_cq o ->
  (1 + (o_cp o + o_cq o - 1) / o_cq o) * Z.of_nat (o_ts o) * Z.of_nat (o_tt o)
    * (Z.of_nat (o_nli o) / Z.of_nat (o_ts o) + 1) < 2^32 ->
  (length (g_pool st) <= pool_bound)%nat -> exit_cond st ->
  o_maxl o = O /\ S (length (g_comb st)) = LEVEL_NUM_MAX.
Proof.
  intros st Hv Hc Hw Hp HE. pose proof (size_max_ge Hv Hw) as S.
  destruct HE as [H|[[H _]|H]]; [exact H| |]; exfalso; lia.
Qed.

Lemma run_no_exit : forall rs st, valid_opts o -> 5 * o_cp o >= 6 * o_cq o ->
  (1 + (o_cp o + o_cq o - 1) / o_cq o) * Z.of_nat (o_ts o) * Z.of_nat (o_tt o)
    * (Z.of_nat (o_nli o) / Z.of_nat (o_ts o) + 1) < 2^32 ->
  ginv st -> (length (g_pool st) <= pool_bound)%nat -> Forall (valid_round o) rs ->
  spec (o_maxl o = O) (run rs st) (fun st' => ginv st' /\ (length (g_pool st') <= pool_bound)%nat).
Proof.
  induction rs as [|r rs IH]; intros st Hv Hc Hw Hg Hp Hr; simpl; [auto|].
  destruct (terminated o st); [simpl; auto|]. inversion Hr; subst.
  eapply spec_bind with (P := fun st' => ginv st' /\ (length (g_pool st') <= pool_bound)%nat).
  - eapply spec_impl; [apply round_spec; auto| |].
    + intros HE. apply (no_exit_round st); auto.
    + intros a [(st1 & _ & F & Hs) Ha]. split; [exact Ha|].
      pose proof (pool_bounded st r st1 Hv Hc Hg F Hp) as P1.
      destruct Hs as [[_ Hs]|[_ Hs]]; [destruct Hs as (t & p & _ & _ & Hs)|]; rewrite Hs; exact P1.
  - intros st' [H1' H2']. apply IH; auto.
Qed.

(** ** Counting steps and saves *)

(** The step and save counters alone. *)
Definition cnt_next (c : Z * Z) : Z * Z :=
  let steps := u64 (fst c + round_steps o) in
  (steps, if save_due o steps (snd c) then u32 (snd c + 1) else snd c).

Lemma round_counts : forall st r st', round_rel st r st' ->
  (g_steps st', g_saves st') = cnt_next (g_steps st, g_saves st) /\
  Z.of_nat (length (g_sample st')) = Z.of_nat (length (g_sample st))
    + (if save_due o (g_steps st') (g_saves st) then 1 else 0).
Proof.
  intros st r st' (st1 & _ & F & H). unfold cnt_next. simpl.
  pose proof (rf_steps _ _ _ _ _ _ F) as Es. pose proof (rf_saves _ _ _ _ _ _ F) as Ev.
  pose proof (rf_sample _ _ _ _ _ _ F) as Esm.
  rewrite Ev in H. rewrite <- Es.
  destruct H as [(D & t & p & _ & _ & ->)|(D & ->)]; simpl; rewrite D, Esm.
  - rewrite Ev. split; [reflexivity|]. rewrite app_length. simpl. lia.
  - rewrite Ev. split; [reflexivity|]. lia.
Qed.

End Runs.
