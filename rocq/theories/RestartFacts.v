(** Proofs of the statements of PropRestart.v. *)
From Coq Require Import ZArith List Bool Lia Arith Sorted.
From Verif Require Import CPrelude SortModel SortProofs ListLemmas DnestModel DnestProofs DnestRound DnestRuns
  SamplerSpec SamplerFacts SamplerFacts2 RestartModel RestartProofs RestartSpec.
Import ListNotations.
Open Scope Z_scope.

(** Every double that is not NaN and has a signed code in range is an image. *)
Lemma kept_small : forall maxl n, Z.of_nat n < 2^31 ->
  (maxl = O -> (n <= LEVEL_NUM_MAX)%nat) ->
  kept maxl (Z.of_nat n) = Ok (if (maxl =? 0)%nat then n else Nat.min maxl n).
Proof.
  intros maxl n Hn H0. unfold kept. destruct (2^31 <=? Z.of_nat n) eqn:E; [apply Z.leb_le in E; lia|].
  destruct maxl as [|m].
  - cbn [Nat.eqb]. specialize (H0 eq_refl). destruct (Z.of_nat LEVEL_NUM_MAX <? Z.of_nat n) eqn:E1; [apply Z.ltb_lt in E1; lia|].
    rewrite Nat2Z.id. reflexivity.
  - cbn [Nat.eqb]. destruct (Z.of_nat (S m) <? Z.of_nat n) eqn:E1.
    + apply Z.ltb_lt in E1. f_equal. lia.
    + apply Z.ltb_ge in E1. rewrite Nat2Z.id. f_equal. lia.
Qed.

Lemma clamp_spec : forall k a, (0 < k)%nat -> Z.of_nat k < 2^31 ->
  clamp k a = (Z.min (Z.of_nat k - 1) (fst a), snd a).
Proof.
  intros k [a p] Hk Hk2. unfold clamp. simpl. unfold u32. rewrite Z.mod_small by lia.
  destruct (Z.of_nat k - 1 <? a) eqn:E; f_equal; [apply Z.ltb_lt in E|apply Z.ltb_ge in E]; lia.
Qed.

Lemma clamp_id : forall k l, (0 < k)%nat -> Z.of_nat k < 2^31 ->
  Forall (fun a : Z * (Z * Z) => fst a < Z.of_nat k) l -> map (clamp k) l = l.
Proof.
  intros k l H1 H2 H. induction H as [|[a p] l Ha H IH]; simpl; [reflexivity|].
  rewrite IH, clamp_spec by assumption. simpl in *. rewrite Z.min_r by lia. reflexivity.
Qed.

Lemma c17 : forall lim dim n maxl maxs s, snap_wf lim dim n s ->
  s_levels s <> [] -> Forall (fun a => fst a < Z.of_nat (length (s_levels s))) (s_assign s) ->
  (if (maxl =? 0)%nat then (length (s_levels s) <= LEVEL_NUM_MAX)%nat else (length (s_levels s) <= maxl)%nat) ->
  s_saves s <= maxs ->
  read_snap lim dim n maxl maxs (write_snap lim s) =
    Ok (mksnap (s_saves s) (s_steps s mod 2^32) (s_levels s) (s_assign s) (s_limits s) (s_parts s)).
Proof.
  intros lim dim n maxl maxs s W Hne Ha Hm Hs. pose proof (wf_nlev _ _ _ _ W) as Hn.
  assert (Hl : (0 < length (s_levels s))%nat) by (destruct (s_levels s); [congruence|simpl; lia]).
  assert (K : kept maxl (Z.of_nat (length (s_levels s))) = Ok (length (s_levels s))).
  { rewrite kept_small; [|exact Hn|]; destruct (maxl =? 0)%nat eqn:E; try reflexivity.
    - f_equal. lia.
    - auto.
    - apply Nat.eqb_neq in E. intros; congruence. }
  rewrite (read_write _ _ _ _ _ _ _ W K).
  destruct (maxs <? s_saves s) eqn:E; [apply Z.ltb_lt in E; lia|]. clear E.
  rewrite clamp_id, firstn_all by (assumption || lia). f_equal. f_equal.
  pose proof (wf_lims _ _ _ _ W) as L. destruct lim; [rewrite <- L; apply firstn_all|].
  destruct (s_limits s); [apply firstn_nil|discriminate].
Qed.

Lemma c18_read : forall lim dim n maxl maxs s, snap_wf lim dim n s ->
  (0 < maxl < length (s_levels s))%nat -> s_saves s <= maxs ->
  read_snap lim dim n maxl maxs (write_snap lim s) =
    Ok (mksnap (s_saves s) (s_steps s mod 2^32) (firstn maxl (s_levels s))
          (map (fun a => (Z.min (Z.of_nat maxl - 1) (fst a), snd a)) (s_assign s))
          (firstn maxl (s_limits s)) (s_parts s)).
Proof.
  intros lim dim n maxl maxs s W Hm Hs. pose proof (wf_nlev _ _ _ _ W) as Hn.
  assert (K : kept maxl (Z.of_nat (length (s_levels s))) = Ok maxl).
  { rewrite kept_small; [|exact Hn|lia]. destruct (maxl =? 0)%nat eqn:E; [apply Nat.eqb_eq in E; lia|]. f_equal. lia. }
  rewrite (read_write _ _ _ _ _ _ _ W K).
  destruct (maxs <? s_saves s) eqn:E; [apply Z.ltb_lt in E; lia|]. clear E.
  f_equal. f_equal. apply map_ext. intros a. apply clamp_spec; lia.
Qed.

Lemma nth_error_firstn : forall A (l : list A) k i, (i < k)%nat -> nth_error (firstn k l) i = nth_error l i.
Proof.
  induction l as [|a l IH]; intros [|k] [|i] H; simpl; try reflexivity; try lia. apply IH. lia.
Qed.

Section L.
Variable ptol_ok : list dbl -> bool.

Lemma table_prefix : forall o k ls, (0 < k)%nat -> (k <= alloc o)%nat -> (o_maxl o = O -> (k < LEVEL_NUM_MAX)%nat) ->
  Forall (fun l => numeric (lv (lk l))) ls -> nondecreasing ls -> Forall counters_ok ls -> ls <> [] ->
  table_ok o (firstn k ls).
Proof.
  intros o k ls Hk Ha H0 Hn Hs Hc Hne. assert (0 < length ls)%nat by (destruct ls; [congruence|simpl; lia]).
  constructor.
  - rewrite firstn_length. lia.
  - intros E. specialize (H0 E). rewrite firstn_length. lia.
  - rewrite <- (firstn_skipn k ls) in Hn. apply Forall_app in Hn. tauto.
  - intros i j a b Hij Hi Hj. apply (Hs i j a b Hij).
    + rewrite <- Hi. symmetry. apply nth_error_firstn.
      assert (j < length (firstn k ls))%nat by (apply nth_error_Some; congruence). rewrite firstn_length in H1. lia.
    + rewrite <- Hj. symmetry. apply nth_error_firstn.
      assert (j < length (firstn k ls))%nat by (apply nth_error_Some; congruence). rewrite firstn_length in H1. lia.
  - rewrite <- (firstn_skipn k ls) in Hc. apply Forall_app in Hc. tauto.
Qed.

Lemma restart_ok : forall o1 o2 st1 s vs, ginv ptol_ok o1 dle st1 -> same_shape o1 o2 -> valid_opts o2 ->
  snapshot_of o1 s st1 -> values_ok o2 s vs ->
  (o_maxl o2 = O -> (length (s_levels s) < LEVEL_NUM_MAX)%nat) -> s_saves s <= o_maxs o2 ->
  exists st2, restart o2 (write_snap (o_lim o1) s) vs = Ok st2 /\ ginv ptol_ok o2 dle st2 /\
    g_comb st2 = firstn (if (o_maxl o2 =? 0)%nat then length (g_comb st1) else o_maxl o2) (g_comb st1) /\
    g_steps st2 = g_steps st1 mod 2^32 /\ g_saves st2 = g_saves st1 /\ g_pool st2 = [] /\
    g_sample st2 = [] /\ g_info st2 = [].
Proof.
  intros o1 o2 st1 s vs G (E1 & E2 & E3 & E4) Hv [W S1 S2 S3 S4 S5] [V1 V2] H0 Hs.
  destruct (ginv_table ptol_ok o1 st1 G) as [T1 T2 T3 T4 T5].
  pose proof (f_equal (@length _) S3) as Ls. rewrite map_length in Ls.
  set (k := if (o_maxl o2 =? 0)%nat then length (s_levels s) else Nat.min (o_maxl o2) (length (s_levels s))).
  assert (K : kept (o_maxl o2) (Z.of_nat (length (s_levels s))) = Ok k).
  { apply kept_small; [apply (wf_nlev _ _ _ _ W)|]. intros e. specialize (H0 e). lia. }
  assert (Hk : (0 < k)%nat).
  { unfold k. destruct (o_maxl o2 =? 0)%nat eqn:E; [lia|]. apply Nat.eqb_neq in E. lia. }
  assert (Hkl : (k <= length (s_levels s))%nat) by (unfold k; destruct (o_maxl o2 =? 0)%nat; lia).
  assert (Hk2 : Z.of_nat k < 2^31) by (pose proof (wf_nlev _ _ _ _ W); lia).
  unfold restart. rewrite <- E1, <- E2, <- E3, <- E4.
  rewrite (read_write _ _ _ _ _ _ _ W K). destruct (o_maxs o2 <? s_saves s) eqn:E; [apply Z.ltb_lt in E; lia|].
  clear E. cbn [bind].
  set (s2 := mksnap _ _ _ _ _ _).
  destruct (restart_state_ok ptol_ok o2 s2 vs) as (st2 & R & G2 & A1 & A2 & A3 & A4 & A5 & A6).
  - unfold s2; simpl. rewrite <- firstn_map, S3. apply table_prefix; auto.
    + unfold k, alloc. destruct (o_maxl o2) as [|m] eqn:E; [|simpl Nat.eqb; cbn iota; lia]. simpl. specialize (H0 eq_refl). lia.
    + unfold k. intros e. rewrite e. simpl. auto.
    + intros e. rewrite e in T1. simpl in T1. lia.
  - unfold s2; simpl. rewrite map_length, (wf_n _ _ _ _ W). congruence.
  - unfold s2; simpl. rewrite (wf_np _ _ _ _ W). congruence.
  - unfold s2; simpl. rewrite firstn_length_le by lia. pose proof (wf_assign _ _ _ _ W) as Wa.
    apply Forall_forall. intros a Ha. apply in_map_iff in Ha. destruct Ha as (a0 & <- & Ha0).
    rewrite clamp_spec by assumption. simpl. rewrite Forall_forall in Wa. destruct (Wa a0 Ha0) as [[B1 B2] _]. lia.
  - unfold s2; simpl. rewrite <- E4, firstn_length, (wf_lims _ _ _ _ W). destruct (o_lim o1); [|lia].
    rewrite firstn_length. reflexivity.
  - exact V1.
  - eapply Forall_impl; [|exact V2]. intros v [L1 L2]. split; [exact L1|]. eapply Forall_impl; [|exact L2].
    intros x [N B]. split; [exact N|]. unfold s2; cbn [s_levels]. intros l Hl. apply B.
    rewrite nth_error_firstn in Hl by lia. exact Hl.
  - exists st2. unfold s2 in *; cbn [s_levels s_steps s_saves] in *. split; [exact R|]. split; [exact G2|]. repeat split; auto; try congruence.
    rewrite A1, <- firstn_map, S3. unfold k. destruct (o_maxl o2 =? 0)%nat.
    + rewrite Ls. reflexivity.
    + rewrite Ls. destruct (Nat.le_ge_cases (o_maxl o2) (length (g_comb st1))).
      * rewrite Nat.min_l by lia. reflexivity.
      * rewrite Nat.min_r by lia. rewrite firstn_all, firstn_all2 by lia. reflexivity.
Qed.

Lemma dle_rl : forall a b, dlt a b = true -> dle a b = true.
Proof. exact dlt_dle. Qed.

Lemma lives_inv : forall o st, lives ptol_ok o st -> valid_opts o /\ ginv ptol_ok o dle st.
Proof.
  intros o st H. induction H as [o init Hv Hi|o st r st' H [IH1 IH2] Hr Ht E|o1 st1 s o2 vs st2 H [IH1 IH2] Hv Hs Hso Hvs H0 E].
  - split; [exact Hv|]. apply ginv_weaken. apply init_ginv; auto.
  - split; [exact IH1|]. pose proof (round_spec ptol_ok o dle dle_rl st r IH1 IH2 Hr) as S. rewrite E in S.
    destruct S as [_ S]. exact S.
  - split; [exact Hv|].
    destruct (Z_le_gt_dec (s_saves s) (o_maxs o2)) as [Hle|Hgt].
    + destruct (restart_ok o1 o2 st1 s vs IH2 Hs Hv Hso Hvs H0 Hle) as (st2' & E' & G & _). congruence.
    + exfalso. unfold restart in E. destruct Hso as [W S1 S2 S3 S4 S5]. destruct Hs as (E1 & E2 & E3 & E4).
      rewrite <- E1, <- E2, <- E3, <- E4 in E.
      erewrite (read_write _ _ _ _ _ _ _ W) in E.
      * destruct (o_maxs o2 <? s_saves s) eqn:El; [discriminate|]. apply Z.ltb_ge in El. lia.
      * apply kept_small; [apply (wf_nlev _ _ _ _ W)|]. intros e. specialize (H0 e). lia.
Qed.

Lemma lives_safe : forall o st r, lives ptol_ok o st -> valid_round o r -> round ptol_ok o st r <> UB.
Proof.
  intros o st r H Hr E. destruct (lives_inv o st H) as [Hv G].
  pose proof (round_spec ptol_ok o dle dle_rl st r Hv G Hr) as S. rewrite E in S. exact S.
Qed.

Lemma lives_facts : forall o st, lives ptol_ok o st ->
  (forall t p, In t (g_tasks st) -> In p (parts t) -> not_below (g_comb st) (plev p) (plik p)) /\
  (forall i, In i (g_info st) -> not_below (g_comb st) (i_lev i) (i_lik i)) /\
  nondecreasing (g_comb st) /\ Forall counters_ok (g_comb st) /\
  length (g_tasks st) = o_tt o /\ (0 < length (g_comb st) <= alloc o)%nat.
Proof.
  intros o st H. destruct (lives_inv o st H) as [Hv G]. destruct (ginv_table ptol_ok o st G) as [T1 T2 T3 T4 T5].
  repeat split; auto; try lia.
  - intros t p Ht Hp. pose proof (gi_tasks _ _ _ _ G) as A. rewrite Forall_forall in A. pose proof (t0_parts _ _ _ _ (A t Ht)) as B.
    rewrite Forall_forall in B. destruct (B p Hp) as (v & E & D). destruct (vals_nth _ _ _ E) as (l & El & Ev).
    exists l. split; [exact El|]. destruct D; [left; auto|right; congruence].
  - intros i Hi. pose proof (gi_info _ _ _ _ G) as A. rewrite Forall_forall in A. destruct (A i Hi) as (v & E & D).
    destruct (vals_nth _ _ _ E) as (l & El & Ev).
    exists l. split; [exact El|]. destruct D; [left; auto|right; congruence].
  - apply (gi_tt _ _ _ _ G).
Qed.
End L.

(** ** Counting over sessions *)
Section Count.
Variable ptol_ok : list dbl -> bool.
Variable o : opts.
Notation T := (round_steps o).

Lemma bind_ok : forall A B (x : outcome A) (f : A -> outcome B) b, bind x f = Ok b -> exists a, x = Ok a /\ f a = Ok b.
Proof. intros A B [a| | |] f b H; try discriminate. exists a. auto. Qed.

Lemma core_counts : forall st r st1, round_core ptol_ok o st r = Ok st1 ->
  g_steps st1 = u64 (g_steps st + T) /\ g_saves st1 = g_saves st /\ g_sample st1 = g_sample st /\ g_info st1 = g_info st.
Proof.
  intros st r st1 H. unfold round_core in H. apply bind_ok in H. destruct H as (ts & _ & H).
  destruct (_ <? _); [discriminate|]. apply bind_ok in H. destruct H as (comb & _ & H).
  destruct ts as [|root ws]; [discriminate|]. apply bind_ok in H. destruct H as ([[[a b] c] d] & _ & H).
  injection H as <-. simpl. auto.
Qed.

Lemma round_counts' : forall st r st', round ptol_ok o st r = Ok st' ->
  g_steps st' = u64 (g_steps st + T) /\
  exists rows infos, g_sample st' = g_sample st ++ rows /\ g_info st' = g_info st ++ infos /\
    length infos = length rows /\
    (if save_due o (g_steps st') (g_saves st)
     then g_saves st' = u32 (g_saves st + 1) /\ length rows = 1%nat
     else g_saves st' = g_saves st /\ length rows = 0%nat).
Proof.
  intros st r st' H. unfold round in H. apply bind_ok in H. destruct H as (st1 & E & H).
  destruct (core_counts _ _ _ E) as (A1 & A2 & A3 & A4). rewrite A2 in H.
  destruct (save_due o (g_steps st1) (g_saves st)) eqn:D.
  - unfold save_particle in H. apply bind_ok in H. destruct H as (t & _ & H). apply bind_ok in H. destruct H as (p & _ & H).
    injection H as <-. simpl. split; [exact A1|]. rewrite A2, A3, A4. eexists _, _. repeat split. rewrite D. split; reflexivity.
  - injection H as <-. split; [exact A1|]. exists [], []. rewrite !app_nil_r, D. repeat split; auto.
Qed.

(** Sizes under which the 32- and 64-bit counters do not wrap. *)
Definition sizes_ok : Prop :=
  0 < o_si o /\ 0 < o_maxs o /\ o_maxs o * o_si o < 2^32 /\ 0 < T < 2^31.

Definition cap : Z := o_maxs o * o_si o / T + 1 + o_maxs o.

Record sess (c s0 : Z) (n : Z) (st : gstate) : Prop := mksess
  { se_steps : g_steps st = s0 + n * T;
    se_n : 0 <= n <= cap;
    se_saves : c <= g_saves st <= o_maxs o;
    se_rows : Z.of_nat (length (g_sample st)) = g_saves st - c;
    se_info : length (g_info st) = length (g_sample st);
    se_prog : o_maxs o * o_si o / T + 1 <= n -> n - (o_maxs o * o_si o / T + 1) <= g_saves st }.

Lemma sess_round : sizes_ok -> forall c s0 n st r st', 0 <= c -> 0 <= s0 < 2^32 -> sess c s0 n st -> terminated o st = false ->
  (0 < c \/ 0 < o_maxs o) ->
  round ptol_ok o st r = Ok st' -> sess c s0 (n + 1) st'.
Proof.
  intros (H1 & H2 & H3 & H4) c s0 n st r st' Hc Hs0 [I1 I2 I3 I4 I5 I6] Ht _ E.
  destruct (round_counts' _ _ _ E) as (C1 & rows & infos & C2 & C3 & C4 & C5).
  assert (Hlt : g_saves st < o_maxs o).
  { destruct (Z.eq_dec (g_saves st) (o_maxs o)) as [e|]; [|lia]. exfalso.
    unfold terminated in Ht. rewrite e, Z.mod_same in Ht by lia. simpl in Ht.
    destruct (o_maxs o =? 0) eqn:E0; [apply Z.eqb_eq in E0; lia|]. discriminate. }
  assert (D0 : 0 <= o_maxs o * o_si o / T) by (apply Z.div_pos; nia).
  assert (Dm : o_maxs o * o_si o / T * T <= o_maxs o * o_si o) by (pose proof (Z.mul_div_le (o_maxs o * o_si o) T); lia).
  assert (Hn : n < cap).
  { unfold cap. destruct (Z_le_gt_dec (o_maxs o * o_si o / T + 1) n) as [h|h]; [specialize (I6 h); lia|lia]. }
  assert (Hm : o_maxs o < 2^32) by nia.
  assert (Hb : cap * T < 2^63 + 2^33 + 2^33).
  { unfold cap. replace ((o_maxs o * o_si o / T + 1 + o_maxs o) * T) with (o_maxs o * o_si o / T * T + T + o_maxs o * T) by ring.
    assert (o_maxs o * T <= 2^32 * 2^31) by nia. lia. }
  assert (Hst : g_steps st' = s0 + (n + 1) * T).
  { rewrite C1, I1. unfold u64. rewrite Z.mod_small; [ring|].
    assert ((n + 1) * T <= cap * T) by nia. assert (0 <= n * T) by nia. lia. }
  assert (Hdue : save_due o (g_steps st') (g_saves st) = ((g_saves st + 1) * o_si o <=? s0 + (n + 1) * T)).
  { unfold save_due, u32. rewrite Z.mod_small by nia. rewrite Hst. reflexivity. }
  rewrite Hdue in C5.
  destruct ((g_saves st + 1) * o_si o <=? s0 + (n + 1) * T) eqn:D; destruct C5 as [C5 C6].
  - assert (Hsv : g_saves st' = g_saves st + 1) by (rewrite C5; unfold u32; apply Z.mod_small; lia).
    constructor; try lia.
    + rewrite C2, app_length. lia.
    + rewrite C2, C3, !app_length. lia.
  - apply Z.leb_gt in D. constructor; try lia.
    + rewrite C2, app_length. lia.
    + rewrite C2, C3, !app_length. lia.
    + intros h. exfalso.
      assert (o_maxs o * o_si o < (o_maxs o * o_si o / T + 1) * T).
      { pose proof (Z.div_mod (o_maxs o * o_si o) T ltac:(lia)). pose proof (Z.mod_pos_bound (o_maxs o * o_si o) T ltac:(lia)). nia. }
      assert ((o_maxs o * o_si o / T + 1) * T <= (n + 1) * T) by nia. nia.
Qed.

Lemma sess_run : sizes_ok -> forall c s0 rs n st st', 0 <= c -> 0 <= s0 < 2^32 -> sess c s0 n st ->
  run ptol_ok o rs st = Ok st' ->
  exists m, sess c s0 m st' /\ n <= m <= n + Z.of_nat (length rs) /\
    (m < n + Z.of_nat (length rs) -> terminated o st' = true).
Proof.
  intros Hs c s0. induction rs as [|r rs IH]; intros n st st' Hc H0 H E; simpl in E.
  - injection E as <-. exists n. simpl. repeat split; try apply H; lia.
  - destruct (terminated o st) eqn:Et.
    + injection E as <-. exists n. cbn [length]. repeat split; try apply H; try lia. auto.
    + apply bind_ok in E. destruct E as (st1 & E1 & E2).
      assert (S1 : sess c s0 (n + 1) st1) by (eapply sess_round; eauto; destruct Hs; right; tauto).
      destruct (IH _ _ _ Hc H0 S1 E2) as (m & A & B & C). exists m. cbn [length]. split; [exact A|]. split; [lia|].
      intros. apply C. lia.
Qed.

Lemma term_full : forall st, terminated o st = true -> 0 <= g_saves st <= o_maxs o -> g_saves st = o_maxs o.
Proof.
  intros st Hte Hr. unfold terminated in Hte. apply andb_true_iff in Hte. destruct Hte as [Hte Hm].
  apply andb_true_iff in Hte. destruct Hte as [_ Hte]. apply Z.eqb_eq in Hm.
  destruct (g_saves st =? 0) eqn:E0; [discriminate|]. apply Z.eqb_neq in E0.
  destruct (Z.eq_dec (g_saves st) (o_maxs o)); [auto|]. rewrite Z.mod_small in Hm; lia.
Qed.

(** A session that begins with [c] saves and empty session rows. *)
Lemma session_count : sizes_ok -> forall rs st st', 0 <= g_saves st <= o_maxs o -> 0 <= g_steps st < 2^32 ->
  g_sample st = [] -> g_info st = [] -> run ptol_ok o rs st = Ok st' ->
  Z.of_nat (length (g_sample st')) = g_saves st' - g_saves st /\
  length (g_info st') = length (g_sample st') /\ g_saves st <= g_saves st' <= o_maxs o /\
  (cap <= Z.of_nat (length rs) -> terminated o st' = true) /\
  (terminated o st' = true -> g_saves st' = o_maxs o).
Proof.
  intros Hs rs st st' Hc H0 Ha Hb E. pose proof Hs as (H1 & H2 & H3 & H4).
  assert (D0 : 0 <= o_maxs o * o_si o / T) by (apply Z.div_pos; nia).
  assert (S0 : sess (g_saves st) (g_steps st) 0 st).
  { constructor; try lia. - unfold cap. lia. - rewrite Ha. simpl. lia. - rewrite Ha, Hb. reflexivity. }
  destruct (sess_run Hs _ _ rs 0 st st' (proj1 Hc) H0 S0 E) as (m & [I1 I2 I3 I4 I5 I6] & Hm & Ht).
  repeat split; auto; try lia.
  - intros Hl. destruct (Z_lt_le_dec m (Z.of_nat (length rs))) as [h|h]; [apply Ht; lia|].
    assert (m = cap) by lia. subst m. unfold cap in I6. specialize (I6 ltac:(lia)).
    assert (g_saves st' = o_maxs o) by lia. unfold terminated. rewrite H, Z.mod_same by lia.
    destruct (o_maxs o =? 0) eqn:E0; [apply Z.eqb_eq in E0; lia|reflexivity].
  - intros Ht'. apply term_full; auto. lia.
Qed.

(** ** Snapshots taken during a run *)
Lemma run_snaps_run : forall start nsr rs st h st' h', run_snaps ptol_ok o start nsr rs st h = Ok (st', h') ->
  run ptol_ok o rs st = Ok st'.
Proof.
  induction rs as [|r rs IH]; intros st h st' h' H; simpl in *.
  - injection H as -> _. reflexivity.
  - destruct (terminated o st); [injection H as -> _; reflexivity|].
    apply bind_ok in H. destruct H as (st1 & E1 & H). unfold round. rewrite E1. cbn [bind].
    destruct (save_due _ _ _).
    + apply bind_ok in H. destruct H as (st2 & E2 & H). rewrite E2. cbn [bind]. eapply IH; eauto.
    + cbn [bind]. eapply IH; eauto.
Qed.

Lemma last_snoc : forall A (l : list A) x d, last (l ++ [x]) d = x.
Proof. intros. apply last_last. Qed.

Lemma run_snaps_last : forall start nsr rs st h st' h' d,
  run_snaps ptol_ok o start nsr rs st h = Ok (st', h') ->
  (terminated o st = true -> snap_due start nsr st = true -> last h d = st) ->
  terminated o st' = true -> snap_due start nsr st' = true -> last h' d = st'.
Proof.
  intros start nsr. induction rs as [|r rs IH]; intros st h st' h' d H H0 Ht Hd; simpl in H.
  - injection H as <- <-. auto.
  - destruct (terminated o st) eqn:Et; [injection H as <- <-; auto|].
    apply bind_ok in H. destruct H as (st1 & E1 & H). destruct (core_counts _ _ _ E1) as (A1 & A2 & A3 & A4).
    destruct (save_due _ _ _).
    + apply bind_ok in H. destruct H as (st2 & E2 & H). eapply (IH st2); eauto. intros _ Hd2. rewrite Hd2. apply last_snoc.
    + eapply (IH st1); eauto. intros Ht1. exfalso. unfold terminated in *. rewrite A2 in Ht1. congruence.
Qed.

Lemma final_snapshot : forall start nsr rs st st' h' d,
  run_snaps ptol_ok o start nsr rs st [] = Ok (st', h') -> terminated o st = false -> terminated o st' = true ->
  last (final_snaps start nsr st' h') d = st'.
Proof.
  intros start nsr rs st st' h' d H H0 Ht. unfold final_snaps. destruct (snap_due start nsr st') eqn:D.
  - eapply run_snaps_last; eauto. intros; congruence.
  - apply last_snoc.
Qed.
End Count.

(** ** The restarted tasks hold what they held before *)
Lemma scatter_flat_map : forall A n (ls : list (list A)), Forall (fun l => length l = n) ls ->
  scatter (length ls) n (concat ls) = ls.
Proof.
  intros A n ls H. induction H as [|l ls Hl H IH]; [reflexivity|]. simpl.
  rewrite firstn_app, skipn_app, <- Hl, Nat.sub_diag. simpl.
  rewrite firstn_all, skipn_all, app_nil_r. simpl. rewrite Hl, IH. reflexivity.
Qed.

Lemma reeval_same : forall ls p, (exists l, nth_error ls (plev p) = Some l /\ dlt (lv (plik p)) (lv (lk l)) = false) ->
  reeval ls p (lv (plik p)) = Ok p.
Proof.
  intros ls p (l & E & D). unfold reeval.
  assert (R : reassign ls (lv (plik p)) (plev p) = Ok (plev p)).
  { destruct (plev p); cbn [reassign]; unfold get; rewrite E; cbn [bind]; rewrite D; reflexivity. }
  rewrite R. cbn [bind]. destruct p as [x [v t] n]. reflexivity.
Qed.

Lemma zipM_map : forall A B C (f : A -> B -> outcome C) (g : A -> B) (h : A -> C) l,
  (forall a, In a l -> f a (g a) = Ok (h a)) -> zipM f l (map g l) = Ok (map h l).
Proof.
  induction l as [|a l IH]; intros H; simpl; [reflexivity|]. rewrite (H a (or_introl eq_refl)). cbn [bind].
  rewrite IH by (intros; apply H; right; auto). reflexivity.
Qed.

Lemma zipM_map_l : forall A A' B C (f : A' -> B -> outcome C) (k : A -> A') l m,
  zipM f (map k l) m = zipM (fun a b => f (k a) b) l m.
Proof. induction l as [|a l IH]; intros [|b m]; simpl; auto. destruct (f (k a) b); auto. simpl. rewrite IH. reflexivity. Qed.

Lemma same_values : forall ptol_ok o1 o2 st1 s, ginv ptol_ok o1 dle st1 -> same_shape o1 o2 ->
  snapshot_of o1 s st1 ->
  (if (o_maxl o2 =? 0)%nat then (length (g_comb st1) <= LEVEL_NUM_MAX)%nat else (length (g_comb st1) <= o_maxl o2)%nat) ->
  g_saves st1 <= o_maxs o2 ->
  (forall t p l, In t (g_tasks st1) -> In p (parts t) -> nth_error (g_comb st1) (plev p) = Some l ->
     dlt (lv (plik p)) (lv (lk l)) = false) ->
  exists st2, restart o2 (write_snap (o_lim o1) s) (map (fun t => map (fun p => lv (plik p)) (parts t)) (g_tasks st1)) = Ok st2 /\
    map parts (g_tasks st2) = map parts (g_tasks st1) /\ g_comb st2 = g_comb st1 /\
    Forall (fun t => levels t = g_comb st1) (g_tasks st2) /\
    (o_lim o2 = true -> Forall (fun t => firstn (length (g_comb st1)) (limits t) = map row_of (s_limits s)) (g_tasks st2)).
Proof.
  intros ptol_ok o1 o2 st1 s G (E1 & E2 & E3 & E4) [W S1 S2 S3 S4 S5] Hm Hs Hp.
  pose proof (f_equal (@length _) S3) as Ls. rewrite map_length in Ls.
  pose proof (gi_len _ _ _ _ G) as Hl.
  unfold restart. rewrite <- E1, <- E2, <- E3, <- E4.
  rewrite c17; auto; [|intros e; rewrite e in Ls; simpl in Ls; lia|rewrite Ls; exact Hm|lia].
  cbn [bind]. unfold restart_state.
  change (all_parts (mksnap (s_saves s) (s_steps s mod 2^32) (s_levels s) (s_assign s) (s_limits s) (s_parts s))) with (all_parts s).
  cbn [s_levels s_limits s_steps s_saves]. rewrite S3, S4.
  rewrite flat_map_concat_map.
  assert (Sc : scatter (o_tt o2) (o_np o2) (concat (map parts (g_tasks st1))) = map parts (g_tasks st1)).
  { rewrite <- E1, <- E2. replace (o_tt o1) with (length (map parts (g_tasks st1))).
    - apply scatter_flat_map. apply Forall_forall. intros l Hin. apply in_map_iff in Hin. destruct Hin as (t & <- & Ht).
      pose proof (gi_tasks _ _ _ _ G) as A. rewrite Forall_forall in A. apply (t0_np _ _ _ _ (A t Ht)).
    - rewrite map_length. apply (gi_tt _ _ _ _ G). }
  rewrite Sc. rewrite zipM_map_l.
  match goal with |- context [mktask _ _ [] ?x] => set (lims := x) end.
  erewrite (zipM_map _ _ _ _ _ (fun t => mktask (parts t) (g_comb st1) [] lims)).
  - cbn [bind]. eexists. split; [reflexivity|]. cbn [g_tasks g_comb]. rewrite map_map. cbn [parts].
    split; [reflexivity|]. split; [reflexivity|]. split.
    + apply Forall_forall. intros t Ht. apply in_map_iff in Ht. destruct Ht as (t0 & <- & _). reflexivity.
    + intros Hlim. apply Forall_forall. intros t Ht. apply in_map_iff in Ht. destruct Ht as (t0 & <- & _). cbn [limits].
      unfold lims. pose proof (wf_lims _ _ _ _ W) as Wl. rewrite Hlim in Wl.
      rewrite firstn_app, map_length, Wl, Ls, Nat.sub_diag. cbn [firstn].
      rewrite app_nil_r. apply firstn_all2. rewrite map_length. lia.
  - intros t Ht. cbn beta. erewrite (zipM_map _ _ _ _ _ (fun p => p)).
    + cbn [bind]. rewrite map_id. reflexivity.
    + intros p Hpp. apply reeval_same. pose proof (gi_tasks _ _ _ _ G) as A. rewrite Forall_forall in A.
      pose proof (t0_parts _ _ _ _ (A t Ht)) as B. rewrite Forall_forall in B. destruct (B p Hpp) as (v & E & _).
      destruct (vals_nth _ _ _ E) as (l & El & _). exists l. split; [exact El|]. apply (Hp t p l); auto.
Qed.
