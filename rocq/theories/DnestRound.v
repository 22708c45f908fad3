(** Invariant of a whole round of the sampler model and of runs. *)
From Coq Require Import ZArith List Bool Lia Arith Permutation Sorted.
From Verif Require Import CPrelude SortModel SortProofs ListLemmas DnestModel DnestProofs.
Import ListNotations.
Open Scope Z_scope.

Lemma dle_numeric : forall a b, dle a b = true -> numeric a /\ numeric b.
Proof. intros [|x] [|y] H; try discriminate. split; eexists; reflexivity. Qed.
Lemma dlt_dle : forall a b, dlt a b = true -> dle a b = true.
Proof. intros [|x] [|y] H; simpl in *; try discriminate. lia. Qed.
Lemma dle_trans : forall a b c, dle a b = true -> dle b c = true -> dle a c = true.
Proof. intros [|x] [|y] [|z] H1 H2; simpl in *; try discriminate. lia. Qed.
Lemma dle_refl : forall a, numeric a -> dle a a = true.
Proof. intros a [z ->]. simpl. lia. Qed.
Lemma lik_ge_dle : forall a b, lik_ge a b -> dle (lv b) (lv a) = true.
Proof. intros a b (x & y & -> & -> & H). simpl. lia. Qed.

Lemma StronglySorted_nth : forall A (R : A -> A -> Prop) l i j a b,
  StronglySorted R l -> (i < j)%nat -> nth_error l i = Some a -> nth_error l j = Some b -> R a b.
Proof.
  induction l as [|x l IH]; intros i j a b H Hij Ha Hb; [destruct i; discriminate|].
  inversion H; subst. destruct j; [lia|]. destruct i; simpl in *.
  - injection Ha as <-. eapply Forall_nth_error; eauto.
  - eapply (IH i j); eauto; lia.
Qed.

Lemma StronglySorted_snoc : forall A (R : A -> A -> Prop) l x,
  StronglySorted R l -> Forall (fun a => R a x) l -> StronglySorted R (l ++ [x]).
Proof.
  induction l as [|a l IH]; intros x H HF; simpl; [repeat constructor|].
  inversion H; subst. inversion HF; subst. constructor; [apply IH; auto|].
  apply Forall_app. split; auto.
Qed.

Lemma nth_error_firstn_in : forall A (l : list A) n a, In a (firstn n l) ->
  exists i, (i < n)%nat /\ nth_error l i = Some a.
Proof.
  induction l as [|x l IH]; intros n a H; destruct n; simpl in *; try contradiction.
  destruct H as [->|H].
  - exists O. split; [lia|reflexivity].
  - destruct (IH n a H) as (i & Hi & E). exists (S i). split; [lia|exact E].
Qed.

Section Round.
Variable ptol_ok : list dbl -> bool.
Variable o : opts.
Variable rel : dbl -> dbl -> bool.
Hypothesis rel_lt : forall a b, dlt a b = true -> rel a b = true.

(** Options the loader accepts: at least one task, particle and step, an
    interval for new levels of at least one round, compression above 1. *)
Record valid_opts : Prop := mkvo
  { vo_np : (0 < o_np o)%nat;
    vo_tt : (0 < o_tt o)%nat;
    vo_ts : (0 < o_ts o)%nat;
    vo_nli : (o_tt o * o_ts o <= o_nli o)%nat;
    vo_c : 0 < o_cq o < o_cp o;
    vo_reg : 0 <= o_reg o }.

Record valid_round (r : rdraw) : Prop := mkvr
  { vr_len : length (r_steps r) = o_tt o;
    vr_steps : Forall (fun ds => length ds = o_ts o /\ Forall (valid_draw o) ds) (r_steps r);
    vr_kill : valid_kill o (r_kill r);
    vr_task : (r_task r < o_tt o)%nat;
    vr_part : (r_part r < o_np o)%nat }.

Definition sk (l : level) : dbl * (Z * Z * Z * Z) :=
  (lv (lk l), (visits l, exceeds l, accepts l, tries l)).

Record t0inv (comb : list level) (t : task) : Prop := mkt0
  { t0_np : length (parts t) = o_np o;
    t0_lev : map sk (levels t) = map sk comb;
    t0_parts : Forall (pinv rel (vals comb)) (parts t);
    t0_above : above t = [];
    t0_lims : length (limits t) = alloc o }.

Definition row_ok (vs : list dbl) (i : info) : Prop :=
  exists v, nth_error vs (i_lev i) = Some v /\ (i_lev i = O \/ rel v (lv (i_lik i)) = true).

Record ginv (st : gstate) : Prop := mkgi
  { gi_tt : length (g_tasks st) = o_tt o;
    gi_len : (0 < length (g_comb st) <= alloc o)%nat;
    gi_max0 : o_maxl o = O -> (length (g_comb st) < LEVEL_NUM_MAX)%nat;
    gi_sorted : StronglySorted (fun a b => dle a b = true) (vals (g_comb st));
    gi_last : Forall (fun v => dle v (last (vals (g_comb st)) NaN) = true) (vals (g_comb st));
    gi_tasks : Forall (t0inv (g_comb st)) (g_tasks st);
    gi_pool : Forall (fun e => dle (last (vals (g_comb st)) NaN) (lv e) = true) (g_pool st);
    gi_cnt : Forall cnt_ok (g_comb st);
    gi_rmax : g_rmax st = o_maxl o \/
              (g_rmax st = length (g_comb st) /\ enough_levels ptol_ok (o_maxl o) (g_comb st) = Ok true);
    gi_rows : length (g_sample st) = length (g_info st);
    gi_info : Forall (row_ok (vals (g_comb st))) (g_info st) }.

Lemma vals_sk : forall a b, map sk a = map sk b -> vals a = vals b.
Proof.
  intros a b H. unfold vals.
  assert (G : forall l, map (fun l => lv (lk l)) l = map fst (map sk l)) by (intros; rewrite map_map; reflexivity).
  rewrite (G a), (G b), H. reflexivity.
Qed.

Lemma t0_tinv : forall en comb t, t0inv comb t -> tinv o rel en (vals comb) comb 0 0 t.
Proof.
  intros en comb t [Hnp Hl Hp Ha Hlim]. constructor; auto.
  - apply vals_sk. exact Hl.
  - assert (G : forall a b : list level, map sk a = map sk b -> Forall2 delta_ok a b).
    { induction a as [|x a IH]; intros [|y b] H; try discriminate; constructor.
      - simpl in H. injection H as _ H1 H2 H3 H4 _. unfold delta_ok. lia.
      - apply IH. simpl in H. congruence. }
    apply G. congruence.
  - assert (G : forall l, map tries l = map (fun x => snd (snd x)) (map sk l))
      by (intros; rewrite map_map; reflexivity).
    rewrite (G (levels t)), (G comb), Hl. lia.
  - rewrite Ha. simpl. lia.
  - rewrite Ha. constructor.
Qed.

(** [enough] evaluated with the worker's and with root's limit. *)
Lemma enough_agree : forall st, ginv st ->
  exists en, enough_levels ptol_ok (g_rmax st) (g_comb st) = Ok en /\
             enough_levels ptol_ok (o_maxl o) (g_comb st) = Ok en.
Proof.
  intros st H. destruct (enough_levels_noexit ptol_ok (o_maxl o) (g_comb st)) as [en E];
    [apply (gi_max0 _ H)|].
  destruct (gi_rmax _ H) as [->|[Hr Ht]]; [eauto|].
  exists true. split; [|exact Ht]. rewrite Hr. unfold enough_levels.
  pose proof (gi_len _ H) as [Hl _]. destruct (length (g_comb st)) eqn:EL; [lia|].
  f_equal. apply Nat.leb_le. lia.
Qed.

Lemma run_tasks_spec : forall en comb, (0 < length comb <= alloc o)%nat ->
  (o_ts o <= 2 * o_nli o)%nat ->
  forall ts mxs dss,
  Forall (t0inv comb) ts ->
  Forall (fun mx => enough_levels ptol_ok mx comb = Ok en) mxs ->
  Forall (fun ds => length ds = o_ts o /\ Forall (valid_draw o) ds) dss ->
  spec False (run_tasks ptol_ok o mxs ts dss)
    (fun ts' => length ts' = length ts /\
       Forall (tinv o rel en (vals comb) comb (o_ts o) (o_ts o)) ts').
Proof.
  intros en comb Hl Hts ts. induction ts as [|t ts IH]; intros mxs dss HT HM HD; simpl.
  - split; [reflexivity|constructor].
  - destruct mxs as [|mx mxs]; [exact I|]. destruct dss as [|ds dss]; [exact I|].
    inversion HT; subst. inversion HM as [|? ? Hmx HM']; subst. inversion HD as [|? ? [Hds Hv] HD']; subst.
    eapply spec_bind.
    { apply (mcmc_run_spec ptol_ok o rel rel_lt en (vals comb) comb).
      - apply t0_tinv. assumption.
      - exact Hv.
      - rewrite vals_length. exact Hl.
      - intros ls E. rewrite <- Hmx. apply enough_ext. exact E.
      - lia. }
    intros t' Ht'. eapply spec_bind; [apply IH; auto|].
    intros ts' [L F]. apply spec_ok. split; [simpl; lia|]. rewrite Hds in Ht'. constructor; auto.
Qed.

(** ** Bookkeeping *)

Definition bk_created (rmax : nat) (comb : list level) (pool : list lik) (rootlev : list level)
  (ps : list particle) (k : kdraw)
  (rmax' : nat) (comb' : list level) (pool' : list lik) (ps' : list particle) : Prop :=
  enough_levels ptol_ok rmax comb = Ok false /\ (o_nli o <= length pool)%nat /\
  (length comb < alloc o)%nat /\
  exists th, nth_error (msort dnest_cmp pool) (new_index o (length pool)) = Some th /\
    pool' = firstn (new_index o (length pool)) (msort dnest_cmp pool) /\
    let comb1 := comb ++ [mklevel th 0 0 0 0] in
    ((enough_levels ptol_ok rmax comb1 = Ok true /\ rmax' = length comb1 /\
       comb' = map (renorm_level (o_reg o)) comb1 /\ ps' = ps) \/
     (enough_levels ptol_ok rmax comb1 = Ok false /\ rmax' = rmax /\ comb' = comb1 /\
       kill_lagging o rootlev ps k = Ok ps')).

Definition bk_nothing (rmax : nat) (comb : list level) (pool : list lik) (ps : list particle)
  (rmax' : nat) (comb' : list level) (pool' : list lik) (ps' : list particle) : Prop :=
  (enough_levels ptol_ok rmax comb = Ok true \/ (length pool < o_nli o)%nat) /\
  rmax' = rmax /\ comb' = comb /\ pool' = pool /\ ps' = ps.

Lemma bk_cases : forall rmax comb pool rootlev ps k rmax' comb' pool' ps',
  do_bookkeeping ptol_ok o rmax comb pool rootlev ps k = Ok (rmax', comb', pool', ps') ->
  bk_nothing rmax comb pool ps rmax' comb' pool' ps' \/
  bk_created rmax comb pool rootlev ps k rmax' comb' pool' ps'.
Proof.
  intros rmax comb pool rootlev ps k rmax' comb' pool' ps' H. unfold do_bookkeeping in H.
  destruct (enough_levels ptol_ok rmax comb) as [en| | |] eqn:En; try discriminate. cbn [bind] in H.
  destruct (negb en && (o_nli o <=? length pool)%nat) eqn:Ec.
  - right. apply andb_true_iff in Ec. destruct Ec as [Ec1 Ec2]. destruct en; [discriminate|].
    apply Nat.leb_le in Ec2. unfold get in H.
    destruct (nth_error (msort dnest_cmp pool) (new_index o (length pool))) as [th|] eqn:Eth; [|discriminate].
    cbn [bind] in H. destruct (length comb <? alloc o)%nat eqn:Ea; [|discriminate].
    apply Nat.ltb_lt in Ea.
    destruct (enough_levels ptol_ok rmax (comb ++ [mklevel th 0 0 0 0])) as [en1| | |] eqn:En1; try discriminate.
    cbn [bind] in H. unfold bk_created. repeat split; auto. exists th. repeat split; auto.
    + destruct en1; [injection H as <- <- <- <-; reflexivity|].
      destruct (kill_lagging o rootlev ps k); try discriminate. injection H as <- <- <- <-. reflexivity.
    + destruct en1; [injection H as <- <- <- <-; left; auto|].
      destruct (kill_lagging o rootlev ps k) eqn:Ek; try discriminate. cbn [bind] in H.
      injection H as <- <- <- <-. right. auto.
  - left. injection H as <- <- <- <-. unfold bk_nothing. repeat split; auto.
    destruct en; [left; exact En|]. right. simpl in Ec. apply Nat.leb_gt in Ec. exact Ec.
Qed.

Lemma new_index_lt : forall n, valid_opts -> (0 < n)%nat -> (new_index o n < n)%nat.
Proof.
  intros n [_ _ _ _ Hc _] Hn. unfold new_index.
  assert (Z.of_nat n * o_cq o / o_cp o < Z.of_nat n) by (apply Z.div_lt_upper_bound; nia).
  assert (0 <= Z.of_nat n * o_cq o / o_cp o) by (apply Z.div_pos; nia). lia.
Qed.

Lemma bookkeeping_safe : forall rmax comb pool rootlev ps k,
  valid_opts -> valid_kill o k ->
  (0 < length comb)%nat ->
  (o_maxl o = O -> (length comb < LEVEL_NUM_MAX)%nat) ->
  (rmax = o_maxl o \/ enough_levels ptol_ok rmax comb = Ok true) ->
  length ps = o_np o -> Forall (fun p => (plev p < length rootlev)%nat) ps ->
  spec (o_maxl o = O /\ S (length comb) = LEVEL_NUM_MAX)
    (do_bookkeeping ptol_ok o rmax comb pool rootlev ps k) (fun _ => True).
Proof.
  intros rmax comb pool rootlev ps k Hvo Hk Hc0 Hm Hr Hps Hlev. unfold do_bookkeeping.
  assert (He : exists en, enough_levels ptol_ok rmax comb = Ok en /\ (en = false -> rmax = o_maxl o)).
  { destruct Hr as [->|He]; [|exists true; split; [exact He|discriminate]].
    destruct (enough_levels_noexit ptol_ok (o_maxl o) comb) as [en E]; eauto. }
  destruct He as (en & En & Hen). rewrite En. cbn [bind].
  destruct (negb en && (o_nli o <=? length pool)%nat) eqn:Ec; [|exact I].
  apply andb_true_iff in Ec. destruct Ec as [Ec1 Ec2]. destruct en; [discriminate|].
  specialize (Hen eq_refl). subst rmax. apply Nat.leb_le in Ec2.
  assert (Hp : (0 < length pool)%nat).
  { destruct Hvo. nia. }
  assert (Hidx : (new_index o (length pool) < length (msort dnest_cmp pool))%nat).
  { rewrite (Permutation_length (msort_perm dnest_cmp pool)). apply new_index_lt; auto. }
  eapply spec_bind; [apply get_spec; [exact Hidx|intros th Hth; exact Hth]|].
  intros th _.
  assert (Ha : (length comb < alloc o)%nat).
  { unfold alloc. unfold enough_levels in En. destruct (o_maxl o) eqn:Em; [apply Hm; reflexivity|].
    assert (En2 : (S n <=? length comb)%nat = false) by congruence. apply Nat.leb_gt in En2. exact En2. }
  destruct (length comb <? alloc o)%nat eqn:E; [|apply Nat.ltb_ge in E; lia].
  eapply spec_bind with (P := fun _ => True).
  { unfold enough_levels. destruct (o_maxl o) eqn:Em; [|exact I].
    rewrite app_length. simpl length.
    destruct (LEVEL_NUM_MAX <=? length comb + 1)%nat eqn:E1.
    - simpl. split; auto. apply Nat.leb_le in E1. specialize (Hm eq_refl). lia.
    - destruct (length comb + 1 <? 10)%nat; exact I. }
  intros en1 _. destruct en1; [exact I|].
  eapply spec_bind with (P := fun _ => True); [|intros; exact I].
  eapply spec_impl; [apply kill_lagging_spec; auto|intros []|auto].
Qed.

Lemma kill_Forall : forall (P : particle -> Prop) ls ps k ps',
  length ps = o_np o -> valid_kill o k ->
  Forall (fun p => (plev p < length ls)%nat) ps ->
  kill_lagging o ls ps k = Ok ps' -> Forall P ps -> length ps' = length ps /\ Forall P ps'.
Proof.
  intros P ls ps k ps' Hn Hk Hl E HP.
  pose proof (kill_lagging_spec o ls ps k Hn Hk Hl) as S. rewrite E in S. simpl in S.
  destruct S as (L & H1 & H2). split; [exact L|].
  destruct (in_dec bool_dec false (k_bad k)) as [Hf|Hf].
  - apply Forall_forall. intros p Hp. apply In_nth_error in Hp. destruct Hp as [j Hj].
    assert (C : survivor_copy (map negb (k_bad k)) ps j p) by (apply H1; [left; exists false; auto|exact Hj]).
    unfold survivor_copy in C.
    destruct (nth_error (map negb (k_bad k)) j) as [[]|].
    + eapply Forall_nth_error; eauto.
    + destruct C as (c & _ & Hc). eapply Forall_nth_error; eauto.
    + eapply Forall_nth_error; eauto.
  - assert (R : k_bad k = repeat true (o_np o)).
    { destruct Hk as [Hk _]. rewrite <- Hk. clear -Hf. induction (k_bad k) as [|b l IH]; simpl; [reflexivity|].
      simpl in Hf. destruct b; [|tauto]. f_equal. apply IH. tauto. }
    rewrite (H2 R). exact HP.
Qed.

(** ** The round without saving *)

(** Everything a round does, as seen from outside. *)
Record round_facts (st : gstate) (r : rdraw) (st' : gstate) : Prop := mkrf
  { rf_inv : ginv st';
    (* the tasks after their MCMC steps *)
    rf_mid : exists en ts comb rmax' pool' ps',
      enough_levels ptol_ok (g_rmax st) (g_comb st) = Ok en /\
      length ts = o_tt o /\
      Forall (tinv o rel en (vals (g_comb st)) (g_comb st) (o_ts o) (o_ts o)) ts /\
      run_tasks ptol_ok o (g_rmax st :: repeat (o_maxl o) (length (g_tasks st) - 1))
        (g_tasks st) (r_steps r) = Ok ts /\
      combine_levels (g_comb st) ts = Ok comb /\ vals comb = vals (g_comb st) /\
      map lk comb = map lk (g_comb st) /\
      (exists root workers, ts = root :: workers /\
         do_bookkeeping ptol_ok o (g_rmax st) comb (g_pool st ++ flat_map above ts)
           (levels root) (parts root) (r_kill r) = Ok (rmax', g_comb st', pool', ps')) /\
      (bk_nothing (g_rmax st) comb (g_pool st ++ flat_map above ts)
         (match ts with t :: _ => parts t | [] => [] end) rmax' (g_comb st') pool' ps' \/
       bk_created (g_rmax st) comb (g_pool st ++ flat_map above ts)
         (match ts with t :: _ => levels t | [] => [] end)
         (match ts with t :: _ => parts t | [] => [] end) (r_kill r) rmax' (g_comb st') pool' ps') /\
      g_pool st' = pool' /\ g_rmax st' = rmax';
    rf_steps : g_steps st' = u64 (g_steps st + round_steps o);
    rf_saves : g_saves st' = g_saves st;
    rf_sample : g_sample st' = g_sample st;
    rf_ginfo : g_info st' = g_info st }.

Lemma flat_map_above_Forall : forall (P : lik -> Prop) ts,
  Forall (fun t => Forall P (above t)) ts -> Forall P (flat_map above ts).
Proof. intros P ts H. induction H; simpl; [constructor|]. apply Forall_app. auto. Qed.

Lemma flat_map_above_len : forall k ts, Forall (fun t => (length (above t) <= k)%nat) ts ->
  (length (flat_map above ts) <= length ts * k)%nat.
Proof. intros k ts H. induction H; simpl; [lia|]. rewrite app_length. lia. Qed.

Lemma flat_map_above_nil : forall ts, Forall (fun t => above t = []) ts -> flat_map above ts = [].
Proof. intros ts H. induction H as [|t ts Ht _ IH]; simpl; [reflexivity|]. rewrite Ht. exact IH. Qed.

Lemma pinv_app : forall vs ws p, pinv rel vs p -> pinv rel (vs ++ ws) p.
Proof.
  intros vs ws p (v & Hv & H). exists v. split; [|exact H].
  rewrite nth_error_app1; [exact Hv|]. eapply nth_error_lt; eauto.
Qed.
Lemma row_ok_app : forall vs ws p, row_ok vs p -> row_ok (vs ++ ws) p.
Proof.
  intros vs ws p (v & Hv & H). exists v. split; [|exact H].
  rewrite nth_error_app1; [exact Hv|]. eapply nth_error_lt; eauto.
Qed.

Lemma vals_app : forall a b, vals (a ++ b) = vals a ++ vals b.
Proof. intros; apply map_app. Qed.
Lemma vals_lk : forall a b, map lk a = map lk b -> vals a = vals b.
Proof. intros a b H. unfold vals. rewrite <- !(map_map lk lv), H. reflexivity. Qed.
Lemma map_lk_renorm : forall reg l, map lk (map (renorm_level reg) l) = map lk l.
Proof. intros. rewrite map_map. apply map_ext. intros; apply renorm_lk. Qed.

Lemma bcast_t0 : forall comb' lims en vs comb t, length lims = alloc o ->
  (length comb' <= alloc o)%nat ->
  tinv o rel en vs comb (o_ts o) (o_ts o) t ->
  Forall (pinv rel (vals comb')) (parts t) ->
  t0inv comb' (bcast o comb' lims t).
Proof.
  intros comb' lims en vs comb t Hl Hc Ht Hp. constructor; simpl; auto.
  - apply (ti_np _ _ _ _ _ _ _ _ Ht).
  - destruct (o_lim o); [|apply (ti_lims _ _ _ _ _ _ _ _ Ht)].
    rewrite app_length, firstn_length, skipn_length, (ti_lims _ _ _ _ _ _ _ _ Ht). lia.
Qed.

Lemma hull_rows_length : forall n a b, length (hull_rows n a b) = length a.
Proof.
  induction n; intros [|r a] [|s b]; simpl; auto.
Qed.
Lemma nest_rows_length : forall n a, length (nest_rows n a) = length a.
Proof.
  induction n as [|n IH]; intros a; [reflexivity|].
  destruct n; [reflexivity|]. destruct a as [|r a]; [reflexivity|].
  change (length (match nest_rows (S n) a with (s :: _) as a'' => hull_row r s :: a'' | [] => [r] end) = S (length a)).
  specialize (IH a). revert IH. destruct (nest_rows (S n) a); simpl; intros; lia.
Qed.
Lemma merge_limits_length : forall n root ts, length (merge_limits n root ts) = length root.
Proof.
  intros n root ts. unfold merge_limits. rewrite nest_rows_length.
  revert root. induction ts as [|t ts IH]; intros root; simpl; [reflexivity|].
  rewrite IH. apply hull_rows_length.
Qed.

Lemma round_core_facts : forall (E : Prop) st r,
  valid_opts -> ginv st -> valid_round r ->
  (o_maxl o = O -> S (length (g_comb st)) = LEVEL_NUM_MAX -> E) ->
  (size_all_above_max o < Z.of_nat (length (g_pool st) + o_tt o * o_ts o) ->
     enough_levels ptol_ok (g_rmax st) (g_comb st) = Ok false -> E) ->
  (size_all_above_max o < Z.of_nat (length (g_pool st)) -> E) ->
  spec E (round_core ptol_ok o st r) (round_facts st r).
Proof.
  intros E st r Hvo Hg Hr HE1 HE2 HE3. pose proof Hvo as [Hnp Htt Hts Hnli Hc Hreg].
  pose proof Hg as [Gtt Glen Gmax Gsort Glast Gtasks Gpool Gcnt Grmax Grows Ginfo].
  pose proof Hr as [Rl Rs Rk Rt Rp].
  destruct (enough_agree st Hg) as (en & En1 & En2).
  unfold round_core.
  pose proof (run_tasks_spec en (g_comb st) Glen ltac:(nia) (g_tasks st)
    (g_rmax st :: repeat (o_maxl o) (length (g_tasks st) - 1)) (r_steps r) Gtasks) as RT.
  assert (HM : Forall (fun mx => enough_levels ptol_ok mx (g_comb st) = Ok en)
    (g_rmax st :: repeat (o_maxl o) (length (g_tasks st) - 1))).
  { constructor; [exact En1|]. apply Forall_forall. intros x Hx. apply repeat_spec in Hx. subst. exact En2. }
  specialize (RT HM Rs). destruct (run_tasks ptol_ok o _ (g_tasks st) (r_steps r)) as [ts| | |] eqn:ERT;
    simpl in RT; try contradiction; [|exact I].
  cbn [bind]. destruct RT as [Lts Fts].
  set (pool := g_pool st ++ flat_map above ts).
  assert (Hpl : (length pool <= length (g_pool st) + o_tt o * o_ts o)%nat).
  { unfold pool. rewrite app_length. apply Nat.add_le_mono_l. rewrite <- Gtt, <- Lts.
    apply flat_map_above_len. eapply Forall_impl; [|exact Fts]. intros t Ht. apply (ti_above_len _ _ _ _ _ _ _ _ Ht). }
  assert (Hpe : en = true -> pool = g_pool st).
  { intros ->. unfold pool. rewrite flat_map_above_nil; [apply app_nil_r|].
    eapply Forall_impl; [|exact Fts]. intros t Ht. apply (ti_above_en _ _ _ _ _ _ _ _ Ht). reflexivity. }
  destruct (size_all_above_max o <? Z.of_nat (length pool)) eqn:Eov.
  { simpl. apply Z.ltb_lt in Eov. destruct en.
    - apply HE3. rewrite (Hpe eq_refl) in Eov. exact Eov.
    - apply HE2; [lia|exact En1]. }
  destruct (combine_levels_spec (g_comb st) ts) as (comb & Ecomb & Lc & Hlk & _ & Hn).
  { eapply Forall_impl; [|exact Fts]. intros t Ht.
    rewrite <- (vals_length (levels t)), (ti_vals _ _ _ _ _ _ _ _ Ht). apply vals_length. }
  rewrite Ecomb. cbn [bind].
  assert (Hvc : vals comb = vals (g_comb st)) by (apply vals_lk; exact Hlk).
  destruct ts as [|root workers].
  { simpl in Lts. lia. }
  set (lims := if o_lim o then _ else _).
  inversion Fts as [|? ? Froot Fwork]; subst.
  pose proof Froot as [Rnp Rv Rparts Rdelta Rtries Ral Ra Rae Rlims].
  assert (Hlims : length lims = alloc o).
  { unfold lims. destruct (o_lim o); [rewrite merge_limits_length|]; exact Rlims. }
  assert (Hrl : length (levels root) = length (g_comb st)) by (rewrite <- !vals_length, Rv; reflexivity).
  assert (Hlev : Forall (fun p => (plev p < length (levels root))%nat) (parts root)).
  { eapply Forall_impl; [|exact Rparts]. intros p Hp. apply pinv_lt in Hp.
    rewrite vals_length in Hp. lia. }
  assert (Hcc : Forall cnt_ok comb).
  { apply (combine_cnt_ok (g_comb st) (root :: workers)); auto.
    eapply Forall_impl; [|exact Fts]. intros t Ht. apply (ti_delta _ _ _ _ _ _ _ _ Ht). }
  assert (Hpool : Forall (fun e => dle (last (vals (g_comb st)) NaN) (lv e) = true) pool).
  { unfold pool. apply Forall_app. split; [exact Gpool|]. apply flat_map_above_Forall.
    eapply Forall_impl; [|exact Fts]. intros t Ht. eapply Forall_impl; [|apply (ti_above _ _ _ _ _ _ _ _ Ht)].
    intros e He. apply dlt_dle. exact He. }
  pose proof (bookkeeping_safe (g_rmax st) comb pool (levels root) (parts root) (r_kill r) Hvo Rk) as BS.
  assert (BS' : spec (o_maxl o = O /\ S (length comb) = LEVEL_NUM_MAX)
    (do_bookkeeping ptol_ok o (g_rmax st) comb pool (levels root) (parts root) (r_kill r)) (fun _ => True)).
  { apply BS; auto; try lia.
    destruct Grmax as [->|[Hr1 Hr2]]; [left; reflexivity|]. right.
      rewrite (enough_ext ptol_ok _ comb (g_comb st) Hvc), En1. rewrite En2 in Hr2. exact Hr2. }
  destruct (do_bookkeeping ptol_ok o (g_rmax st) comb pool (levels root) (parts root) (r_kill r))
    as [[[[rmax' comb'] pool'] ps']| | |] eqn:EB; simpl in BS'; try contradiction.
  2: { destruct BS' as [B1 B2]. simpl. apply HE1; [exact B1|lia]. }
  2: { exact I. }
  cbn [bind]. apply spec_ok.
  pose proof (bk_cases _ _ _ _ _ _ _ _ _ _ EB) as Hbk.
  (* facts about the new table *)
  assert (F : exists newl, map lk comb' = map lk (g_comb st) ++ newl /\ (length newl <= 1)%nat /\
     (length comb' <= alloc o)%nat /\ (o_maxl o = O -> (length comb' < LEVEL_NUM_MAX)%nat) /\
     StronglySorted (fun a b => dle a b = true) (vals comb') /\
     Forall (fun v => dle v (last (vals comb') NaN) = true) (vals comb') /\
     Forall (fun e => dle (last (vals comb') NaN) (lv e) = true) pool' /\
     Forall cnt_ok comb' /\
     (rmax' = o_maxl o \/ (rmax' = length comb' /\ enough_levels ptol_ok (o_maxl o) comb' = Ok true)) /\
     length ps' = o_np o /\ Forall (pinv rel (vals comb')) ps').
  { destruct Hbk as [(Hn1 & -> & -> & -> & ->)|(He & Hpn & Hal & th & Hth & -> & Hcase)].
    - exists []. rewrite app_nil_r, Hvc. repeat split; auto; try (simpl; lia); try congruence.
      destruct Grmax as [->|[Hr1 Hr2]]; [left; reflexivity|]. right. split; [congruence|].
        rewrite <- Hr2. apply enough_ext. exact Hvc.
    - assert (Hrm : g_rmax st = o_maxl o).
      { destruct Grmax as [Hr1|[Hr1 Hr2]]; [exact Hr1|].
        rewrite (enough_ext ptol_ok _ comb (g_comb st) Hvc), En1 in He. rewrite En2 in Hr2. congruence. }
      pose proof (Permutation_in th (msort_perm dnest_cmp pool) (nth_error_In _ _ Hth)) as Hin.
      assert (Hnum : Forall (fun a => numeric (lv a)) pool).
      { eapply Forall_impl; [|exact Hpool]. intros e He'. apply dle_numeric in He'. tauto. }
      assert (Hsorted : StronglySorted lik_ge (msort dnest_cmp pool)) by (apply dnest_sort_sorted; exact Hnum).
      assert (Hthv : dle (last (vals (g_comb st)) NaN) (lv th) = true).
      { rewrite Forall_forall in Hpool. apply Hpool. exact Hin. }
      set (comb1 := comb ++ [mklevel th 0 0 0 0]) in *.
      assert (Hv1 : vals comb1 = vals (g_comb st) ++ [lv th]).
      { unfold comb1. rewrite vals_app, Hvc. reflexivity. }
      assert (Hlk1 : map lk comb1 = map lk (g_comb st) ++ [th]).
      { unfold comb1. rewrite map_app, Hlk. reflexivity. }
      assert (Hl1 : length comb1 = S (length comb)).
      { unfold comb1. rewrite app_length. simpl. lia. }
      assert (HS : StronglySorted (fun a b => dle a b = true) (vals comb1)).
      { rewrite Hv1. apply StronglySorted_snoc; [exact Gsort|].
        eapply Forall_impl; [|exact Glast]. intros v Hv. exact (dle_trans _ _ _ Hv Hthv). }
      assert (HL : Forall (fun v => dle v (last (vals comb1) NaN) = true) (vals comb1)).
      { rewrite Hv1, last_last. apply Forall_app. split.
        - eapply Forall_impl; [|exact Glast]. intros v Hv. exact (dle_trans _ _ _ Hv Hthv).
        - constructor; [|constructor]. apply dle_refl. apply dle_numeric in Hthv. tauto. }
      assert (HP : Forall (fun e => dle (last (vals comb1) NaN) (lv e) = true)
                 (firstn (new_index o (length pool)) (msort dnest_cmp pool))).
      { rewrite Hv1, last_last. apply Forall_forall. intros e He'.
        apply nth_error_firstn_in in He'. destruct He' as (i & Hi & Ei).
        apply lik_ge_dle. eapply StronglySorted_nth; eauto. }
      assert (HC : Forall cnt_ok comb1).
      { unfold comb1. apply Forall_app. split; [exact Hcc|]. constructor; [|constructor].
        unfold cnt_ok; simpl; lia. }
      assert (HPP : Forall (pinv rel (vals comb1)) (parts root)).
      { eapply Forall_impl; [|exact Rparts]. intros p Hp. rewrite Hv1. apply pinv_app. exact Hp. }
      exists [th]. rewrite Hrm in Hcase.
      assert (HM0 : forall b, enough_levels ptol_ok (o_maxl o) comb1 = Ok b -> o_maxl o = O ->
                (length comb1 < LEVEL_NUM_MAX)%nat).
      { intros b Hb Hm. unfold enough_levels in Hb. rewrite Hm in Hb.
        destruct (LEVEL_NUM_MAX <=? length comb1)%nat eqn:El; [discriminate|]. apply Nat.leb_gt in El. exact El. }
      destruct Hcase as [(Hen & -> & -> & ->)|(Hen & -> & -> & Hkill)].
      + assert (Hvr : vals (map (renorm_level (o_reg o)) comb1) = vals comb1)
          by (apply vals_lk, map_lk_renorm).
        rewrite map_lk_renorm, Hvr, map_length. repeat split; auto; try lia.
        * intros Hm. eapply HM0; eauto.
        * apply Forall_forall. intros l Hl. apply in_map_iff in Hl. destruct Hl as (l0 & <- & Hl0).
          apply renorm_cnt_ok; auto. rewrite Forall_forall in HC. auto.
        * right. split; [reflexivity|]. rewrite <- Hen. apply enough_ext. exact Hvr.
      + destruct (kill_Forall (pinv rel (vals comb1)) _ _ _ _ Rnp Rk Hlev Hkill HPP) as [K1 K2].
        repeat split; auto; try lia.
        intros Hm. eapply HM0; eauto. }
  destruct F as (newl & F1 & F2 & F3 & F4 & F5 & F6 & F7 & F8 & F9 & F10 & F11).
  assert (Fv : vals comb' = vals (g_comb st) ++ map lv newl).
  { unfold vals. rewrite <- !(map_map lk lv), F1, map_app. reflexivity. }
  assert (Fl : (0 < length comb')%nat).
  { rewrite <- (map_length lk), F1, app_length, map_length. lia. }
  constructor; simpl; auto.
  - constructor; simpl; auto.
    + rewrite map_length. simpl in Lts. lia.
    + constructor.
      * constructor; simpl; auto. destruct (o_lim o); [|exact Hlims].
        rewrite app_length, firstn_length, skipn_length. lia.
      * apply Forall_forall. intros t' Ht'. apply in_map_iff in Ht'. destruct Ht' as (t & <- & Ht).
        rewrite Forall_forall in Fwork. specialize (Fwork t Ht).
        eapply bcast_t0; eauto. rewrite Fv. eapply Forall_impl; [|apply (ti_parts _ _ _ _ _ _ _ _ Fwork)].
        intros p Hp. apply pinv_app. exact Hp.
    + eapply Forall_impl; [|exact Ginfo]. intros i Hi. rewrite Fv. apply row_ok_app. exact Hi.
  - exists en, (root :: workers), comb, rmax', pool', ps'.
    split; [exact En1|]. split; [simpl in *; lia|]. split; [exact Fts|]. split; [exact ERT|].
    split; [exact Ecomb|]. split; [exact Hvc|]. split; [exact Hlk|].
    split; [exists root, workers; split; [reflexivity|exact EB]|].
    split; [exact Hbk|]. auto.
Qed.

End Round.
