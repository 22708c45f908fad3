(** Proofs for RestartModel. *)
From Coq Require Import ZArith List Bool Lia Arith Sorted.
From Verif Require Import CPrelude SortModel SortProofs ListLemmas DnestModel DnestProofs DnestRound DnestRuns
  SamplerSpec SamplerFacts SamplerFacts2 RestartModel.
Import ListNotations.
Open Scope Z_scope.

(** ** Bytes *)
Lemma le_bytes_length : forall n x, length (le_bytes n x) = n.
Proof. induction n; intros; simpl; auto. Qed.

Lemma of_le_bytes : forall n x, of_le (le_bytes n x) = x mod 256 ^ Z.of_nat n.
Proof.
  induction n as [|n IH]; intros x.
  - simpl. rewrite Z.mod_1_r. reflexivity.
  - cbn [le_bytes of_le]. rewrite IH, Nat2Z.inj_succ, Z.pow_succ_r by lia.
    rewrite (Z.rem_mul_r x 256 (256 ^ Z.of_nat n)) by lia. reflexivity.
Qed.

(** [m] reads back [a] from the bytes [w]. *)
Definition reads {A} (m : rdr A) (w : list Z) (a : A) : Prop := forall rest, m (w ++ rest) = Ok (a, rest).

Lemma reads_rd : forall n x, reads (rd n) (le_bytes n x) (x mod 256 ^ Z.of_nat n).
Proof.
  intros n x rest. unfold rd. rewrite app_length, le_bytes_length.
  destruct (Nat.ltb_spec (n + length rest) n); [lia|].
  rewrite firstn_app, skipn_app, le_bytes_length, Nat.sub_diag. simpl.
  rewrite firstn_all2 by (rewrite le_bytes_length; lia). rewrite skipn_all2 by (rewrite le_bytes_length; lia).
  rewrite app_nil_r, of_le_bytes. reflexivity.
Qed.

Definition w64 (x : Z) : Prop := 0 <= x < 2^64.
Definition w32 (x : Z) : Prop := 0 <= x < 2^32.

Lemma reads_8 : forall x, w64 x -> reads (rd 8) (le_bytes 8 x) x.
Proof.
  intros x H. rewrite <- (Z.mod_small x (256 ^ Z.of_nat 8)) at 2; [apply reads_rd|].
  unfold w64 in H. change (256 ^ Z.of_nat 8) with (2^64). exact H.
Qed.
Lemma reads_4 : forall x, reads (rd 4) (le_bytes 4 x) (x mod 2^32).
Proof. intros x. apply (reads_rd 4 x). Qed.
Lemma reads_4' : forall x, w32 x -> reads (rd 4) (le_bytes 4 x) x.
Proof. intros x H. rewrite <- (Z.mod_small x (2^32)) at 2; [apply reads_4|exact H]. Qed.

Lemma reads_bind : forall A B (m : rdr A) (f : A -> rdr B) w1 w2 a b,
  reads m w1 a -> reads (f a) w2 b -> reads (rbind m f) (w1 ++ w2) b.
Proof.
  intros A B m f w1 w2 a b H1 H2 rest. unfold rbind. rewrite <- app_assoc, H1. simpl. apply H2.
Qed.
Lemma reads_ret : forall A (a : A), reads (rret a) [] a.
Proof. intros A a rest. reflexivity. Qed.
Lemma reads_bind' : forall A B (m : rdr A) (f : A -> rdr B) w1 a b,
  reads m w1 a -> reads (f a) [] b -> reads (rbind m f) w1 b.
Proof. intros. rewrite <- (app_nil_r w1). eapply reads_bind; eauto. Qed.

Lemma reads_times : forall A (m : rdr A) (w : A -> list Z) (P : A -> Prop),
  (forall a, P a -> reads m (w a) a) ->
  forall l, Forall P l -> reads (rtimes (length l) m) (flat_map w l) l.
Proof.
  intros A m w P Hm l H. induction H as [|a l Ha H IH]; simpl; [apply reads_ret|].
  eapply reads_bind; [apply Hm; exact Ha|]. eapply reads_bind'; [exact IH|]. apply reads_ret.
Qed.

Lemma reads_keep : forall A (m : rdr A) (w : A -> list Z) (P : A -> Prop) sz,
  (forall a, P a -> reads m (w a) a) -> (forall a, P a -> length (w a) = sz) ->
  forall l i keep, Forall P l ->
  reads (rkeep (length l) i keep m sz) (flat_map w l) (firstn (keep - i) l).
Proof.
  intros A m w P sz Hm Hsz l. induction l as [|a l IH]; intros i keep H; simpl.
  - rewrite firstn_nil. apply reads_ret.
  - inversion H; subst. destruct (Nat.ltb_spec i keep).
    + replace (keep - i)%nat with (S (keep - S i)) by lia. simpl.
      eapply reads_bind; [apply Hm; assumption|]. eapply reads_bind'; [apply IH; assumption|]. apply reads_ret.
    + replace (keep - i)%nat with O by lia. simpl. eapply reads_bind.
      * intros rest. unfold seek. rewrite <- (Hsz a) by assumption.
        rewrite skipn_app, skipn_all, Nat.sub_diag. reflexivity.
      * replace [] with (firstn (keep - S i) l); [apply IH; assumption|]. replace (keep - S i)%nat with O by lia. reflexivity.
Qed.

(** Well-formed raw data. *)
Definition raw_ok (l : rawlevel) : Prop :=
  w64 (w_val l) /\ w64 (w_tb l) /\ w64 (w_logX l) /\ w64 (w_visits l) /\ w64 (w_exceeds l) /\
  w64 (w_accepts l) /\ w64 (w_tries l).
Definition asg_ok (a : Z * (Z * Z)) : Prop := w32 (fst a) /\ w64 (fst (snd a)) /\ w64 (snd (snd a)).
Definition pair_ok (p : Z * Z) : Prop := w64 (fst p) /\ w64 (snd p).

Lemma reads_level : forall l, raw_ok l -> reads rlevel (wlevel l) l.
Proof.
  intros [a b c d e f g] (H1 & H2 & H3 & H4 & H5 & H6 & H7). simpl in *.
  unfold rlevel, wlevel. simpl w_val; simpl w_tb; simpl w_logX; simpl w_visits; simpl w_exceeds; simpl w_accepts; simpl w_tries.
  do 6 (eapply reads_bind; [apply reads_8; assumption|]).
  eapply reads_bind'; [apply reads_8; assumption|]. apply reads_ret.
Qed.
Lemma reads_assign : forall a, asg_ok a -> reads rassign (wassign a) a.
Proof.
  intros [a [b c]] (H1 & H2 & H3). simpl in *. unfold rassign, wassign. simpl fst; simpl snd.
  eapply reads_bind; [apply reads_4'; assumption|]. eapply reads_bind; [apply reads_8; assumption|].
  eapply reads_bind'; [apply reads_8; assumption|]. apply reads_ret.
Qed.
Lemma reads_pair : forall p, pair_ok p -> reads rpair (wpair p) p.
Proof.
  intros [a b] (H1 & H2). simpl in *. unfold rpair, wpair. simpl fst; simpl snd.
  eapply reads_bind; [apply reads_8; assumption|]. eapply reads_bind'; [apply reads_8; assumption|]. apply reads_ret.
Qed.

Lemma wlevel_length : forall l, length (wlevel l) = 56%nat.
Proof. reflexivity. Qed.
Lemma wrow_length : forall r, length (flat_map wpair r) = (8 * 2 * length r)%nat.
Proof.
  induction r as [|p r IH]; [reflexivity|]. cbn [flat_map length]. rewrite app_length, IH.
  unfold wpair. rewrite app_length, !le_bytes_length. lia.
Qed.

(** A snapshot as the sampler holds it in memory: [n] particles over all tasks,
    [dim] parameters, words in range. *)
Record snap_wf (lim : bool) (dim n : nat) (s : snap) : Prop := mkwf
  { wf_saves : w32 (s_saves s);
    wf_nlev : Z.of_nat (length (s_levels s)) < 2^31;
    wf_levels : Forall raw_ok (s_levels s);
    wf_n : length (s_assign s) = n;
    wf_assign : Forall asg_ok (s_assign s);
    wf_lims : length (s_limits s) = (if lim then length (s_levels s) else 0%nat);
    wf_rows : Forall (fun r => length r = dim /\ Forall pair_ok r) (s_limits s);
    wf_np : length (s_parts s) = n;
    wf_parts : Forall (fun p => length p = dim /\ Forall w64 p) (s_parts s) }.

Lemma read_write : forall lim dim n maxl maxs s k,
  snap_wf lim dim n s -> kept maxl (Z.of_nat (length (s_levels s))) = Ok k ->
  read_snap lim dim n maxl maxs (write_snap lim s) =
    if maxs <? s_saves s then Exit else
    Ok (mksnap (s_saves s) (s_steps s mod 2^32) (firstn k (s_levels s)) (map (clamp k) (s_assign s))
          (firstn k (s_limits s)) (s_parts s)).
Proof.
  intros lim dim n maxl maxs s k [W1 W2 W3 W4 W5 W6 W7 W8 W9] Hk. unfold read_snap.
  set (m := rbind (rd 4) _).
  assert (R : reads m (write_snap lim s) (mksnap (s_saves s) (s_steps s mod 2^32) (firstn k (s_levels s))
     (map (clamp k) (s_assign s)) (firstn k (s_limits s)) (s_parts s))).
  { unfold m, write_snap. eapply reads_bind; [apply reads_4'; assumption|].
    eapply reads_bind; [apply reads_4|]. eapply reads_bind; [apply reads_4'; unfold w32; lia|].
    intros rest. rewrite Hk. cbn [bind]. rewrite Nat2Z.id. revert rest.
    match goal with |- forall rest, rbind ?m ?f _ = _ => change (reads (rbind m f)
      (flat_map wlevel (s_levels s) ++ flat_map wassign (s_assign s) ++
        (if lim then flat_map (flat_map wpair) (s_limits s) else []) ++ flat_map (flat_map (le_bytes 8)) (s_parts s))
      (mksnap (s_saves s) (s_steps s mod 2^32) (firstn k (s_levels s))
     (map (clamp k) (s_assign s)) (firstn k (s_limits s)) (s_parts s))) end.
    eapply reads_bind.
    { pose proof (reads_keep _ rlevel wlevel raw_ok 56 reads_level (fun l _ => wlevel_length l) (s_levels s) 0 k W3) as R.
      rewrite Nat.sub_0_r in R. exact R. }
    eapply reads_bind.
    { rewrite <- W4. apply (reads_times _ rassign wassign asg_ok reads_assign _ W5). }
    eapply reads_bind.
    { instantiate (1 := firstn k (s_limits s)). destruct lim.
      - rewrite <- W6.
        assert (Hr : forall r, length r = dim /\ Forall pair_ok r -> reads (rtimes dim rpair) (flat_map wpair r) r).
        { intros r [E HF]. rewrite <- E. apply (reads_times _ rpair wpair pair_ok reads_pair _ HF). }
        assert (Hl : forall r, length r = dim /\ Forall pair_ok r -> length (flat_map wpair r) = (8 * 2 * dim)%nat).
        { intros r [E HF]. rewrite wrow_length, E. reflexivity. }
        pose proof (reads_keep _ (rtimes dim rpair) (flat_map wpair) _ _ Hr Hl (s_limits s) 0 k W7) as R.
        rewrite Nat.sub_0_r in R. exact R.
      - destruct (s_limits s); [|discriminate]. rewrite firstn_nil. apply reads_ret. }
    eapply reads_bind'.
    { rewrite <- W8. apply (reads_times _ (rtimes dim (rd 8)) (flat_map (le_bytes 8)) (fun p => length p = dim /\ Forall w64 p)); [|exact W9].
      intros p [E HF]. rewrite <- E. apply (reads_times _ (rd 8) (le_bytes 8) w64 reads_8 _ HF). }
    apply reads_ret. }
  specialize (R []). rewrite app_nil_r in R. rewrite R. reflexivity.
Qed.

(** A truncated file is undefined behaviour or stops, never a silent success. *)

(** ** Reassignment *)
Lemma reassign_spec : forall ls v a, (a < length ls)%nat ->
  (forall l, nth_error ls 0 = Some l -> dlt v (lv (lk l)) = false) ->
  exists b l, reassign ls v a = Ok b /\ (b <= a)%nat /\ nth_error ls b = Some l /\
    dlt v (lv (lk l)) = false /\
    forall i m, (b < i <= a)%nat -> nth_error ls i = Some m -> dlt v (lv (lk m)) = true.
Proof.
  intros ls v a. induction a as [|a IH]; intros Ha H0.
  - destruct (nth_error ls 0) as [l|] eqn:E; [|apply nth_error_None in E; lia].
    exists O, l. cbn [reassign]. unfold get. rewrite E. cbn [bind]. rewrite (H0 l eq_refl).
    repeat split; auto; try lia; intros i m Hi; lia.
  - destruct (nth_error ls (S a)) as [l|] eqn:E; [|apply nth_error_None in E; lia].
    cbn [reassign]. unfold get. rewrite E. cbn [bind]. destruct (dlt v (lv (lk l))) eqn:D.
    + destruct (IH ltac:(lia) H0) as (b & l' & E1 & Hb & E2 & D2 & Hi).
      exists b, l'. repeat split; auto; try lia. intros i m [Hi1 Hi2] Em.
      destruct (Nat.eq_dec i (S a)) as [->|]; [congruence|]. apply (Hi i m); auto. lia.
    + exists (S a), l. repeat split; auto. intros i m Hi. lia.
Qed.

Lemma zipM_spec : forall A B C (f : A -> B -> outcome C) (Q : C -> Prop) l m,
  length l = length m -> (forall a b, In a l -> In b m -> exists c, f a b = Ok c /\ Q c) ->
  exists r, zipM f l m = Ok r /\ length r = length l /\ Forall Q r.
Proof.
  intros A B C f Q l. induction l as [|a l IH]; intros [|b m] Hl H; try discriminate.
  - exists []. repeat split. constructor.
  - destruct (H a b) as (c & E & Hc); [left; reflexivity|left; reflexivity|].
    destruct (IH m) as (r & Er & Lr & Fr); [simpl in Hl; lia|intros; apply H; right; auto|].
    exists (c :: r). simpl. rewrite E. cbn [bind]. rewrite Er. cbn [bind]. split; [reflexivity|]. split; [simpl; lia|auto].
Qed.

Lemma zipw_length : forall A B C (f : A -> B -> C) l m, length l = length m -> length (zipw f l m) = length l.
Proof. induction l; intros [|b m] H; simpl in *; try discriminate; auto. Qed.

Lemma scatter_spec : forall A tt n (l : list A), length l = (tt * n)%nat ->
  length (scatter tt n l) = tt /\ Forall (fun c => length c = n /\ (forall x, In x c -> In x l)) (scatter tt n l) /\
  concat (scatter tt n l) = l.
Proof.
  induction tt as [|t IH]; intros n l H.
  - simpl in *. destruct l; [|discriminate]. repeat split; constructor.
  - simpl in H. simpl. destruct (IH n (skipn n l)) as (A1 & A2 & A3); [rewrite skipn_length; lia|].
    split; [simpl; lia|]. split; [|simpl; rewrite A3; apply firstn_skipn]. constructor.
    + split; [rewrite firstn_length; lia|]. intros x Hx. rewrite <- (firstn_skipn n l). apply in_or_app. auto.
    + eapply Forall_impl; [|exact A2]. intros c [C1 C2]. split; [exact C1|]. intros x Hx.
      rewrite <- (firstn_skipn n l). apply in_or_app. auto.
Qed.

(** ** The restarted state *)
Lemma dlt_false_dle : forall a b, numeric a -> numeric b -> dlt a b = false -> dle b a = true.
Proof. intros a b [x ->] [y ->] H. simpl in *. lia. Qed.

Section Restarted.
Variable ptol_ok : list dbl -> bool.
Variable o : opts.
Notation ginv := (ginv ptol_ok o dle).

(** Level tables as they leave the reader. *)
Record table_ok (ls : list level) : Prop := mkto
  { to_len : (0 < length ls <= alloc o)%nat;
    to_max0 : o_maxl o = O -> (length ls < LEVEL_NUM_MAX)%nat;
    to_num : Forall (fun l => numeric (lv (lk l))) ls;
    to_sorted : nondecreasing ls;
    to_cnt : Forall counters_ok ls }.

Lemma nondecreasing_sorted : forall ls, Forall (fun l => numeric (lv (lk l))) ls -> nondecreasing ls ->
  StronglySorted (fun a b => dle a b = true) (vals ls).
Proof.
  induction ls as [|l ls IH]; intros HF H; simpl; constructor.
  - apply IH; [inversion HF; auto|]. intros i j a b Hij Ha Hb. apply (H (S i) (S j) a b); auto. lia.
  - apply Forall_forall. intros v Hv. apply in_map_iff in Hv. destruct Hv as (m & <- & Hm).
    apply In_nth_error in Hm. destruct Hm as [n Hn]. apply (H 0%nat (S n) l m); auto. lia.
Qed.

Lemma sorted_last : forall vs, Forall numeric vs -> StronglySorted (fun a b => dle a b = true) vs ->
  Forall (fun v => dle v (last vs NaN) = true) vs.
Proof.
  induction vs as [|v vs IH]; intros HF H; [constructor|]. inversion HF; subst. inversion H; subst.
  destruct vs as [|w vs]; [constructor; [apply dle_refl; auto|constructor]|].
  constructor; [|apply IH; auto]. change (last (v :: w :: vs) NaN) with (last (w :: vs) NaN).
  rewrite Forall_forall in H5. apply H5. apply (@List.In_nth_error _ _ _) || idtac.
  clear. revert w. induction vs as [|x vs IH]; intros w; [left; reflexivity|]. right. apply IH.
Qed.

Lemma restart_state_ok : forall s vs,
  table_ok (map level_of (s_levels s)) ->
  length (s_assign s) = (o_tt o * o_np o)%nat -> length (s_parts s) = (o_tt o * o_np o)%nat ->
  Forall (fun a => 0 <= fst a < Z.of_nat (length (s_levels s))) (s_assign s) ->
  length (s_limits s) = (if o_lim o then length (s_levels s) else 0%nat) ->
  length vs = o_tt o ->
  Forall (fun v => length v = o_np o /\
     Forall (fun x => numeric x /\ forall l, nth_error (s_levels s) 0 = Some l -> dlt x (dbl_of (w_val l)) = false) v) vs ->
  exists st, restart_state o s vs = Ok st /\ ginv st /\ g_comb st = map level_of (s_levels s) /\
    g_steps st = s_steps s /\ g_saves st = s_saves s /\ g_pool st = [] /\ g_sample st = [] /\ g_info st = [].
Proof.
  intros s vs [T1 T2 T3 T4 T5] La Lp Ha Ll Lv Hv. unfold restart_state.
  set (ls := map level_of (s_levels s)) in *. set (lims := _ ++ _).
  assert (Lall : length (all_parts s) = (o_tt o * o_np o)%nat).
  { unfold all_parts. rewrite zipw_length; lia. }
  destruct (scatter_spec _ (o_tt o) (o_np o) (all_parts s) Lall) as (S1 & S2 & _).
  assert (Hin : forall p, In p (all_parts s) -> (plev p < length ls)%nat).
  { intros p Hp. unfold all_parts in Hp. unfold ls. rewrite map_length. clear - Hp Ha.
    revert Hp. generalize (s_parts s). induction Ha as [|a l Hal Ha IH]; intros m Hp; [destruct m; contradiction|].
    destruct m as [|b m]; [contradiction|]. destruct Hp as [<-|Hp]; [|apply (IH m); auto].
    simpl. lia. }
  assert (Llims : length lims = alloc o).
  { unfold lims. rewrite app_length, map_length, skipn_length, repeat_length.
    assert (length (s_limits s) <= alloc o)%nat; [|lia]. rewrite Ll. unfold ls in T1. rewrite map_length in T1.
    destruct (o_lim o); lia. }
  set (f := fun ps v => ps' <- zipM (reeval ls) ps v;; Ok (mktask ps' ls [] lims)).
  destruct (zipM_spec _ _ _ f (t0inv o dle ls) (scatter (o_tt o) (o_np o) (all_parts s)) vs) as (ts & Ets & Lts & Fts).
  { lia. }
  { intros ps v Hps Hvs. rewrite Forall_forall in S2, Hv. destruct (S2 ps Hps) as [P1 P2]. destruct (Hv v Hvs) as [V1 V2].
    rewrite Forall_forall in V2.
    destruct (zipM_spec _ _ _ (reeval ls) (pinv dle (vals ls)) ps v) as (ps' & E & Lps & Fps).
    { lia. }
    { intros p x Hp Hx. destruct (V2 x Hx) as [Nx Bx]. unfold reeval.
      destruct (reassign_spec ls x (plev p)) as (b & l & Er & Hb & En & D & _).
      - apply Hin. auto.
      - intros l Hl. unfold ls in Hl. destruct (nth_error (s_levels s) 0) as [w|] eqn:Ew.
        + rewrite nth_error_map, Ew in Hl. injection Hl as <-. simpl. apply Bx; auto.
        + rewrite nth_error_map, Ew in Hl. discriminate.
      - rewrite Er. cbn [bind]. eexists. split; [reflexivity|]. simpl.
        exists (lv (lk l)). simpl. split; [unfold vals; rewrite nth_error_map, En; reflexivity|]. right.
        apply dlt_false_dle; auto. apply (Forall_nth_error _ _ _ _ _ T3 En). }
    unfold f. rewrite E. cbn [bind]. eexists. split; [reflexivity|]. constructor; simpl; auto. lia. }
  fold f. rewrite Ets. cbn [bind]. eexists. split; [reflexivity|].
  split; [|repeat split; reflexivity]. constructor; simpl.
  - lia.
  - exact T1.
  - exact T2.
  - apply nondecreasing_sorted; auto.
  - apply sorted_last; [|apply nondecreasing_sorted; auto].
    apply Forall_forall. intros v Hvv. apply in_map_iff in Hvv. destruct Hvv as (m & <- & Hm).
    rewrite Forall_forall in T3. apply T3. exact Hm.
  - exact Fts.
  - constructor.
  - eapply Forall_impl; [|exact T5]. intros l Hl. unfold counters_ok in Hl. unfold cnt_ok. lia.
  - left. reflexivity.
  - reflexivity.
  - constructor.
Qed.

(** The strict invariant implies the non-strict one. *)
Lemma ginv_weaken : forall st, DnestRound.ginv ptol_ok o dlt st -> ginv st.
Proof.
  intros st [H1 H2 H3 H4 H5 H6 H7 H8 H9 H10 H11]. constructor; auto.
  - eapply Forall_impl; [|exact H6]. intros t [A1 A2 A3 A4 A5]. constructor; auto.
    eapply Forall_impl; [|exact A3]. intros p (v & E & D). exists v. split; [exact E|].
    destruct D as [D|D]; [left; auto|right; apply dlt_dle; auto].
  - eapply Forall_impl; [|exact H11]. intros p (v & E & D). exists v. split; [exact E|].
    destruct D as [D|D]; [left; auto|right; apply dlt_dle; auto].
Qed.

Lemma ginv_table : forall st, ginv st -> table_ok (g_comb st).
Proof.
  intros st G. pose proof (gi_len _ _ _ _ G). constructor; auto.
  - apply (gi_max0 _ _ _ _ G).
  - pose proof (gi_last _ _ _ _ G) as L. apply Forall_forall. intros l Hl. rewrite Forall_forall in L.
    specialize (L (lv (lk l)) ltac:(apply in_map_iff; exists l; auto)). apply (dle_numeric _ _ L).
  - intros i j a b Hij Hi Hj. apply (StronglySorted_nth _ _ _ i j _ _ (gi_sorted _ _ _ _ G) Hij);
    unfold vals; rewrite nth_error_map; [rewrite Hi|rewrite Hj]; reflexivity.
  - eapply Forall_impl; [|exact (gi_cnt _ _ _ _ G)]. intros l Hl. unfold cnt_ok in Hl. unfold counters_ok. lia.
Qed.

End Restarted.
