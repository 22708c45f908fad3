(** C99: limits of levels and the ranges of the parameters. *)
From Coq Require Import ZArith List Bool Lia Arith Sorted.
From Verif Require Import CPrelude SortModel SortProofs ListLemmas DnestModel DnestProofs DnestRound DnestRuns SamplerSpec SamplerFacts SamplerFacts2 LimitsFacts.
Import ListNotations.
Open Scope Z_scope.

(** Ranges of the parameters, one per parameter, numbers in ascending order. *)
Definition ranges (o : opts) (box : list (dbl * dbl)) : Prop :=
  length box = o_dim o /\
  Forall (fun b => exists x y, b = (Val x, Val y) /\ - DBL_MAX <= x /\ x <= y /\ y <= DBL_MAX) box.
(** Every parameter lies in its range (in particular none is NaN). *)
Definition in_ranges (box : list (dbl * dbl)) (xs : list dbl) : Prop :=
  Forall2 (fun x b => dle (fst b) x = true /\ dle x (snd b) = true) xs box.
(** A proposal: in the ranges, or with NaN or -DBL_MAX as log-likelihood. *)
Definition hopeless (x : lik) : Prop := lv x = NaN \/ lv x = Val (- DBL_MAX).
Definition proposal_ok (box : list (dbl * dbl)) (d : sdraw) : Prop :=
  in_ranges box (d_pm d) \/ hopeless (d_lik d).
Definition round_ok (box : list (dbl * dbl)) (r : rdraw) : Prop := Forall (Forall (proposal_ok box)) (r_steps r).
Definition init_ok (box : list (dbl * dbl)) (init : list (Z * list (list dbl * lik))) : Prop :=
  Forall (fun x => Forall (fun p => in_ranges box (fst p)) (snd x)) init.
(** States at the top of the main loop of a fresh run whose particles start in the
    ranges and whose proposals stay in them. *)
Definition reachable_in (ptol_ok : list dbl -> bool) (o : opts) (box : list (dbl * dbl)) (st : gstate) : Prop :=
  exists init rs, valid_init o init /\ init_ok box init /\ Forall (valid_round o) rs /\ Forall (round_ok box) rs /\
    run ptol_ok o rs (init_state o init) = Ok st.

(** A row of limits in use: for every parameter an interval, lower end first, inside
    the range. *)
Definition proper (box : list (dbl * dbl)) (row : list (dbl * dbl)) : Prop :=
  Forall2 (fun iv b => dle (fst b) (fst iv) = true /\ dle (fst iv) (snd iv) = true /\ dle (snd iv) (snd b) = true) row box.
(** A row of limits as setup leaves it. *)
Definition untouched (row : list (dbl * dbl)) : Prop := Forall (fun iv => iv = (Val DBL_MAX, Val (- DBL_MAX))) row.

(** In state [t1], step [d] makes the proposal for particle [p] in state [t0] (after
    the move between levels if that comes first). *)
Definition proposing (ptol_ok : list dbl -> bool) (o : opts) (mx : nat) (t1 : task) (d : sdraw) (t0 : task) (p : particle) : Prop :=
  (if d_order d then t0 = t1 else update_level_assignment ptol_ok o mx t1 d = Ok t0) /\
  nth_error (parts t0) (d_which d) = Some p.

Section Boxes.
Variable ptol_ok : list dbl -> bool.
Variable o : opts.
Variable box : list (dbl * dbl).
Hypothesis Hlim : o_lim o = true.
Hypothesis Hv : valid_opts o.
Hypothesis Hbox : ranges o box.

Definition good (row : list (dbl * dbl)) : Prop := row = initrow (o_dim o) \/ proper box row.

Lemma proper_length : forall row, proper box row -> length row = o_dim o.
Proof. intros row H. destruct Hbox as [L _]. rewrite <- L. clear -H; unfold proper in H; induction H; simpl; congruence. Qed.

Lemma widen_proper : forall row xs, good row -> in_ranges box xs -> proper box (widen row xs).
Proof.
  intros row xs [->|H] Hx; unfold initrow.
  - destruct Hbox as [L B]. rewrite <- L. clear L.
    assert (G : Forall (fun b => exists x y, b = (Val x, Val y) /\ - DBL_MAX <= x /\ x <= y /\ y <= DBL_MAX) box) by exact B.
    unfold proper, in_ranges in *. clear -Hx G. revert G. induction Hx as [|x b xs bs [H1 H2] Hx IH]; intros G; simpl; [constructor|].
    inversion G as [|? ? (u & w & -> & Hu & Huw & Hw) G']; subst. constructor; [|auto].
    destruct x as [|x]; [discriminate|]. simpl in *. rewrite Z.leb_le in *. repeat split; rewrite ?Z.leb_le; lia.
  - unfold proper, in_ranges in *. clear -Hx H. revert xs Hx. induction H as [|[u w] b r bs (H1 & H2 & H3) H IH]; intros xs Hx; simpl; [inversion Hx; constructor|].
    inversion Hx as [|x ? xs' ? [X1 X2] Hx']; subst. constructor; [|auto].
    destruct b as [[|b1] [|b2]]; destruct u as [|u]; destruct w as [|w]; destruct x as [|x]; simpl in *; try discriminate.
    rewrite Z.leb_le in *. repeat split; rewrite ?Z.leb_le; lia.
Qed.

Lemma hull_proper_r : forall r s, good r -> proper box s -> proper box (hull_row r s).
Proof.
  intros r s [->|H] Hs; unfold initrow.
  - destruct Hbox as [L B]. rewrite <- L. unfold proper in *. clear -Hs B.
    revert B. induction Hs as [|[u w] b s bs (H1 & H2 & H3) Hs IH]; intros B; simpl; [constructor|].
    inversion B as [|? ? (x & y & -> & Hx & Hxy & Hy) B']; subst. constructor; [|auto].
    destruct u as [|u]; destruct w as [|w]; simpl in *; try discriminate. rewrite Z.leb_le in *. repeat split; rewrite ?Z.leb_le; lia.
  - unfold proper in *. clear -Hs H. revert r H. induction Hs as [|[u w] b s bs (H1 & H2 & H3) Hs IH]; intros r H; [inversion H; constructor|].
    inversion H as [|[u' w'] ? r' ? (G1 & G2 & G3) H']; subst. simpl. constructor; [|auto].
    destruct b as [[|b1] [|b2]]; destruct u as [|u]; destruct w as [|w]; destruct u' as [|u']; destruct w' as [|w']; simpl in *; try discriminate.
    rewrite Z.leb_le in *. repeat split; rewrite ?Z.leb_le; lia.
Qed.
Lemma hull_good : forall r s, good r -> good s -> good (hull_row r s).
Proof.
  intros r s Hr [->|Hs]; [|right; apply hull_proper_r; auto].
  destruct Hr as [->|Hr].
  - left. unfold initrow. induction (o_dim o) as [|n IH]; simpl; [reflexivity|]. f_equal. exact IH.
  - right. unfold initrow. destruct Hbox as [L B]. rewrite <- L. unfold proper in *. clear -Hr B.
    revert B. induction Hr as [|[u w] b s bs (H1 & H2 & H3) Hr IH]; intros B; simpl; [constructor|].
    inversion B as [|? ? (x & y & -> & Hx & Hxy & Hy) B']; subst. constructor; [|auto].
    destruct u as [|u]; destruct w as [|w]; simpl in *; try discriminate. rewrite Z.leb_le in *. repeat split; rewrite ?Z.leb_le; lia.
Qed.
Lemma hull_rows_good : forall n a b, Forall good a -> Forall good b -> Forall good (hull_rows n a b).
Proof.
  induction n as [|n IH]; intros a b Ha Hb; simpl; [exact Ha|]. destruct a as [|r a]; [exact Ha|]. destruct b as [|s b]; [exact Ha|].
  inversion Ha; subst. inversion Hb; subst. constructor; [apply hull_good; auto|auto].
Qed.
Lemma nest_rows_good : forall n a, Forall good a -> Forall good (nest_rows n a).
Proof.
  induction n as [|n IH]; intros a Ha; [exact Ha|]. destruct n as [|n]; [exact Ha|]. destruct a as [|r a]; [exact Ha|].
  rewrite nest_rows_SS. inversion Ha as [|? ? Hr Ha']; subst. specialize (IH a Ha').
  destruct (nest_rows (S n) a) as [|s a'']; [constructor; auto|]. inversion IH; subst. constructor; [apply hull_good; auto|exact IH].
Qed.
Lemma merge_good : forall n root ts, Forall good root -> Forall (fun t => Forall good (limits t)) ts ->
  Forall good (merge_limits n root ts).
Proof.
  intros n root ts Hr Ht. unfold merge_limits. apply nest_rows_good. revert root Hr.
  induction Ht as [|t ts Ht Hts IH]; intros root Hr; simpl; [exact Hr|]. apply IH. apply hull_rows_good; auto.
Qed.
Lemma contains_proper : forall a b, good a -> row_contains a b -> proper box b -> proper box a.
Proof.
  intros a b [->|Ha] Hc Hb; [|exact Ha]. unfold initrow in Hc. destruct b as [|iv b].
  - inversion Hc as [E|]. unfold initrow. rewrite <- E. inversion Hb. constructor.
  - exfalso. destruct (o_dim o) as [|n]; [inversion Hc|]. cbn [repeat] in Hc.
    inversion Hc as [|? ? ? ? [C1 C2] _]; subst. inversion Hb as [|? ? ? ? (P1 & P2 & P3) _]; subst.
    destruct iv as [[|u] [|w]]; cbn [fst snd dle] in C1, C2, P2; try discriminate.
    apply Z.leb_le in C1, C2, P2. assert (0 < DBL_MAX) by reflexivity. lia.
Qed.

(** One task: particles in the ranges, rows untouched or proper, and the row of a
    level above the bottom on which there is a particle is proper. *)
Definition pgood (lims : list (list (dbl * dbl))) (p : particle) : Prop :=
  in_ranges box (pm p) /\ ((0 < plev p)%nat -> exists row, nth_error lims (plev p) = Some row /\ proper box row).
Definition tgood (t : task) : Prop := Forall (pgood (limits t)) (parts t) /\ Forall good (limits t).

(** No threshold below -DBL_MAX. *)
Definition low (ls : list level) : Prop := Forall (fun x => dlt (lv x) (Val (- DBL_MAX)) = false) (map lk ls).
Lemma low_rejects : forall ls n l x, low ls -> nth_error ls n = Some l -> hopeless x -> dlt (lv (lk l)) (lv x) = false.
Proof.
  intros ls n l x H E [H0|H0]; rewrite H0; [destruct (lv (lk l)); reflexivity|].
  unfold low in H. apply (map_nth_error lk) in E. exact (Forall_nth_error _ _ _ _ _ H E).
Qed.
Lemma update_particle_lk : forall t d t', update_particle t d = Ok t' -> map lk (levels t') = map lk (levels t).
Proof.
  intros t d t' E. unfold update_particle, get in E.
  destruct (nth_error (parts t) (d_which d)) as [p|]; try discriminate. cbn [bind] in E.
  destruct (nth_error (levels t) (plev p)) as [l|] eqn:El; try discriminate. cbn [bind] in E.
  unfold put in E. destruct (set_nth (plev p) _ (levels t)) as [ls|] eqn:S1; try discriminate. cbn [bind] in E.
  destruct (set_nth (d_which d) _ (parts t)) as [ps|] eqn:S2; try discriminate. cbn [bind] in E.
  injection E as <-. cbn [levels]. rewrite visit_from_lk. eapply set_nth_map; [exact S1|].
  intros x Hx. rewrite El in Hx. injection Hx as <-. reflexivity.
Qed.
Lemma level_lk : forall mx t d t', update_level_assignment ptol_ok o mx t d = Ok t' -> levels t' = levels t.
Proof.
  intros mx t d t' E. unfold update_level_assignment, get in E.
  destruct (nth_error (parts t) (d_which d)) as [p|] eqn:Ep; try discriminate. cbn [bind] in E.
  destruct (mod_int (d_lev d) (Z.of_nat (length (levels t)))) as [z| | |] eqn:Em; try discriminate. cbn [bind] in E.
  destruct (z <? 0) eqn:Ez; [discriminate|].
  destruct (nth_error (levels t) (Z.to_nat z)) as [lp|] eqn:El; try discriminate. cbn [bind] in E.
  destruct (nth_error (levels t) (plev p)); try discriminate. cbn [bind] in E.
  destruct (log_push_check (levels t) (Z.to_nat z)); try discriminate. cbn [bind] in E.
  destruct (log_push_check (levels t) (plev p)); try discriminate. cbn [bind] in E.
  destruct (enough_levels ptol_ok mx (levels t)); try discriminate. cbn [bind] in E.
  destruct (d_coin2 d && dlt (lv (lk lp)) (lv (plik p))) eqn:Ec; [|injection E as <-; reflexivity].
  unfold put in E. destruct (set_nth (d_which d) _ (parts t)) as [ps|] eqn:S1; try discriminate. cbn [bind] in E.
  rewrite Hlim in E. destruct (nth_error (limits t) (Z.to_nat z)) as [row|] eqn:Er; try discriminate. cbn [bind] in E.
  destruct (set_nth (Z.to_nat z) (widen row (pm p)) (limits t)) as [lims|] eqn:Es; try discriminate.
  cbn [bind] in E. injection E as <-. reflexivity.
Qed.

Lemma update_particle_tgood : forall t d t', update_particle t d = Ok t' -> low (levels t) -> tgood t -> proposal_ok box d -> tgood t'.
Proof.
  intros t d t' E Hlow [T1 T2] Hd. unfold update_particle in E. unfold get in E.
  destruct (nth_error (parts t) (d_which d)) as [p|] eqn:Ep; try discriminate. cbn [bind] in E.
  destruct (nth_error (levels t) (plev p)) as [l|] eqn:El; try discriminate. cbn [bind] in E.
  unfold put in E. destruct (set_nth (plev p) _ (levels t)) as [ls|]; try discriminate. cbn [bind] in E.
  destruct (set_nth (d_which d) _ (parts t)) as [ps|] eqn:S2; try discriminate. cbn [bind] in E.
  injection E as <-. split; [|exact T2]. cbn [parts limits].
  eapply set_nth_Forall; [exact S2|exact T1|].
  pose proof (Forall_nth_error _ _ _ _ _ T1 Ep) as [P1 P2].
  destruct (d_coin1 d && dlt (lv (lk l)) (lv (d_lik d))) eqn:Ea; [|split; auto].
  split; [|exact P2]. cbn [pm]. destruct Hd as [Hd|Hd]; [exact Hd|].
  rewrite (low_rejects _ _ _ _ Hlow El Hd), andb_false_r in Ea. discriminate.
Qed.

Lemma rows_ge_proper : forall a b k row, Forall good a -> rows_ge a b -> nth_error b k = Some row -> proper box row ->
  exists row', nth_error a k = Some row' /\ proper box row'.
Proof.
  intros a b k row Ha G E Hr. destruct (rows_ge_nth _ _ _ _ G E) as (r' & E' & C). exists r'. split; [exact E'|].
  eapply contains_proper; eauto. eapply Forall_nth_error; eauto.
Qed.
Lemma pgood_mono : forall a b p, Forall good a -> rows_ge a b -> pgood b p -> pgood a p.
Proof. intros a b p Ha G [P1 P2]. split; [exact P1|]. intros H. destruct (P2 H) as (row & E & Pr). eapply rows_ge_proper; eauto. Qed.

Lemma good_ok : forall row, good row -> okrow (o_dim o) row.
Proof.
  intros row [->|H]; [apply okrow_init|]. split; [apply proper_length; exact H|]. destruct Hbox as [_ B]. unfold proper in H. clear -H B.
  revert B. induction H as [|[u w] b r bs (H1 & H2 & H3) H IH]; intros B; constructor.
  - inversion B as [|? ? (x & y & -> & Hx & Hxy & Hy) B']; subst. unfold okiv, contains, empty_iv.
    destruct u as [|u]; destruct w as [|w]; simpl in *; try discriminate. rewrite Z.leb_le in *. split; lia.
  - apply IH. inversion B; auto.
Qed.
Lemma goods_ok : forall a, Forall good a -> okrows (o_dim o) a.
Proof. intros a H. eapply Forall_impl; [|exact H]. apply good_ok. Qed.

Lemma level_tgood : forall mx t d t', update_level_assignment ptol_ok o mx t d = Ok t' -> tgood t -> tgood t'.
Proof.
  intros mx t d t' E [T1 T2]. pose proof (level_limits ptol_ok o Hlim (o_dim o) mx t d t' (goods_ok _ T2) E) as ((G & _) & _ & _).
  unfold update_level_assignment, get in E.
  destruct (nth_error (parts t) (d_which d)) as [p|] eqn:Ep; try discriminate. cbn [bind] in E.
  destruct (mod_int (d_lev d) (Z.of_nat (length (levels t)))) as [z| | |] eqn:Em; try discriminate. cbn [bind] in E.
  destruct (z <? 0) eqn:Ez; [discriminate|].
  destruct (nth_error (levels t) (Z.to_nat z)) as [lp|] eqn:El; try discriminate. cbn [bind] in E.
  destruct (nth_error (levels t) (plev p)); try discriminate. cbn [bind] in E.
  destruct (log_push_check (levels t) (Z.to_nat z)); try discriminate. cbn [bind] in E.
  destruct (log_push_check (levels t) (plev p)); try discriminate. cbn [bind] in E.
  destruct (enough_levels ptol_ok mx (levels t)); try discriminate. cbn [bind] in E.
  destruct (d_coin2 d && dlt (lv (lk lp)) (lv (plik p))) eqn:Ec; [|injection E as <-; split; auto].
  unfold put in E. destruct (set_nth (d_which d) _ (parts t)) as [ps|] eqn:S1; try discriminate. cbn [bind] in E.
  rewrite Hlim in E. destruct (nth_error (limits t) (Z.to_nat z)) as [row|] eqn:Er; try discriminate. cbn [bind] in E.
  destruct (set_nth (Z.to_nat z) (widen row (pm p)) (limits t)) as [lims|] eqn:Es; try discriminate.
  cbn [bind] in E. injection E as <-. cbn [limits parts] in *.
  pose proof (Forall_nth_error _ _ _ _ _ T1 Ep) as [P1 P2].
  assert (W : proper box (widen row (pm p))) by (apply widen_proper; [eapply Forall_nth_error; eauto|exact P1]).
  assert (T2' : Forall good lims) by (eapply set_nth_Forall; [exact Es|exact T2|right; exact W]).
  split; cbn [limits parts]; [|exact T2']. eapply set_nth_Forall; [exact S1| |].
  - eapply Forall_impl; [|exact T1]. intros q Hq. eapply pgood_mono; eauto.
  - split; [exact P1|]. intros _. exists (widen row (pm p)). split; [eapply set_nth_eq; eauto|exact W].
Qed.

Lemma step_tgood : forall mx t d t', mcmc_step ptol_ok o mx t d = Ok t' -> low (levels t) -> tgood t -> proposal_ok box d ->
  tgood t' /\ low (levels t').
Proof.
  intros mx t d t' E Hlow T Hd. unfold mcmc_step in E.
  destruct (if d_order d then _ else _) as [t1| | |] eqn:E1; try discriminate. cbn [bind] in E.
  assert (T1 : tgood t1 /\ low (levels t1)).
  { destruct (d_order d).
    - destruct (update_particle t d) as [t0| | |] eqn:E0; try discriminate. cbn [bind] in E1.
      split; [eapply level_tgood; eauto; eapply update_particle_tgood; eauto|].
      rewrite (level_lk _ _ _ _ E1). unfold low. rewrite (update_particle_lk _ _ _ E0). exact Hlow.
    - destruct (update_level_assignment ptol_ok o mx t d) as [t0| | |] eqn:E0; try discriminate. cbn [bind] in E1.
      pose proof (level_lk _ _ _ _ E0) as K.
      split; [eapply update_particle_tgood; eauto; [rewrite K; exact Hlow|eapply level_tgood; eauto]|].
      unfold low. rewrite (update_particle_lk _ _ _ E1), K. exact Hlow. }
  destruct (enough_levels ptol_ok mx (levels t1)) as [[]| | |]; try discriminate; cbn [bind] in E; [injection E as <-; exact T1|].
  destruct (get (levels t1) _); try discriminate. cbn [bind] in E.
  destruct (get (parts t1) _); try discriminate. cbn [bind] in E.
  destruct (dlt _ _); [|injection E as <-; exact T1]. destruct (_ <? _)%nat; [injection E as <-; exact T1|discriminate].
Qed.
Lemma mcmc_run_tgood : forall mx ds t t', mcmc_run ptol_ok o mx t ds = Ok t' -> low (levels t) -> tgood t -> Forall (proposal_ok box) ds -> tgood t'.
Proof.
  intros mx. unfold mcmc_run. induction ds as [|d ds IH]; intros t t' E Hlow T Hd; simpl in E; [injection E as <-; exact T|].
  destruct (mcmc_step ptol_ok o mx t d) as [t1| | |] eqn:E1; try discriminate. cbn [bind] in E. inversion Hd; subst.
  destruct (step_tgood _ _ _ _ E1 Hlow T) as [T1 L1]; auto. eapply IH; eauto.
Qed.

Lemma step_lk : forall mx t d t', mcmc_step ptol_ok o mx t d = Ok t' -> map lk (levels t') = map lk (levels t).
Proof.
  intros mx t d t' E. unfold mcmc_step in E.
  destruct (if d_order d then _ else _) as [t1| | |] eqn:E1; try discriminate. cbn [bind] in E.
  assert (T1 : map lk (levels t1) = map lk (levels t)).
  { destruct (d_order d).
    - destruct (update_particle t d) as [t0| | |] eqn:E0; try discriminate. cbn [bind] in E1.
      rewrite (level_lk _ _ _ _ E1). exact (update_particle_lk _ _ _ E0).
    - destruct (update_level_assignment ptol_ok o mx t d) as [t0| | |] eqn:E0; try discriminate. cbn [bind] in E1.
      rewrite (update_particle_lk _ _ _ E1), (level_lk _ _ _ _ E0). reflexivity. }
  destruct (enough_levels ptol_ok mx (levels t1)) as [[]| | |]; try discriminate; cbn [bind] in E; [injection E as <-; exact T1|].
  destruct (get (levels t1) _); try discriminate. cbn [bind] in E.
  destruct (get (parts t1) _); try discriminate. cbn [bind] in E.
  destruct (dlt _ _); [|injection E as <-; exact T1]. destruct (_ <? _)%nat; [injection E as <-; exact T1|discriminate].
Qed.
Lemma mcmc_run_low : forall mx ds t t', mcmc_run ptol_ok o mx t ds = Ok t' -> low (levels t) -> low (levels t').
Proof.
  intros mx. unfold mcmc_run. induction ds as [|d ds IH]; intros t t' E Hlow; simpl in E; [injection E as <-; exact Hlow|].
  destruct (mcmc_step ptol_ok o mx t d) as [t1| | |] eqn:E1; try discriminate. cbn [bind] in E.
  eapply IH; eauto. unfold low. rewrite (step_lk _ _ _ _ E1). exact Hlow.
Qed.

(** The bottom threshold is -DBL_MAX, the others are not lower. *)
Definition bottomed (st : gstate) : Prop := exists b rest, map lk (g_comb st) = b :: rest /\ lv b = Val (- DBL_MAX).
Lemma bottomed_low : forall st t, ginv ptol_ok o dlt st -> bottomed st -> In t (g_tasks st) -> low (levels t).
Proof.
  intros st t Hg (b & rest & E & Hb) Ht. pose proof (gi_tasks _ _ _ _ Hg) as T. rewrite Forall_forall in T. specialize (T t Ht).
  pose proof (t0_vals o _ _ T) as V. pose proof (gi_sorted _ _ _ _ Hg) as S.
  assert (V' : map lv (map lk (levels t)) = map lv (map lk (g_comb st))) by (rewrite !map_map; exact V).
  assert (S' : StronglySorted (fun a b => dle a b = true) (map lv (map lk (g_comb st)))) by (rewrite map_map; exact S).
  rewrite E in V', S'. cbn [map] in V', S'. rewrite Hb in V', S'. apply StronglySorted_inv in S'. destruct S' as [_ S'].
  unfold low. apply Forall_forall. intros x Hx. assert (Hv' : In (lv x) (map lv (map lk (levels t)))) by (apply in_map; exact Hx).
  rewrite V' in Hv'. destruct Hv' as [<-|Hv']; [cbn [dlt]; apply Z.ltb_irrefl|].
  rewrite Forall_forall in S'. specialize (S' _ Hv'). destruct (lv x); [reflexivity|]. cbn [dle dlt] in *.
  apply Z.leb_le in S'. apply Z.ltb_ge. exact S'.
Qed.
Lemma bottomed_round : forall st r st', ginv ptol_ok o dlt st -> valid_round o r -> bottomed st -> round ptol_ok o st r = Ok st' -> bottomed st'.
Proof.
  intros st r st' Hg Hr (b & rest & E & Hb) Er. unfold round in Er.
  destruct (round_core ptol_ok o st r) as [st1| | |] eqn:Ec; try discriminate. cbn [bind] in Er.
  pose proof (round_core_spec ptol_ok o dlt rl st r Hv Hg Hr) as F0. rewrite Ec in F0. simpl in F0.
  destruct (round_core_ext ptol_ok o dlt st r st1 F0) as (ext & Eext & _).
  assert (B : bottomed st1) by (exists b, (rest ++ ext); rewrite Eext, E; auto).
  destruct (save_due o _ _); [|injection Er as <-; exact B].
  unfold save_particle in Er. destruct (get (g_tasks st1) (r_task r)); try discriminate. cbn [bind] in Er.
  destruct (get (parts a) (r_part r)); try discriminate. cbn [bind] in Er. injection Er as <-. exact B.
Qed.

(** The replacement of lagging particles only copies. *)
Lemma replace_from_Forall : forall (P : particle -> Prop) good gs i cands ps ps',
  replace_from i good gs cands ps = Ok ps' -> Forall P ps -> Forall P ps'.
Proof.
  intros P gd gs. induction gs as [|g gs IH]; intros i cands ps ps' E H; simpl in E; [injection E as <-; exact H|].
  destruct cands as [|cs cands]; [discriminate|].
  destruct g; cbn [bind] in E; [eapply IH; eauto|].
  destruct (pick gd cs) as [c| | |]; try discriminate. cbn [bind] in E. unfold get, put in E.
  destruct (nth_error ps c) as [p|] eqn:Ep; try discriminate. cbn [bind] in E.
  destruct (set_nth i p ps) as [ps1|] eqn:Es; try discriminate. cbn [bind] in E.
  eapply IH; [exact E|]. eapply set_nth_Forall; eauto. eapply Forall_nth_error; eauto.
Qed.
Lemma kill_Forall' : forall (P : particle -> Prop) ls ps k ps', kill_lagging o ls ps k = Ok ps' -> Forall P ps -> Forall P ps'.
Proof.
  intros P ls ps k ps' E H. unfold kill_lagging in E. destruct (mapM _ ps); try discriminate. cbn [bind] in E.
  destruct (_ <? _)%nat; [eapply replace_from_Forall; eauto|injection E as <-; exact H].
Qed.

Lemma round_core_tgood : forall st r st1 lims, ginv ptol_ok o dlt st -> valid_round o r -> round_ok box r ->
  linv o st lims -> bottomed st -> Forall tgood (g_tasks st) -> round_core ptol_ok o st r = Ok st1 -> Forall tgood (g_tasks st1).
Proof.
  intros st r st1 lims Hg Hr Hb HL Hbot HT E.
  destruct (linv_core ptol_ok o Hlim st r st1 lims Hv Hg Hr HL E) as (lims' & ts & HL' & _ & Hts & Hge).
  unfold after_steps in Hts. unfold round_core in E. rewrite Hts in E. cbn [bind] in E.
  destruct (run_tasks_nth ptol_ok o _ _ _ _ Hts) as [Lts N].
  assert (Gts : Forall tgood ts).
  { apply Forall_forall. intros t' Ht'. apply In_nth_error in Ht'. destruct Ht' as [i Hi].
    destruct (nth_error (g_tasks st) i) as [t|] eqn:Et.
    2:{ apply nth_error_None in Et. apply nth_error_lt in Hi. lia. }
    destruct (N i t Et) as (mx & ds & t'' & _ & Eds & Hi' & Em). rewrite Hi in Hi'. injection Hi' as <-.
    eapply mcmc_run_tgood; [exact Em|eapply bottomed_low; eauto; eapply nth_error_In; eauto| |]; [eapply Forall_nth_error; eauto|]. unfold round_ok in Hb. eapply Forall_nth_error; eauto. }
  destruct (_ <? _); [discriminate|].
  destruct (combine_levels (g_comb st) ts) as [comb| | |]; try discriminate. cbn [bind] in E.
  destruct ts as [|root w] eqn:Ets; [discriminate|]. rewrite <- Ets in *. rewrite Hlim in E.
  set (m := merge_limits (length (levels root)) (limits root) ts) in *.
  destruct (do_bookkeeping ptol_ok o _ _ _ _ _ _) as [[[[rm cb] pl] pp]| | |] eqn:Eb; try discriminate. cbn [bind] in E.
  assert (Groot : tgood root) by (rewrite Ets in Gts; inversion Gts; auto).
  assert (Gm : Forall good m).
  { apply merge_good; [apply Groot|]. eapply Forall_impl; [|exact Gts]. intros t [_ H]. exact H. }
  assert (Em : lims' = m).
  { destruct HL' as [L1' _ _ _ _]. injection E as <-. cbn [g_tasks map] in L1'. apply Forall_inv in L1'.
    cbn [bcast limits] in L1'. rewrite Hlim, firstn_skipn in L1'. symmetry. exact L1'. }
  subst lims'.
  assert (Pp : forall t p, In t ts -> pgood (limits t) p -> pgood m p).
  { intros t p Ht Hp. eapply pgood_mono; [exact Gm| |exact Hp]. rewrite Forall_forall in Hge. apply Hge. exact Ht. }
  assert (Pts : forall t, In t ts -> Forall (pgood m) (parts t)).
  { intros t Ht. rewrite Forall_forall in Gts. destruct (Gts t Ht) as [G _]. eapply Forall_impl; [|exact G]. intros p. apply Pp. exact Ht. }
  assert (Ppp : Forall (pgood m) pp).
  { assert (Pr : Forall (pgood m) (parts root)) by (apply Pts; rewrite Ets; left; reflexivity).
    apply bk_cases in Eb. destruct Eb as [(_ & _ & _ & _ & ->)|(_ & _ & _ & th & _ & _ & [(_ & _ & _ & ->)|(_ & _ & _ & K)])]; auto.
    eapply kill_Forall'; eauto. }
  assert (Gparts : Forall (fun t => Forall (pgood m) (parts t)) (g_tasks st1)).
  { injection E as <-. cbn [g_tasks map]. constructor; [exact Ppp|]. apply Forall_forall. intros t' Ht'. apply in_map_iff in Ht'.
    destruct Ht' as (t & <- & Ht). cbn [bcast parts]. apply Pts. rewrite Ets. right. exact Ht. }
  destruct HL' as [L1' _ _ _ _]. rewrite Forall_forall in *. intros t Ht. unfold tgood. rewrite (L1' t Ht).
  split; [apply Gparts; exact Ht|]. apply Forall_forall. exact Gm.
Qed.

Lemma round_tgood : forall st r st' lims, ginv ptol_ok o dlt st -> valid_round o r -> round_ok box r ->
  linv o st lims -> bottomed st -> Forall tgood (g_tasks st) -> round ptol_ok o st r = Ok st' -> Forall tgood (g_tasks st').
Proof.
  intros st r st' lims Hg Hr Hb HL Hbot HT E. unfold round in E.
  destruct (round_core ptol_ok o st r) as [st1| | |] eqn:Ec; try discriminate. cbn [bind] in E.
  pose proof (round_core_tgood st r st1 lims Hg Hr Hb HL Hbot HT Ec) as G.
  destruct (save_due o _ _); [|injection E as <-; exact G].
  unfold save_particle in E. destruct (get (g_tasks st1) (r_task r)); try discriminate. cbn [bind] in E.
  destruct (get (parts a) (r_part r)); try discriminate. cbn [bind] in E. injection E as <-. exact G.
Qed.

Lemma reachable_in_reachable : forall st, reachable_in ptol_ok o box st -> reachable ptol_ok o st.
Proof. intros st (init & rs & A & _ & B & _ & C). exists init, rs. auto. Qed.

Lemma reachable_tgood : forall st, reachable_in ptol_ok o box st -> Forall tgood (g_tasks st) /\ bottomed st.
Proof.
  intros st (init & rs & Hi & Hb & Hr & Hrb & E).
  assert (G : forall rs st0 st, ginv ptol_ok o dlt st0 -> (exists lims, linv o st0 lims) -> bottomed st0 -> Forall tgood (g_tasks st0) ->
    Forall (valid_round o) rs -> Forall (round_ok box) rs -> run ptol_ok o rs st0 = Ok st -> Forall tgood (g_tasks st) /\ bottomed st).
  { clear rs st init Hi Hb Hr Hrb E. intros rs. induction rs as [|r rs IH]; intros st0 st Hg [lims HL] Hbot HT Hr Hb E; simpl in E; [injection E as <-; auto|].
    destruct (terminated o st0); [injection E as <-; auto|].
    inversion Hr; subst. inversion Hb; subst.
    pose proof (round_spec ptol_ok o dlt rl st0 r Hv Hg H1) as S.
    destruct (round ptol_ok o st0 r) as [st1| | |] eqn:E1; try discriminate. cbn [bind] in E. simpl in S. destruct S as [_ S1].
    destruct (linv_round ptol_ok o Hlim st0 r st1 lims Hv Hg H1 HL E1) as (l' & _ & HL' & _).
    apply (IH st1 st); auto; [exists l'; exact HL'|apply (bottomed_round st0 r st1); auto|]. apply (round_tgood st0 r st1 lims); auto. }
  eapply G; [apply (init_ginv ptol_ok o init Hv Hi)|exists (repeat (initrow (o_dim o)) (alloc o)); apply linv_init| | |exact Hr|exact Hrb|exact E].
  { destruct Hi as [Hi _]. pose proof (vo_tt o Hv) as Htt. destruct init as [|x init]; [simpl in Hi; lia|]. exists (lk (bottom (fst x))), []. auto. }
  cbn [init_state g_tasks]. apply Forall_forall. intros t Ht. apply in_map_iff in Ht. destruct Ht as (x & <- & Hx).
  unfold init_ok in Hb. rewrite Forall_forall in Hb. specialize (Hb x Hx). split; cbn [init_task parts limits].
  - apply Forall_forall. intros p Hp. apply in_map_iff in Hp. destruct Hp as (q & <- & Hq). rewrite Forall_forall in Hb.
    split; [apply Hb; exact Hq|]. cbn [plev]. lia.
  - apply Forall_forall. intros row Hrow. apply repeat_spec in Hrow. left. exact Hrow.
Qed.

(** The state in which a proposal is made. *)
Lemma proposing_state : forall st r i t mx ds1 d ds2 t1 t0 p,
  reachable_in ptol_ok o box st -> valid_round o r -> round_ok box r ->
  nth_error (g_tasks st) i = Some t -> nth_error (r_steps r) i = Some (ds1 ++ d :: ds2) ->
  mcmc_run ptol_ok o mx t ds1 = Ok t1 -> proposing ptol_ok o mx t1 d t0 p ->
  tgood t0 /\ rows_ge (limits t0) (limits t) /\ length (levels t0) = length (levels t).
Proof.
  intros st r i t mx ds1 d ds2 t1 t0 p Hre Hr Hb Ht Hds E1 [Hp _].
  destruct (reachable_tgood st Hre) as [TG Hbot].
  pose proof (Forall_nth_error _ _ _ _ _ TG Ht) as T. cbv beta in T.
  assert (Hlow : low (levels t)).
  { apply (bottomed_low st); auto; [|eapply nth_error_In; eauto]. apply reachable_ginv; auto. apply reachable_in_reachable; auto. }
  unfold round_ok in Hb. pose proof (Forall_nth_error _ _ _ _ _ Hb Hds) as D. cbv beta in D. apply Forall_app in D. destruct D as [D1 _].
  pose proof (mcmc_run_tgood mx ds1 t t1 E1 Hlow T D1) as T1.
  destruct (mcmc_run_limits ptol_ok o Hlim (o_dim o) mx ds1 t t1 (goods_ok _ (proj2 T)) E1) as [(G & O1 & _) L1].
  destruct (d_order d); [subst t0; auto|].
  pose proof (level_tgood mx t1 d t0 Hp T1) as T0.
  destruct (level_limits ptol_ok o Hlim (o_dim o) mx t1 d t0 O1 Hp) as ((G' & _) & L0 & _).
  split; [exact T0|]. split; [eapply rows_trans; eauto|congruence].
Qed.

End Boxes.
