(** C12: level-dependent parameter limits. *)
From Coq Require Import ZArith List Bool Lia Arith Permutation Sorted.
From Verif Require Import CPrelude SortModel SortProofs ListLemmas DnestModel DnestProofs DnestRound DnestRuns SamplerSpec SamplerFacts SamplerFacts2.
Import ListNotations.
Open Scope Z_scope.

Definition empty_iv : dbl * dbl := (Val DBL_MAX, Val (- DBL_MAX)).
Definition okiv (a : dbl * dbl) : Prop := contains a empty_iv.

Lemma okiv_refl : forall a, okiv a -> contains a a.
Proof.
  intros [[|x] [|y]] [H1 H2]; simpl in *; try discriminate. split; simpl; lia.
Qed.
Lemma contains_trans : forall a b c, contains a b -> contains b c -> contains a c.
Proof. intros a b c [H1 H2] [H3 H4]. split; eapply dle_trans; eauto. Qed.

Definition okrow (n : nat) (r : list (dbl * dbl)) : Prop := length r = n /\ Forall okiv r.

Lemma row_refl : forall n r, okrow n r -> row_contains r r.
Proof.
  intros n r [_ H]. induction H; constructor; auto. apply okiv_refl; auto.
Qed.
Lemma row_trans : forall a b c, row_contains a b -> row_contains b c -> row_contains a c.
Proof. intros a b c. apply Forall2_trans. apply contains_trans. Qed.

Lemma iv_widen : forall lo hi x, okiv (lo, hi) ->
  contains (dmin lo x, dmax hi x) (lo, hi) /\ within x (dmin lo x, dmax hi x) /\ okiv (dmin lo x, dmax hi x).
Proof.
  intros [|a] [|b] [|x] [H1 H2]; simpl in *; try discriminate; unfold contains, within, okiv, contains; simpl.
  - split; [split; apply Z.leb_le; lia|]. split; [left; reflexivity|split; assumption].
  - split; [split; apply Z.leb_le; lia|]. split; [right; split; apply Z.leb_le; lia|split; apply Z.leb_le; lia].
Qed.

Lemma iv_hull : forall lo hi lo' hi', okiv (lo, hi) -> okiv (lo', hi') ->
  let h := (dmin lo lo', dmax hi hi') in contains h (lo, hi) /\ contains h (lo', hi') /\ okiv h.
Proof.
  intros [|a] [|b] [|c] [|d] [H1 H2] [H3 H4]; simpl in *; try discriminate; unfold okiv, contains; simpl.
  repeat split; apply Z.leb_le; lia.
Qed.

Lemma widen_spec : forall n row xs, okrow n row ->
  row_contains (widen row xs) row /\ okrow n (widen row xs) /\
  forall k x iv, nth_error xs k = Some x -> nth_error (widen row xs) k = Some iv -> within x iv.
Proof.
  intros n row xs [L H]. revert n xs L. induction H as [|[lo hi] row Hi Hr IH]; intros n xs L; simpl.
  - split; [constructor|]. split; [split; auto|]. intros k x iv _ Hk. destruct k; discriminate.
  - destruct xs as [|x xs].
    + split; [eapply (row_refl (length ((lo, hi) :: row))); split; auto|]. split; [split; auto|].
      intros k x iv Hk. destruct k; discriminate.
    + destruct n; [discriminate|]. destruct (IH n xs) as (C & [L' O'] & W); [simpl in L; lia|].
      destruct (iv_widen lo hi x Hi) as (C0 & W0 & O0).
      split; [constructor; auto|]. split; [split; [simpl; lia|constructor; auto]|].
      intros [|k] x0 iv Hx Hk; simpl in *; [injection Hx as <-; injection Hk as <-; exact W0|eauto].
Qed.

Lemma hull_row_spec : forall n r s, okrow n r -> okrow n s ->
  row_contains (hull_row r s) r /\ row_contains (hull_row r s) s /\ okrow n (hull_row r s).
Proof.
  intros n r s [L H]. revert n s L. induction H as [|[lo hi] row Hi Hr IH]; intros n s L [L' H']; simpl.
  - destruct s; [|simpl in *; lia]. repeat split; auto; constructor.
  - destruct s as [|[lo' hi'] s]; [simpl in *; lia|]. destruct n; [discriminate|].
    inversion H'; subst. destruct (IH n s) as (C1 & C2 & L1 & O1); [simpl in L; lia|split; [simpl in L'; lia|auto]|].
    destruct (iv_hull lo hi lo' hi' Hi H1) as (D1 & D2 & D3).
    repeat split; try constructor; auto. simpl. lia.
Qed.

Definition rows_ge (a b : list (list (dbl * dbl))) : Prop := Forall2 row_contains a b.
Definition okrows (n : nat) (a : list (list (dbl * dbl))) : Prop := Forall (okrow n) a.

Lemma rows_refl : forall n a, okrows n a -> rows_ge a a.
Proof. intros n a H. induction H; constructor; auto. eapply row_refl; eauto. Qed.
Lemma rows_trans : forall a b c, rows_ge a b -> rows_ge b c -> rows_ge a c.
Proof. intros a b c. apply Forall2_trans. apply row_trans. Qed.

Lemma hull_rows_spec : forall d n a b, okrows d a -> okrows d b -> length a = length b ->
  skipn n a = skipn n b ->
  rows_ge (hull_rows n a b) a /\ rows_ge (hull_rows n a b) b /\ okrows d (hull_rows n a b) /\
  skipn n (hull_rows n a b) = skipn n a.
Proof.
  induction n as [|n IH]; intros a b Ha Hb L E; simpl in *.
  - subst b. pose proof (rows_refl _ _ Ha). auto.
  - destruct a as [|r a]; destruct b as [|s b]; try discriminate; simpl in *.
    + repeat split; constructor.
    + inversion Ha; subst. inversion Hb; subst. destruct (IH a b) as (C1 & C2 & O & S); auto; try lia.
      destruct (hull_row_spec d r s) as (D1 & D2 & D3); auto.
      repeat split; try constructor; auto.
Qed.

Definition initrow (d : nat) : list (dbl * dbl) := repeat empty_iv d.
Lemma okrow_init : forall d, okrow d (initrow d).
Proof.
  intros d. split; [apply repeat_length|]. apply Forall_forall. intros x Hx. apply repeat_spec in Hx. subst.
  unfold okiv, empty_iv, contains; simpl. split; apply Z.leb_le; lia.
Qed.
Lemma row_contains_init : forall d r, okrow d r -> row_contains r (initrow d).
Proof.
  intros d r [L H]. revert d L. induction H as [|x l Hx Hl IH]; intros [|d] L; simpl in *; try discriminate; constructor; auto.
  apply IH. lia.
Qed.

Lemma nest_rows_SS : forall n r a, nest_rows (S (S n)) (r :: a) =
  match nest_rows (S n) a with (s :: _) as a'' => hull_row r s :: a'' | [] => [r] end.
Proof. reflexivity. Qed.

Lemma nest_rows_spec : forall d n a, okrows d a -> (n <= length a)%nat ->
  Forall (fun r => r = initrow d) (skipn n a) ->
  rows_ge (nest_rows n a) a /\ okrows d (nest_rows n a) /\ skipn n (nest_rows n a) = skipn n a /\
  StronglySorted row_contains (nest_rows n a).
Proof.
  assert (Base : forall d a, okrows d a -> Forall (fun r => r = initrow d) a -> StronglySorted row_contains a).
  { intros d a Ha. induction Ha as [|r a Hr Ha IH]; intros HF; [constructor|]. inversion HF as [|? ? ? HF']; subst.
    constructor; [auto|]. eapply Forall_impl; [|exact HF']. intros x ->. apply row_contains_init; auto. }
  intros d n. induction n as [|n IH]; intros a Ha L HF.
  - simpl in *. pose proof (rows_refl _ _ Ha). repeat split; auto. eapply Base; eauto.
  - destruct n as [|n].
    + simpl. pose proof (rows_refl _ _ Ha). repeat split; auto.
      destruct a as [|r a]; [constructor|]. simpl in HF. inversion Ha; subst. constructor; [eapply Base; eauto|].
      eapply Forall_impl; [|exact HF]. intros x ->. apply row_contains_init; auto.
    + destruct a as [|r a]; [simpl in L; lia|]. inversion Ha as [|? ? Hr Ha']; subst.
      destruct (IH a Ha') as (C & O & Sk & SS); [simpl in L; lia|exact HF|].
      rewrite nest_rows_SS. simpl in L.
      destruct (nest_rows (S n) a) as [|s a''] eqn:E.
      { exfalso. pose proof (nest_rows_length (S n) a) as Ln. rewrite E in Ln. simpl in Ln. lia. }
      inversion O as [|? ? Os O']; subst. inversion SS as [|? ? SS' SF]; subst.
      destruct (hull_row_spec d r s Hr Os) as (D1 & D2 & D3).
      split; [constructor; auto|]. split; [constructor; auto|]. split; [simpl in *; auto|].
      constructor; [exact SS|]. constructor; [exact D2|].
      eapply Forall_impl; [|exact SF]. intros x Hx. eapply row_trans; eauto.
Qed.

Lemma merge_spec : forall d n root ts, okrows d root -> (n <= length root)%nat ->
  Forall (fun r => r = initrow d) (skipn n root) ->
  Forall (fun t => okrows d (limits t) /\ length (limits t) = length root /\ skipn n (limits t) = skipn n root) ts ->
  let m := merge_limits n root ts in
  rows_ge m root /\ Forall (fun t => rows_ge m (limits t)) ts /\ okrows d m /\
  skipn n m = skipn n root /\ StronglySorted row_contains m.
Proof.
  intros d n root ts Hr Hn Hi HF. cbv zeta. unfold merge_limits.
  set (f := fold_left (fun a t => hull_rows n a (limits t)) ts root).
  assert (G : rows_ge f root /\ Forall (fun t => rows_ge f (limits t)) ts /\ okrows d f /\ skipn n f = skipn n root /\ length f = length root).
  { unfold f. clear f. pose proof (rows_refl _ _ Hr) as Rr.
    assert (K : forall ts acc, okrows d acc -> length acc = length root -> skipn n acc = skipn n root ->
      Forall (fun t => okrows d (limits t) /\ length (limits t) = length root /\ skipn n (limits t) = skipn n root) ts ->
      let f := fold_left (fun a t => hull_rows n a (limits t)) ts acc in
      rows_ge f acc /\ Forall (fun t => rows_ge f (limits t)) ts /\ okrows d f /\ skipn n f = skipn n root /\ length f = length root).
    { clear ts HF. induction ts as [|t ts IH]; intros acc Ha La Sa HF; simpl.
      - pose proof (rows_refl _ _ Ha). auto.
      - inversion HF as [|? ? (T1 & T2 & T3) HF']; subst.
        destruct (hull_rows_spec d n acc (limits t)) as (C1 & C2 & O & S); auto; try congruence.
        destruct (IH (hull_rows n acc (limits t))) as (A1 & A2 & A3 & A4 & A5); auto; try congruence.
        { rewrite hull_rows_length. exact La. }
        split; [eapply rows_trans; eauto|]. split; [constructor; [eapply rows_trans; eauto|auto]|]. auto. }
    apply K; auto. }
  destruct G as (G1 & G2 & G3 & G4 & G5).
  destruct (nest_rows_spec d n f G3) as (N1 & N2 & N3 & N4); [lia|rewrite G4; exact Hi|].
  split; [eapply rows_trans; eauto|]. split; [|split; [auto|split; [congruence|auto]]].
  eapply Forall_impl; [|exact G2]. intros t Ht. eapply rows_trans; eauto.
Qed.

Lemma rows_ge_nth : forall a b k r, rows_ge a b -> nth_error b k = Some r ->
  exists r', nth_error a k = Some r' /\ row_contains r' r.
Proof.
  intros a b k r H. revert k. induction H; intros [|k] E; simpl in *; try discriminate; eauto.
  injection E as <-. eauto.
Qed.

Section Limits.
Variable ptol_ok : list dbl -> bool.
Variable o : opts.
Hypothesis Hlim : o_lim o = true.

(** One task: limits only grow, rows of levels that do not exist stay put. *)
Definition grows (d n : nat) (a b : list (list (dbl * dbl))) : Prop :=
  rows_ge b a /\ okrows d b /\ length b = length a /\ skipn n b = skipn n a.

Lemma grows_refl : forall d n a, okrows d a -> grows d n a a.
Proof. intros d n a H. repeat split; auto. eapply rows_refl; eauto. Qed.
Lemma grows_trans : forall d n a b c, grows d n a b -> grows d n b c -> grows d n a c.
Proof.
  intros d n a b c (A1 & A2 & A3 & A4) (B1 & B2 & B3 & B4).
  repeat split; auto; try congruence. eapply rows_trans; eauto.
Qed.

Lemma set_nth_skipn : forall A (l : list A) q a l' n, set_nth q a l = Some l' -> (q < n)%nat ->
  skipn n l' = skipn n l.
Proof.
  induction l as [|x l IH]; intros q a l' n H Hq; simpl in *; [discriminate|].
  destruct n; [lia|]. destruct q.
  - injection H as <-. reflexivity.
  - destruct (set_nth q a l) eqn:S; [|discriminate]. injection H as <-. simpl. eapply IH; eauto. lia.
Qed.

Lemma set_nth_grows : forall d n l q row row' l', okrows d l -> nth_error l q = Some row ->
  set_nth q row' l = Some l' -> row_contains row' row -> okrow d row' -> (q < n)%nat -> grows d n l l'.
Proof.
  intros d n l q row row' l' Ho Hq Hs Hc Hok Hn. repeat split.
  - clear Hn. revert q l' Hq Hs. induction Ho as [|r l Hr Ho IH]; intros [|q] l' Hq Hs; simpl in *; try discriminate.
    + injection Hq as ->. injection Hs as <-. constructor; auto. eapply rows_refl; eauto.
    + destruct (set_nth q row' l) eqn:S; [|discriminate]. injection Hs as <-. constructor; [eapply row_refl; eauto|].
      eapply IH; eauto.
  - eapply set_nth_Forall; eauto.
  - eapply set_nth_length; eauto.
  - eapply set_nth_skipn; eauto.
Qed.

Lemma update_particle_limits : forall t d t', update_particle t d = Ok t' ->
  limits t' = limits t /\ length (levels t') = length (levels t).
Proof.
  intros t d t' E. unfold update_particle in E.
  destruct (get (parts t) (d_which d)) as [p| | |]; try discriminate. cbn [bind] in E.
  destruct (get (levels t) (plev p)) as [l| | |]; try discriminate. cbn [bind] in E.
  unfold put in E. destruct (set_nth (plev p) _ (levels t)) as [ls|] eqn:S1; try discriminate. cbn [bind] in E.
  destruct (set_nth (d_which d) _ (parts t)) as [ps|] eqn:S2; try discriminate. cbn [bind] in E.
  injection E as <-. simpl. split; [reflexivity|].
  rewrite <- (map_length lk), visit_from_lk, map_length. eapply set_nth_length; eauto.
Qed.

Lemma level_limits : forall dd mx t d t', okrows dd (limits t) ->
  update_level_assignment ptol_ok o mx t d = Ok t' ->
  grows dd (length (levels t)) (limits t) (limits t') /\ length (levels t') = length (levels t) /\
  forall p lp q, nth_error (parts t) (d_which d) = Some p ->
    mod_int (d_lev d) (Z.of_nat (length (levels t))) = Ok (Z.of_nat q) ->
    nth_error (levels t) q = Some lp -> d_coin2 d = true -> dlt (lv (lk lp)) (lv (plik p)) = true ->
    exists row, nth_error (limits t') q = Some row /\
      forall k x iv, nth_error (pm p) k = Some x -> nth_error row k = Some iv -> within x iv.
Proof.
  intros dd mx t d t' Ho E. unfold update_level_assignment, get in E.
  destruct (nth_error (parts t) (d_which d)) as [p|] eqn:Ep; try discriminate. cbn [bind] in E.
  destruct (mod_int (d_lev d) (Z.of_nat (length (levels t)))) as [z| | |] eqn:Em; try discriminate. cbn [bind] in E.
  destruct (z <? 0) eqn:Ez; [discriminate|]. apply Z.ltb_ge in Ez.
  destruct (nth_error (levels t) (Z.to_nat z)) as [lp|] eqn:El; try discriminate. cbn [bind] in E.
  destruct (nth_error (levels t) (plev p)); try discriminate. cbn [bind] in E.
  destruct (log_push_check (levels t) (Z.to_nat z)); try discriminate. cbn [bind] in E.
  destruct (log_push_check (levels t) (plev p)); try discriminate. cbn [bind] in E.
  destruct (enough_levels ptol_ok mx (levels t)); try discriminate. cbn [bind] in E.
  destruct (d_coin2 d && dlt (lv (lk lp)) (lv (plik p))) eqn:Ec.
  - unfold put in E. destruct (set_nth (d_which d) _ (parts t)) as [ps|]; try discriminate. cbn [bind] in E.
    rewrite Hlim in E. destruct (nth_error (limits t) (Z.to_nat z)) as [row|] eqn:Er; try discriminate. cbn [bind] in E.
    destruct (set_nth (Z.to_nat z) (widen row (pm p)) (limits t)) as [lims|] eqn:Es; try discriminate.
    cbn [bind] in E. injection E as <-. simpl.
    destruct (widen_spec dd row (pm p)) as (W1 & W2 & W3).
    { unfold okrows in Ho. eapply Forall_nth_error; eauto. }
    split; [|split; [reflexivity|]].
    + eapply set_nth_grows; eauto. eapply nth_error_lt; eauto.
    + intros p0 lp0 q [= <-] [= ->] _ _ _. rewrite Nat2Z.id in Es.
      exists (widen row (pm p)). split; [eapply set_nth_eq; eauto|exact W3].
  - injection E as <-. split; [apply grows_refl; auto|]. split; [reflexivity|].
    intros p0 lp0 q [= <-] [= ->] Hq Hc Hd. rewrite Nat2Z.id in El. rewrite El in Hq. injection Hq as <-.
    rewrite Hc, Hd in Ec. discriminate.
Qed.

Lemma step_limits : forall dd mx t d t', okrows dd (limits t) -> mcmc_step ptol_ok o mx t d = Ok t' ->
  grows dd (length (levels t)) (limits t) (limits t') /\ length (levels t') = length (levels t) /\
  forall q xs, moves_to t d q xs ->
    exists row, nth_error (limits t') q = Some row /\
      forall k x iv, nth_error xs k = Some x -> nth_error row k = Some iv -> within x iv.
Proof.
  intros dd mx t d t' Ho E. unfold mcmc_step in E.
  assert (G : exists t1, (if d_order d
         then bind (update_particle t d) (fun t' => update_level_assignment ptol_ok o mx t' d)
         else bind (update_level_assignment ptol_ok o mx t d) (fun t' => update_particle t' d)) = Ok t1 /\
         limits t' = limits t1 /\ levels t' = levels t1).
  { destruct (if d_order d then _ else _) as [t1| | |] eqn:E1; try discriminate. cbn [bind] in E.
    exists t1. split; [reflexivity|]. destruct (enough_levels ptol_ok mx (levels t1)) as [[]| | |]; try discriminate; cbn [bind] in E.
    - injection E as <-. auto.
    - destruct (get (levels t1) _); try discriminate. cbn [bind] in E.
      destruct (get (parts t1) _); try discriminate. cbn [bind] in E.
      destruct (dlt _ _); [|injection E as <-; auto]. destruct (_ <? _)%nat; [injection E as <-; auto|discriminate]. }
  destruct G as (t1 & E1 & -> & ->). clear E. unfold moves_to. destruct (d_order d).
  - destruct (update_particle t d) as [t0| | |] eqn:E0; try discriminate. cbn [bind] in E1.
    destruct (update_particle_limits _ _ _ E0) as [L1 L2]. rewrite <- L1 in Ho |- *. rewrite <- L2.
    destruct (level_limits dd mx t0 d t1 Ho E1) as (A & B & C). repeat split; try apply A; auto.
    intros q xs (t2 & p & lp & [= <-] & Hp & -> & Hm & Hl & Hc & Hd). eapply C; eauto.
  - destruct (update_level_assignment ptol_ok o mx t d) as [t0| | |] eqn:E0; try discriminate. cbn [bind] in E1.
    destruct (update_particle_limits _ _ _ E1) as [L1 L2]. rewrite L1, L2.
    destruct (level_limits dd mx t d t0 Ho E0) as (A & B & C). repeat split; try apply A; auto.
    intros q xs (t2 & p & lp & -> & Hp & -> & Hm & Hl & Hc & Hd). eapply C; eauto.
Qed.

Lemma mcmc_run_limits : forall dd mx ds t t', okrows dd (limits t) -> mcmc_run ptol_ok o mx t ds = Ok t' ->
  grows dd (length (levels t)) (limits t) (limits t') /\ length (levels t') = length (levels t).
Proof.
  intros dd mx. unfold mcmc_run. induction ds as [|d ds IH]; intros t t' Ho E; simpl in E.
  - injection E as <-. split; [apply grows_refl; auto|reflexivity].
  - destruct (mcmc_step ptol_ok o mx t d) as [t1| | |] eqn:E1; try discriminate. cbn [bind] in E.
    destruct (step_limits dd mx t d t1 Ho E1) as (A & B & _).
    destruct (IH t1 t') as (C & D); auto; [apply A|]. rewrite B in C. split; [eapply grows_trans; eauto|congruence].
Qed.

Lemma mcmc_run_app : forall mx ds1 ds2 t, mcmc_run ptol_ok o mx t (ds1 ++ ds2) =
  bind (mcmc_run ptol_ok o mx t ds1) (fun t1 => mcmc_run ptol_ok o mx t1 ds2).
Proof.
  unfold mcmc_run. induction ds1 as [|d ds1 IH]; intros ds2 t; [reflexivity|]. simpl.
  destruct (mcmc_step ptol_ok o mx t d); try reflexivity. cbn [bind]. apply IH.
Qed.

Lemma mcmc_run_records : forall dd mx ds1 d ds2 t t1 t' q xs, okrows dd (limits t) ->
  mcmc_run ptol_ok o mx t (ds1 ++ d :: ds2) = Ok t' ->
  mcmc_run ptol_ok o mx t ds1 = Ok t1 -> moves_to t1 d q xs ->
  exists t2 row, mcmc_step ptol_ok o mx t1 d = Ok t2 /\ rows_ge (limits t') (limits t2) /\
    nth_error (limits t2) q = Some row /\
    forall k x iv, nth_error xs k = Some x -> nth_error row k = Some iv -> within x iv.
Proof.
  intros dd mx ds1 d ds2 t t1 t' q xs Ho E E1 Hm. rewrite mcmc_run_app, E1 in E. cbn [bind] in E.
  unfold mcmc_run in E. simpl in E.
  destruct (mcmc_step ptol_ok o mx t1 d) as [t2| | |] eqn:E2; try discriminate. cbn [bind] in E.
  destruct (mcmc_run_limits dd mx ds1 t t1 Ho E1) as [(_ & O1 & _) _].
  destruct (step_limits dd mx t1 d t2 O1 E2) as (A & _ & C). destruct (C q xs Hm) as (row & Hr & Hw).
  destruct (mcmc_run_limits dd mx ds2 t2 t') as [(B & _) _]; [apply A|exact E|].
  exists t2, row. auto.
Qed.

Lemma run_tasks_nth : forall ts mxs dss ts', run_tasks ptol_ok o mxs ts dss = Ok ts' ->
  length ts' = length ts /\
  (forall i t, nth_error ts i = Some t -> exists mx ds t', nth_error mxs i = Some mx /\ nth_error dss i = Some ds /\
     nth_error ts' i = Some t' /\ mcmc_run ptol_ok o mx t ds = Ok t').
Proof.
  induction ts as [|t ts IH]; intros mxs dss ts' E; simpl in E.
  - injection E as <-. split; [reflexivity|]. intros [|i] t H; discriminate.
  - destruct mxs as [|mx mxs]; [discriminate|]. destruct dss as [|ds dss]; [discriminate|].
    destruct (mcmc_run ptol_ok o mx t ds) as [t'| | |] eqn:E1; try discriminate. cbn [bind] in E.
    destruct (run_tasks ptol_ok o mxs ts dss) as [r| | |] eqn:E2; try discriminate. cbn [bind] in E.
    injection E as <-. destruct (IH _ _ _ E2) as [L H]. split; [simpl; lia|].
    intros [|i] t0 Ht; simpl in *; [injection Ht as <-; eauto 8|eauto].
Qed.

Record linv (st : gstate) (lims : list (list (dbl * dbl))) : Prop := mkli
  { li_same : Forall (fun t => limits t = lims) (g_tasks st);
    li_ok : okrows (o_dim o) lims;
    li_len : length lims = alloc o;
    li_init : Forall (fun r => r = initrow (o_dim o)) (skipn (length (g_comb st)) lims);
    li_nested : StronglySorted row_contains lims }.

Lemma skipn_skipn : forall A m n (l : list A), skipn m (skipn n l) = skipn (m + n) l.
Proof.
  intros A m n. revert m. induction n as [|n IH]; intros m l; [rewrite Nat.add_0_r; reflexivity|].
  rewrite Nat.add_succ_r. destruct l as [|x l]; [destruct m; reflexivity|]. simpl. apply IH.
Qed.
Lemma skipn_skipn_eq : forall A (a b : list A) n m, (n <= m)%nat -> skipn n a = skipn n b -> skipn m a = skipn m b.
Proof.
  intros A a b n m H E. replace m with ((m - n) + n)%nat by lia. rewrite <- !skipn_skipn, E. reflexivity.
Qed.
Lemma Forall_skipn_le : forall A (P : A -> Prop) (l : list A) n m, (n <= m)%nat -> Forall P (skipn n l) -> Forall P (skipn m l).
Proof.
  intros A P l n m H E. replace m with ((m - n) + n)%nat by lia. rewrite <- skipn_skipn.
  rewrite <- (firstn_skipn (m - n) (skipn n l)) in E. apply Forall_app in E. tauto.
Qed.

Lemma linv_core : forall st r st1 lims, valid_opts o -> ginv ptol_ok o dlt st -> valid_round o r ->
  linv st lims -> round_core ptol_ok o st r = Ok st1 ->
  exists lims' ts, linv st1 lims' /\ rows_ge lims' lims /\ after_steps ptol_ok o st r ts /\
    Forall (fun t => rows_ge lims' (limits t)) ts.
Proof.
  intros st r st1 lims Hv Hg Hr [L1 L2 L3 L4 L5] E.
  pose proof (round_core_spec ptol_ok o dlt rl st r Hv Hg Hr) as F0. rewrite E in F0. simpl in F0.
  destruct (round_core_ext ptol_ok o dlt st r st1 F0) as (ext & Eext & _).
  assert (Hmono : (length (g_comb st) <= length (g_comb st1))%nat).
  { rewrite <- (map_length lk (g_comb st1)), Eext, app_length, map_length. lia. }
  pose proof (gi_len _ _ _ _ (rf_inv _ _ _ _ _ _ F0)) as [_ Hal].
  pose proof (gi_len _ _ _ _ Hg) as [_ Hal0].
  unfold round_core in E.
  destruct (run_tasks ptol_ok o _ (g_tasks st) (r_steps r)) as [ts| | |] eqn:Ert; try discriminate. cbn [bind] in E.
  destruct (run_tasks_nth _ _ _ _ Ert) as [Lts Hts].
  destruct (_ <? _); [discriminate|].
  destruct (combine_levels (g_comb st) ts) as [comb| | |]; try discriminate. cbn [bind] in E.
  assert (HT : Forall (fun t => grows (o_dim o) (length (g_comb st)) lims (limits t) /\ length (levels t) = length (g_comb st)) ts).
  { apply Forall_forall. intros t' Ht'. apply In_nth_error in Ht'. destruct Ht' as [i Hi].
    destruct (nth_error (g_tasks st) i) as [t|] eqn:Et.
    2:{ apply nth_error_None in Et. apply nth_error_lt in Hi. lia. }
    destruct (Hts i t Et) as (mx & ds & t'' & _ & _ & Hi' & Em). rewrite Hi in Hi'. injection Hi' as <-.
    pose proof (Forall_nth_error _ _ _ _ _ L1 Et) as Elim.
    pose proof (Forall_nth_error _ _ _ _ _ (gi_tasks _ _ _ _ Hg) Et) as T.
    assert (Ell : length (levels t) = length (g_comb st)).
    { rewrite <- (vals_length (levels t)), (t0_vals o _ _ T). apply vals_length. }
    destruct (mcmc_run_limits (o_dim o) mx ds t t') as [A B]; auto; [rewrite Elim; auto|].
    rewrite Elim, Ell in A. split; [exact A|congruence]. }
  destruct ts as [|root w] eqn:Ets; [discriminate|]. rewrite <- Ets in *.
  rewrite Hlim in E.
  destruct (do_bookkeeping ptol_ok o _ _ _ _ _ _) as [[[[rm cb] pl] pp]| | |]; try discriminate.
  cbn [bind] in E.
  assert (HT' := HT). rewrite Ets in HT'. inversion HT' as [|? ? [(R1 & R2 & R3 & R4) R5] HW]; subst x l.
  set (m := merge_limits (length (levels root)) (limits root) ts) in *.
  destruct (merge_spec (o_dim o) (length (levels root)) (limits root) ts) as (M1 & M2 & M3 & M4 & M5); auto.
  { rewrite R5, R3, L3. lia. }
  { rewrite R5, R4. exact L4. }
  { eapply Forall_impl; [|exact HT]. intros t [(A1 & A2 & A3 & A4) A5]. rewrite R5. repeat split; auto; congruence. }
  fold m in M1, M2, M3, M4, M5. rewrite R5 in M4.
  assert (Lm : length m = alloc o) by (unfold m; rewrite merge_limits_length; congruence).
  injection E as <-. simpl in Hmono, Hal.
  assert (Hb : forall t, skipn (length (g_comb st)) (limits t) = skipn (length (g_comb st)) lims ->
             limits (bcast o cb m t) = m).
  { intros t Ht. simpl. rewrite Hlim.
    rewrite (skipn_skipn_eq _ (limits t) m (length (g_comb st)) (length cb)); [|lia|congruence].
    apply firstn_skipn. }
  exists m, ts. split; [|split; [|split; [exact Ert|exact M2]]].
  - constructor; auto.
    + simpl. constructor.
      * apply Hb. simpl. fold m. congruence.
      * apply Forall_forall. intros t' Ht'. apply in_map_iff in Ht'. destruct Ht' as (t & <- & Ht).
        apply Hb. rewrite Forall_forall in HW. destruct (HW t Ht) as [(_ & _ & _ & A) _]. exact A.
    + simpl. apply (Forall_skipn_le _ _ _ (length (g_comb st))); [lia|]. rewrite M4, R4. exact L4.
  - eapply rows_trans; eauto.
Qed.

Lemma linv_round : forall st r st' lims, valid_opts o -> ginv ptol_ok o dlt st -> valid_round o r ->
  linv st lims -> round ptol_ok o st r = Ok st' ->
  exists lims' ts, linv st' lims' /\ rows_ge lims' lims /\ after_steps ptol_ok o st r ts /\
    Forall (fun t => rows_ge lims' (limits t)) ts.
Proof.
  intros st r st' lims Hv Hg Hr HL E. unfold round in E.
  destruct (round_core ptol_ok o st r) as [st1| | |] eqn:Ec; try discriminate. cbn [bind] in E.
  destruct (linv_core st r st1 lims Hv Hg Hr HL Ec) as (lims' & ts & A & B & C & D).
  exists lims', ts. split; [|auto]. destruct (save_due o _ _); [|injection E as <-; exact A].
  unfold save_particle in E. destruct (get (g_tasks st1) (r_task r)); try discriminate. cbn [bind] in E.
  destruct (get (parts a) (r_part r)); try discriminate. cbn [bind] in E. injection E as <-.
  destruct A as [A1 A2 A3 A4 A5]. constructor; auto.
Qed.

Lemma linv_init : forall init, linv (init_state o init) (repeat (initrow (o_dim o)) (alloc o)).
Proof.
  intros init. constructor.
  - simpl. apply Forall_forall. intros t Ht. apply in_map_iff in Ht. destruct Ht as (x & <- & _). reflexivity.
  - apply Forall_forall. intros r Hr. apply repeat_spec in Hr. subst. apply okrow_init.
  - apply repeat_length.
  - apply Forall_skipn_le with (n := O); [lia|]. apply Forall_forall. intros r Hr. apply repeat_spec in Hr. exact Hr.
  - generalize (alloc o). induction n; simpl; constructor; auto. apply Forall_forall. intros r Hr.
    apply repeat_spec in Hr. subst. eapply row_refl, okrow_init.
Qed.

Lemma linv_reachable : forall st, valid_opts o -> reachable ptol_ok o st -> exists lims, linv st lims.
Proof.
  intros st Hv (init & rs & Hi & Hr & E).
  destruct (run_ind ptol_ok o dlt rl (fun _ s => exists lims, linv s lims) Hv rs _ st
    (init_ginv ptol_ok o init Hv Hi) Hr E) as (_ & _ & _ & H & _); [eexists; apply linv_init| |exact H].
  intros done r a b Ga _ Hvr _ Rab [lims HL].
  destruct (linv_round a r b lims Hv Ga Hvr HL (round_rel_round _ _ _ _ _ Rab)) as (l' & _ & HL' & _). eauto.
Qed.

Lemma c12_nested : forall st, valid_opts o -> reachable ptol_ok o st ->
  forall t t', In t (g_tasks st) -> In t' (g_tasks st) ->
    limits t = limits t' /\ length (limits t) = alloc o /\
    forall j k a b, (j < k)%nat -> nth_error (limits t) j = Some a -> nth_error (limits t) k = Some b ->
      row_contains a b.
Proof.
  intros st Hv Hre t t' Ht Ht'. destruct (linv_reachable st Hv Hre) as [lims [L1 L2 L3 L4 L5]].
  rewrite Forall_forall in L1. rewrite (L1 t Ht), (L1 t' Ht'). repeat split; auto.
  intros j k a b Hjk Ha Hb. eapply StronglySorted_nth; eauto.
Qed.

Lemma c12_grow : forall st r st', valid_opts o -> reachable ptol_ok o st -> valid_round o r ->
  round ptol_ok o st r = Ok st' ->
  forall t t' j a, In t (g_tasks st) -> In t' (g_tasks st') -> nth_error (limits t) j = Some a ->
    exists b, nth_error (limits t') j = Some b /\ row_contains b a.
Proof.
  intros st r st' Hv Hre Hr E t t' j a Ht Ht' Ha.
  destruct (linv_reachable st Hv Hre) as [lims HL].
  destruct (linv_round st r st' lims Hv (reachable_ginv ptol_ok o st Hv Hre) Hr HL E) as (l' & ts & HL' & A & _).
  destruct HL as [L1 _ _ _ _]. destruct HL' as [L1' _ _ _ _]. rewrite Forall_forall in L1, L1'.
  rewrite (L1 t Ht) in Ha. rewrite (L1' t' Ht'). eapply rows_ge_nth; eauto.
Qed.

Lemma row_contains_nth : forall a b k iv, row_contains a b -> nth_error a k = Some iv ->
  exists iv', nth_error b k = Some iv' /\ contains iv iv'.
Proof. intros a b k iv H E. eapply Forall2_nth; eauto. Qed.

Lemma c12_records : forall st r st', valid_opts o -> reachable ptol_ok o st -> valid_round o r ->
  round ptol_ok o st r = Ok st' ->
  forall i t mx ds1 d ds2 t1 q xs,
    nth_error (g_tasks st) i = Some t -> nth_error (r_steps r) i = Some (ds1 ++ d :: ds2) ->
    mx = (if Nat.eqb i 0 then g_rmax st else o_maxl o) ->
    mcmc_run ptol_ok o mx t ds1 = Ok t1 -> moves_to t1 d q xs ->
    forall t', In t' (g_tasks st') ->
      exists row, nth_error (limits t') q = Some row /\
        forall k x iv, nth_error xs k = Some x -> nth_error row k = Some iv -> within x iv.
Proof.
  intros st r st' Hv Hre Hr E i t mx ds1 d ds2 t1 q xs Ht Hds Hmx E1 Hm t' Ht'.
  destruct (linv_reachable st Hv Hre) as [lims HL]. pose proof (reachable_ginv ptol_ok o st Hv Hre) as Hg.
  destruct (linv_round st r st' lims Hv Hg Hr HL E) as (l' & ts & HL' & _ & Hts & D).
  unfold after_steps in Hts. destruct (run_tasks_nth _ _ _ _ Hts) as [_ N].
  destruct (N i t Ht) as (mx' & ds & tm & Emx & Eds & Em & Erun). rewrite Hds in Eds. injection Eds as <-.
  assert (mx' = mx).
  { subst mx. destruct i; simpl in *; [congruence|]. apply nth_error_In, repeat_spec in Emx. exact Emx. }
  subst mx'. destruct HL as [L1 L2 _ _ _]. pose proof (Forall_nth_error _ _ _ _ _ L1 Ht) as El.
  destruct (mcmc_run_records (o_dim o) mx ds1 d ds2 t t1 tm q xs) as (t2 & row & _ & G1 & G2 & G3); auto.
  { rewrite El. exact L2. }
  pose proof (Forall_nth_error _ _ _ _ _ D Em) as Dm. simpl in Dm.
  destruct (rows_ge_nth _ _ q row (rows_trans _ _ _ Dm G1) G2) as (row' & Hrow' & Hc).
  destruct HL' as [L1' L2' _ _ _]. rewrite Forall_forall in L1'. rewrite (L1' t' Ht').
  exists row'. split; [exact Hrow'|]. intros k x iv Hx Hiv.
  destruct (row_contains_nth _ _ _ _ Hc Hiv) as (iv' & Hiv' & [C1 C2]).
  destruct (G3 k x iv' Hx Hiv') as [->|[W1 W2]]; [left; reflexivity|right].
  split; eapply dle_trans; eauto.
Qed.

End Limits.
