(** C96: the prior ranges that follow from the settings and the times of the
    data. *)
From Coq Require Import Ascii String Reals ZArith QArith Qreals List Bool Arith Lia Lra Sorted.
From Verif Require Import CPrelude ListLemmas SemisepModel ParamModel ParamSpec ParamProofs PropParam SpanModel SpanProofs PropSpan TagModel TagSpec ParsetModel PropTags RangeModel.

Import ListNotations.
Open Scope R_scope.

(** ** The data *)
(** S is the longest time covered by one curve, q the shortest mean waiting time
    between the observations of one curve. *)
Definition longest_span (sets : list times) (S : R) : Prop :=
  (forall c t t', curve_of sets c -> In t c -> In t' c -> t' - t <= S) /\
  (exists c t t', curve_of sets c /\ In t c /\ In t' c /\ S = t' - t).
Definition shortest_wait (sets : list times) (q : R) : Prop :=
  (forall c w, curve_of sets c -> mean_wait c w -> q <= w) /\ (exists c, curve_of sets c /\ mean_wait c q).
Definition data_ok (lowest : R) (sets : list times) (S q : R) : Prop :=
  sorted_times sets /\ (forall c t, curve_of sets c -> In t c -> lowest <= t) /\
  longest_span sets S /\ shortest_wait sets q /\ 0 < q /\ 0 < S.
(** the pairs given for the widths *)
Definition positive_pairs (upper : nat) (f : nat -> R * R) : Prop := forall k, (k < upper)%nat -> 0 < fst (f k) /\ 0 < snd (f k).

Lemma wait_span : forall lowest sets S q c w, data_ok lowest sets S q -> curve_of sets c -> mean_wait c w -> w <= S.
Proof.
  intros lowest sets S q c w (So & _ & [L _] & _ & _ & Sp) C W. pose proof (proj1 W) as N2.
  apply (mean_wait_iff c w N2) in W.
  assert (N : c <> []) by (intro; subst; cbn in N2; lia).
  assert (A := L c _ _ C (hd_in c N) (last_in c 0 N)).
  assert (K : 1 <= INR (length c - 1)) by (apply (le_INR 1); lia).
  subst w. apply Rmult_le_reg_r with (INR (length c - 1)); [lra|].
  unfold curve_span, Rdiv. rewrite Rmult_assoc, Rinv_l, Rmult_1_r by lra. nra.
Qed.

Lemma measured : forall lowest sets S q, data_ok lowest sets S q ->
  exists mx c l, spans lowest sets = Ok (S, mx) /\ cadences S sets = Ok (c, l, q).
Proof.
  intros lowest sets S q D. pose proof D as (So & Lo & [L1 (c1 & t & t' & C1 & I & I' & E)] & [Q1 (c2 & C2 & W)] & Qp & Sp).
  destruct (C80_span lowest sets So Lo) as (s & mx & Es & _ & A & B & _).
  assert (s = S).
  { apply Rle_antisym.
    - destruct B as [->|(c & a & b & C & Ia & Ib & ->)]; [lra|]. eapply L1; eassumption.
    - rewrite E. apply (A c1); assumption. }
  subst s. destruct (C80_cadence S sets) as (c & l & Ec & H1 & H2 & H3 & H4 & H5 & H6).
  exists mx, c, l. split; [exact Es|]. rewrite Ec. enough (Rmin c l = q) as -> by reflexivity.
  assert (Wc : forall k, curve_of sets k -> mean_wait k q -> Rmin c l <= q).
  { intros k (d & Id & [->|Ik]) Hk.
    - pose proof (H3 d q Id Hk). pose proof (Rmin_l c l). lra.
    - pose proof (H5 d k q Id Ik Hk). pose proof (Rmin_r c l). lra. }
  assert (QS : q <= S) by (eapply wait_span; eassumption).
  apply Rle_antisym; [eapply Wc; eassumption|]. apply Rmin_glb.
  - destruct H4 as [->|(d & Id & Hd)]; [exact QS|]. apply (Q1 (con_t d)); [exists d; auto|exact Hd].
  - destruct H6 as [->|(d & k & Id & Ik & Hk)]; [exact QS|]. apply (Q1 k); [exists d; auto|exact Hk].
Qed.

(** ** The run *)
Section Run.
Variables (m : mode) (lowest : R) (sets : list times) (S q : R) (L : limits).
Variable widths : option (nat -> R * R).
Variables lags ratios : nat -> R * R.
Variables upper ng uniform : nat.
Variable uniform_var : bool.
Variables var std : arr.
Variable r0 : ranges.
Notation run := (prior_ranges sets m lowest L widths lags ratios upper ng uniform uniform_var var std r0).
(** the slot of a role of line j of set i *)
Notation at_slot := (code_slot (n_sets sets) (n_lines sets) ng uniform uniform_var).

(** the ends of the lags the run allows *)
Definition lag_from : R := Rmax (lag_low L) (- (S / 2)).
Definition lag_to : R := if Rlt_dec (lag_upp L) 0 then S / 2 else Rmin (lag_upp L) (S / 2).

Definition wp_of : nat -> R * R :=
  match widths with
  | Some f => fun k => (ln (fst (f k)), ln (snd (f k)))
  | None => fun _ => line_range_model S q (Limits (lag_low L) (upper_lag (lag_upp L) S) (width_low L) (width_upp L) (negative L) (prior L)) 3
  end.
Definition lr_of : nat -> R * R := line_range_model S q (Limits (lag_low L) (upper_lag (lag_upp L) S) (width_low L) (width_upp L) (negative L) (prior L)).
Definition given_of : bool := match widths with Some _ => true | None => false end.
Definition g_of : ranges :=
  match m with
  | General => set_par_range_line (n_sets sets) (n_lines sets) ng uniform uniform_var var std (var_range_model S) lr_of (prior L) (lag_prior_pr (prior L) ng) lags wp_of given_of r0
  | Photo => set_par_range_pmap (n_sets sets) (n_lines sets) ng uniform uniform_var var std (var_range_model S) lr_of lags (photo_widths upper wp_of) ratios r0
  | Virtual => set_par_range_vmap (n_sets sets) (n_lines sets) ng uniform uniform_var (var_range_model S) lr_of (prior L) (lag_prior_pr (prior L) ng) lags wp_of given_of r0
  end.
Definition bad_pair (f : nat -> R * R) (k : nat) : bool :=
  if Rle_dec (fst (f k)) 0 then true else if Rle_dec (snd (f k)) 0 then true else false.
Lemma bad_none : forall f, positive_pairs upper f -> existsb (bad_pair f) (seq 0 upper) = false.
Proof.
  intros f P. apply not_true_is_false. intro H. apply existsb_exists in H. destruct H as (k & I & B).
  apply in_seq in I. destruct (P k) as [P1 P2]; [lia|]. unfold bad_pair in B.
  destruct Rle_dec; [lra|]. destruct Rle_dec; [lra|discriminate].
Qed.
Lemma bad_some : forall f, ~ positive_pairs upper f -> existsb (bad_pair f) (seq 0 upper) = true.
Proof.
  intros f P. destruct (existsb (bad_pair f) (seq 0 upper)) eqn:E; [reflexivity|]. exfalso. apply P. intros k Hk.
  assert (B : bad_pair f k = false).
  { destruct (bad_pair f k) eqn:B; [|reflexivity]. assert (X : existsb (bad_pair f) (seq 0 upper) = true).
    { apply existsb_exists. exists k. split; [apply in_seq; lia|exact B]. } congruence. }
  unfold bad_pair in B. destruct Rle_dec; [discriminate|]. destruct Rle_dec; [discriminate|]. lra.
Qed.
Lemma run_ok : data_ok lowest sets S q -> (forall f, widths = Some f -> positive_pairs upper f) -> run = Ok g_of.
Proof.
  intros D P. destruct (measured _ _ _ _ D) as (mx & c & l & E1 & E2). unfold prior_ranges. rewrite E1. cbn [bind fst]. rewrite E2. cbn [bind snd].
  unfold width_prior_model, g_of, given_of, wp_of. destruct widths as [f|].
  - fold (bad_pair f). rewrite (bad_none f (P f eq_refl)). cbn [bind]. reflexivity.
  - cbn [bind]. reflexivity.
Qed.
Lemma run_exit : data_ok lowest sets S q -> forall f, widths = Some f -> ~ positive_pairs upper f -> run = Exit.
Proof.
  intros D f Ef P. destruct (measured _ _ _ _ D) as (mx & c & l & E1 & E2). unfold prior_ranges. rewrite E1. cbn [bind fst]. rewrite E2. cbn [bind snd].
  unfold width_prior_model. rewrite Ef. fold (bad_pair f). rewrite (bad_some f P). reflexivity.
Qed.

(** The run gets its ranges unless a width given is not positive; then it stops. *)
Theorem C96_run : data_ok lowest sets S q ->
  ((forall f, widths = Some f -> positive_pairs upper f) <-> exists g, run = Ok g) /\
  ((exists f, widths = Some f /\ ~ positive_pairs upper f) <-> run = Exit).
Proof.
  intro D. assert (A := run_ok D). assert (B := run_exit D).
  assert (C : (forall f, widths = Some f -> positive_pairs upper f) \/ exists f, widths = Some f /\ ~ positive_pairs upper f).
  { destruct widths as [f|]; [|left; discriminate].
    destruct (existsb (bad_pair f) (seq 0 upper)) eqn:E.
    - right. exists f. split; [reflexivity|]. intro P. rewrite (bad_none f P) in E. discriminate.
    - left. intros f' [= <-]. destruct (Classical_Prop.classic (positive_pairs upper f)) as [P|P]; [exact P|]. rewrite (bad_some f P) in E. discriminate. }
  split; split.
  - intro P. exists g_of. auto.
  - intros (g & Eg). destruct C as [C|(f & Ef & P)]; [exact C|]. rewrite (B f Ef P) in Eg. discriminate.
  - intros (f & Ef & P). eauto.
  - intro E. destruct C as [C|C]; [|exact C]. rewrite (A C) in E. discriminate.
Qed.

Lemma run_inv : forall g, data_ok lowest sets S q -> run = Ok g -> g = g_of.
Proof.
  intros g D E. destruct (C96_run D) as [[_ H] _]. assert (P := H (ex_intro _ g E)). rewrite (run_ok D P) in E. congruence.
Qed.

Lemma lr2 : lr_of 2 = (lag_from, lag_to).
Proof.
  unfold lr_of, line_range_model, lag_from, lag_to, upper_lag. cbn [RangeModel.lag_low RangeModel.lag_upp]. f_equal.
  - f_equal. lra.
  - destruct Rlt_dec; [|reflexivity]. apply Rmin_left. lra.
Qed.

(** Systematic errors and amplitudes: the values the parameters stand for. *)
Theorem C96_amplitude : forall g i j r s, data_ok lowest sets S q -> run = Ok g -> role_ok ng r -> at_slot i j r s ->
  (r = SysErr -> exp (lo g s) = 1 /\ exp (hi g s) = 11) /\
  (forall k, r = Amp k ->
    if match m with Photo => (0 <? k)%nat | _ => false end then (lo g s, hi g s) = ratios (k - 1)%nat
    else if negative L && negb (match m with Virtual => (k =? 0)%nat && (line_no (n_lines sets) uniform i j =? 0)%nat | _ => false end)
    then lo g s = -10 /\ hi g s = 10
    else (negative L = false -> exp (hi g s) = 10) /\
      exp (lo g s) = match m with Virtual => if (k =? 0)%nat && (line_no (n_lines sets) uniform i j =? 0)%nat then 0.1 else / 10 ^ 5 | _ => / 10 ^ 5 end).
Proof.
  intros g i j r s D E Hr H. apply (run_inv g D) in E. subst g.
  destruct (C38_ranges (n_sets sets) (n_lines sets) ng uniform uniform_var var std (var_range_model S) lr_of (prior L) (lag_prior_pr (prior L) ng) lags wp_of ratios given_of r0 i j r s Hr H) as (R1 & _ & R3).
  destruct (C38_ranges (n_sets sets) (n_lines sets) ng uniform uniform_var var std (var_range_model S) lr_of (prior L) (lag_prior_pr (prior L) ng) lags (photo_widths upper wp_of) ratios given_of r0 i j r s Hr H) as (_ & R2 & _).
  unfold range_of in *. split.
  - intros ->. cbn [meant] in *. assert (X : (lo g_of s, hi g_of s) = lr_of 0) by (unfold g_of; destruct m; assumption).
    unfold lr_of, line_range_model in X. injection X as -> ->. rewrite !exp_ln by lra. lra.
  - intros k ->. cbn [meant] in *.
    assert (A1 : lr_of 1 = if negative L then (-10, 10) else (ln (1 / 10 ^ 5), ln 10)) by reflexivity.
    unfold g_of. destruct m.
    + cbn [andb negb]. rewrite andb_true_r. rewrite A1 in R1. destruct (negative L).
      * injection R1 as -> ->. lra.
      * injection R1 as -> ->. rewrite !exp_ln by lra. split; [auto|lra].
    + destruct k as [|k].
      * cbn [Nat.ltb Nat.leb negb]. rewrite andb_true_r. rewrite A1 in R2. destruct (negative L).
        -- injection R2 as -> ->. lra.
        -- injection R2 as -> ->. rewrite !exp_ln by lra. split; [auto|lra].
      * cbn [Nat.ltb Nat.leb]. rewrite R2. f_equal. lia.
    + cbn [andb]. rewrite A1 in R3. destruct ((k =? 0)%nat && (line_no (n_lines sets) uniform i j =? 0)%nat); cbn [negb].
      * rewrite andb_false_r. assert (lo (set_par_range_vmap (n_sets sets) (n_lines sets) ng uniform uniform_var (var_range_model S) lr_of (prior L)
          (lag_prior_pr (prior L) ng) lags wp_of given_of r0) s = ln 0.1) as -> by congruence.
        rewrite exp_ln by lra. split; [|reflexivity]. intro N. rewrite N in R3. injection R3 as _ ->. apply exp_ln. lra.
      * rewrite andb_true_r. destruct (negative L).
        -- injection R3 as -> ->. lra.
        -- injection R3 as -> ->. rewrite !exp_ln by lra. split; [auto|lra].
Qed.

(** Centres, in days. *)
Theorem C96_centre : forall g i j k s, data_ok lowest sets S q -> run = Ok g -> (k < ng)%nat -> at_slot i j (Centre k) s ->
  (m = Photo \/ prior L = 4%nat -> (lo g s, hi g s) = lags k) /\
  (m <> Photo -> prior L = 0%nat -> lo g s = lag_from /\ hi g s = lag_to) /\
  (m <> Photo -> prior L <> 0%nat -> prior L <> 4%nat ->
    lo g s = lag_from + (lag_to - lag_from) * (INR k / INR ng) /\
    hi g s = lag_from + (lag_to - lag_from) * (INR (k + 1) / INR ng)).
Proof.
  intros g i j k s D E Hr H. apply (run_inv g D) in E. subst g.
  destruct (C38_ranges (n_sets sets) (n_lines sets) ng uniform uniform_var var std (var_range_model S) lr_of (prior L) (lag_prior_pr (prior L) ng) lags wp_of ratios given_of r0 i j (Centre k) s Hr H) as (R1 & _ & R3).
  destruct (C38_ranges (n_sets sets) (n_lines sets) ng uniform uniform_var var std (var_range_model S) lr_of (prior L) (lag_prior_pr (prior L) ng) lags (photo_widths upper wp_of) ratios given_of r0 i j (Centre k) s Hr H) as (_ & R2 & _).
  unfold range_of in *. cbn [meant] in *.
  assert (G : m <> Photo -> (lo g_of s, hi g_of s) = lag_interval ng lr_of (prior L) (lag_prior_pr (prior L) ng) lags k)
    by (intro; unfold g_of; destruct m; [assumption|congruence|assumption]).
  assert (N : INR ng <> 0) by (apply not_0_INR; lia).
  clear R1 R3. unfold lag_interval in G. rewrite lr2 in G. split; [|split].
  - assert (GP : m = Photo -> (lo g_of s, hi g_of s) = lags k) by (intro M; unfold g_of; rewrite M; exact R2).
    assert (M : m = Photo \/ m <> Photo) by (destruct m; auto; right; discriminate).
    intros [M'|P]; [auto|]. destruct M as [M|M]; [auto|]. rewrite (G M), P. reflexivity.
  - intros M P. specialize (G M). rewrite P in G. unfold lag_prior_pr in G. cbn [Nat.eqb andb] in G.
    destruct (Nat.ltb_spec 1 ng).
    + injection G as -> ->. auto.
    + assert (ng = 1)%nat as E1 by lia. assert (k = 0)%nat as Ek by lia. rewrite E1, Ek in G. cbn [Nat.eqb] in G. injection G as -> ->. cbn. split; field.
  - intros M P P4. specialize (G M). unfold lag_prior_pr in G.
    destruct (Nat.eqb_spec (prior L) 4); [contradiction|]. destruct (Nat.eqb_spec (prior L) 0); [contradiction|].
    cbn [andb Nat.eqb] in G. injection G as -> ->. split; field; exact N.
Qed.

(** Widths: the standard deviation, or half width, in days, which the parameter
    stands for.  The photometric mode lets the first component be as narrow as
    0.01 days and keeps the others above 1 day. *)
Definition photo_low (k : nat) (w : R) : R :=
  match m with Photo => if (k =? 0)%nat then Rmin w (1 / 100) else Rmax w 1 | _ => w end.
Lemma exp_max : forall x y, exp (Rmax x y) = Rmax (exp x) (exp y).
Proof.
  intros x y. unfold Rmax. destruct (Rle_dec x y) as [A|A], (Rle_dec (exp x) (exp y)) as [B|B]; try reflexivity.
  - exfalso. apply B. destruct A as [A| ->]; [left; apply exp_increasing; exact A|lra].
  - exfalso. assert (exp y < exp x) by (apply exp_increasing; lra). lra.
Qed.
Lemma exp_min : forall x y, exp (Rmin x y) = Rmin (exp x) (exp y).
Proof.
  intros x y. unfold Rmin. destruct (Rle_dec x y) as [A|A], (Rle_dec (exp x) (exp y)) as [B|B]; try reflexivity.
  - exfalso. apply B. destruct A as [A| ->]; [left; apply exp_increasing; exact A|lra].
  - exfalso. assert (exp y < exp x) by (apply exp_increasing; lra). lra.
Qed.
Lemma photo_wp : forall wp k, m = Photo -> (k < upper)%nat ->
  exp (fst (photo_widths upper wp k)) = photo_low k (exp (fst (wp k))) /\ snd (photo_widths upper wp k) = snd (wp k).
Proof.
  intros wp k M Hk. unfold photo_widths, photo_low. rewrite M. destruct (k =? 0)%nat; cbn [fst snd].
  - rewrite exp_min, exp_ln by lra. auto.
  - apply Nat.ltb_lt in Hk. rewrite Hk. cbn [fst snd]. rewrite exp_max, exp_ln by lra. auto.
Qed.
Lemma photo_low_other : forall k w, m <> Photo -> photo_low k w = w.
Proof. intros k w M. unfold photo_low. destruct m; congruence. Qed.
Theorem C96_width : forall g i j k s, data_ok lowest sets S q -> (ng <= upper)%nat -> run = Ok g -> (k < ng)%nat -> at_slot i j (Width k) s ->
  (forall w, width_low L = Some w -> 0 < w) -> (forall w, width_upp L = Some w -> 0 < w) ->
  match widths with
  | Some f => exp (lo g s) = photo_low k (fst (f k)) /\ exp (hi g s) = snd (f k)
  | None =>
    if match m with Photo => false | _ => (prior L =? 3)%nat && (1 <? ng)%nat end
    then lag_from < lag_to ->
      exp (lo g s) = (lag_to - lag_from) / INR (ng - 1) / 2 /\ exp (hi g s) = (lag_to - lag_from) / INR (ng - 1)
    else
      exp (lo g s) = photo_low k (match width_low L with Some w => w | None => q / 10 end) /\
      exp (hi g s) = match width_upp L with Some w => Rmin w (S / 3) | None => S / 3 end
  end.
Proof.
  intros g i j k s D Hu E Hr H Wl Wu. pose proof (run_inv g D E). subst g.
  assert (P : forall f, widths = Some f -> positive_pairs upper f) by (apply (C96_run D); eauto). clear E.
  assert (D' := D). destruct D' as (_ & _ & _ & _ & Qp & Sp).
  assert (Hk : (k < upper)%nat) by lia.
  destruct (C38_ranges (n_sets sets) (n_lines sets) ng uniform uniform_var var std (var_range_model S) lr_of (prior L) (lag_prior_pr (prior L) ng) lags wp_of ratios given_of r0 i j (Width k) s Hr H) as (R1 & _ & R3).
  destruct (C38_ranges (n_sets sets) (n_lines sets) ng uniform uniform_var var std (var_range_model S) lr_of (prior L) (lag_prior_pr (prior L) ng) lags (photo_widths upper wp_of) ratios given_of r0 i j (Width k) s Hr H) as (_ & R2 & _).
  unfold range_of in *. cbn [meant] in *.
  assert (G : (lo g_of s, hi g_of s) = match m with Photo => photo_widths upper wp_of k | _ => width_interval ng lr_of (prior L) wp_of given_of k end)
    by (unfold g_of; destruct m; assumption).
  clear R1 R2 R3.
  (* the values before the photometric mode changes them *)
  assert (B : match m with Photo => true | _ => given_of || negb ((prior L =? 3)%nat && (1 <? ng)%nat) end = true ->
    exp (lo g_of s) = photo_low k (exp (fst (wp_of k))) /\ exp (hi g_of s) = exp (snd (wp_of k))).
  { intro C. destruct (match m with Photo => true | _ => false end) eqn:M.
    - assert (Mp : m = Photo) by (destruct m; congruence). rewrite Mp in G. destruct (photo_wp wp_of k Mp Hk) as [<- <-].
      rewrite <- G. auto.
    - assert (G' : (lo g_of s, hi g_of s) = wp_of k).
      { rewrite G. unfold width_interval, given_of, wp_of, lr_of in *. destruct m; try discriminate; destruct widths; try reflexivity; cbn [orb] in C; apply negb_true_iff in C; rewrite C; reflexivity. }
      rewrite <- G'. unfold photo_low. destruct m; try discriminate; auto. }
  unfold width_interval in G. rewrite lr2 in G. destruct widths as [f|] eqn:Ew.
  - destruct (P f eq_refl k Hk) as [P1 P2].
    destruct B as [-> ->]; [unfold given_of; rewrite Ew; destruct m; reflexivity|].
    unfold wp_of. rewrite Ew. cbn [fst snd]. rewrite !exp_ln by assumption. auto.
  - assert (W : exp (fst (lr_of 3)) = match width_low L with Some w => w | None => q / 10 end /\
      exp (snd (lr_of 3)) = match width_upp L with Some w => Rmin w (S / 3) | None => S / 3 end).
    { unfold lr_of, line_range_model. cbn [fst snd RangeModel.width_low RangeModel.width_upp]. split.
      - destruct (width_low L) as [w|]; apply exp_ln; [auto|lra].
      - destruct (width_upp L) as [w|]; [|apply exp_ln; lra]. specialize (Wu w eq_refl).
        rewrite exp_min, !exp_ln by lra. reflexivity. }
    assert (Wp : wp_of k = lr_of 3) by (unfold wp_of; rewrite Ew; reflexivity). rewrite Wp in B. destruct W as [W1 W2]. rewrite W1, W2 in B.
    destruct (match m with Photo => false | _ => (prior L =? 3)%nat && (1 <? ng)%nat end) eqn:C.
    + intro Lt. assert (M : m <> Photo) by (destruct m; congruence). assert (C' : (prior L =? 3)%nat && (1 <? ng)%nat = true) by (destruct m; congruence).
      apply andb_true_iff in C'. destruct C' as [C1 C2]. assert (C' := C2). apply Nat.ltb_lt in C'.
      assert (0 < INR (ng - 1)) by (apply lt_0_INR; lia).
      assert (0 < (lag_to - lag_from) / INR (ng - 1)) by (apply Rdiv_lt_0_compat; lra).
      assert (Gn : given_of = false) by (unfold given_of; rewrite Ew; reflexivity). rewrite Gn, C1, C2 in G. cbn [andb] in G.
      destruct m; [|congruence|]; injection G as -> ->; rewrite !exp_ln by lra; auto.
    + apply B. destruct m; [|reflexivity|]; rewrite C; apply orb_true_r.
Qed.

(** Variability parameters, c = 0 systematic error, 1 amplitude, 2 time scale:
    five standard deviations about the value of the continuum fit, within fixed
    bounds; the mode without continuum uses the bounds alone. *)
Definition bound_low (c : nat) : R := match c with 1%nat => / 10 ^ 4 | _ => 1 end.
Definition bound_upp (c : nat) : R := match c with O => 11 | 1%nat => 10 | _ => 2 * PI * S end.
Theorem C96_variability : forall g i c, data_ok lowest sets S q -> run = Ok g -> (i < n_sets sets)%nat -> (c < 3)%nat ->
  let s := (idx_con_pm uniform_var i + c)%nat in
  match m with
  | Virtual => exp (lo g s) = bound_low c /\ exp (hi g s) = bound_upp c
  | _ => exp (lo g s) = Rmax (exp (var s - 5 * std s)) (bound_low c) /\
         exp (hi g s) = Rmin (exp (var s + 5 * std s)) (bound_upp c)
  end.
Proof.
  intros g i c D E Hi Hc s. apply (run_inv g D) in E. subst g. destruct D as (_ & _ & _ & _ & Qp & Sp).
  assert (PI0 := PI_RGT_0).
  assert (S0 : exists a, idx_con_pm uniform_var i = (3 * a)%nat /\ (3 * a + c < num_params_var (n_sets sets) uniform_var)%nat).
  { unfold idx_con_pm, num_params_var. destruct uniform_var; [exists 0%nat; lia|exists i; lia]. }
  destruct S0 as (a & Ea & Ha). subst s. rewrite Ea.
  assert (B1 : exp (fst (var_range_model S c)) = bound_low c).
  { destruct c as [|[|[|c]]]; cbn [var_range_model bound_low fst]; [..|lia]; rewrite exp_ln by lra; lra. }
  assert (B2 : exp (snd (var_range_model S c)) = bound_upp c).
  { destruct c as [|[|[|c]]]; cbn [var_range_model bound_upp snd]; [..|lia]; rewrite exp_ln by nra; lra. }
  assert (Mx : forall x y, exp (Rmax x y) = Rmax (exp x) (exp y)).
  { intros x y. unfold Rmax. destruct (Rle_dec x y) as [A|A], (Rle_dec (exp x) (exp y)) as [B|B]; try reflexivity.
    - exfalso. apply B. destruct A as [A| ->]; [left; apply exp_increasing; exact A|lra].
    - exfalso. assert (exp y < exp x) by (apply exp_increasing; lra). lra. }
  assert (Mn : forall x y, exp (Rmin x y) = Rmin (exp x) (exp y)).
  { intros x y. unfold Rmin. destruct (Rle_dec x y) as [A|A], (Rle_dec (exp x) (exp y)) as [B|B]; try reflexivity.
    - exfalso. apply B. destruct A as [A| ->]; [left; apply exp_increasing; exact A|lra].
    - exfalso. assert (exp y < exp x) by (apply exp_increasing; lra). lra. }
  assert (V : (lo g_of (3 * a + c)%nat, hi g_of (3 * a + c)%nat) =
    match m with Virtual => var_range_model S c | _ => var_interval var std (var_range_model S) (3 * a)%nat c end).
  { unfold g_of. destruct m; apply (set_ranges_spec (n_sets sets) (n_lines sets) ng uniform uniform_var); assumption. }
  assert (V1 := f_equal fst V). assert (V2 := f_equal snd V). cbn [fst snd] in V1, V2. clear V.
  destruct m; rewrite V1, V2; unfold var_interval; cbn [fst snd]; rewrite ?Mx, ?Mn, B1, B2; auto.
Qed.

(** With the lag priors 1 to 3 the components of a line share the allowed lags
    out in order: intervals of equal length, each starting where the one before
    ends, from the lowest to the highest lag. *)
Theorem C96_tile : forall g i j (sl : nat -> nat), data_ok lowest sets S q -> run = Ok g -> m <> Photo -> (1 <= prior L <= 3)%nat -> (0 < ng)%nat ->
  (forall k, (k < ng)%nat -> at_slot i j (Centre k) (sl k)) ->
  lo g (sl 0%nat) = lag_from /\ hi g (sl (ng - 1)%nat) = lag_to /\
  (forall k, (k + 1 < ng)%nat -> hi g (sl k) = lo g (sl (k + 1)%nat)) /\
  (forall k, (k < ng)%nat -> (hi g (sl k) - lo g (sl k)) * INR ng = lag_to - lag_from) /\
  (forall x, lag_from <= x <= lag_to -> exists k, (k < ng)%nat /\ lo g (sl k) <= x <= hi g (sl k)).
Proof.
  intros g i j sl D E M P N H.
  assert (C : forall k, (k < ng)%nat -> lo g (sl k) = lag_from + (lag_to - lag_from) * (INR k / INR ng) /\
    hi g (sl k) = lag_from + (lag_to - lag_from) * (INR (k + 1) / INR ng)).
  { intros k Hk. apply (C96_centre g i j k (sl k)); [assumption..|apply H; exact Hk|exact M|lia|lia]. }
  assert (N0 : 0 < INR ng) by (apply lt_0_INR; exact N).
  split; [|split; [|split; [|split]]].
  - destruct (C 0%nat N) as [-> _]. cbn [INR]. field. lra.
  - destruct (C (ng - 1)%nat) as [_ ->]; [lia|]. replace (ng - 1 + 1)%nat with ng by lia. field. lra.
  - intros k Hk. destruct (C k) as [_ ->]; [lia|]. destruct (C (k + 1)%nat) as [-> _]; [lia|]. reflexivity.
  - intros k Hk. destruct (C k Hk) as [-> ->]. rewrite plus_INR. cbn [INR]. field. lra.
  - intros x [X1 X2].
    assert (G : forall n, (n <= ng)%nat -> (exists k, (k < n)%nat /\ lo g (sl k) <= x <= hi g (sl k)) \/ lag_from + (lag_to - lag_from) * (INR n / INR ng) <= x).
    { induction n as [|n IH]; intro Hn.
      - right. cbn [INR]. replace (lag_from + (lag_to - lag_from) * (0 / INR ng)) with lag_from by (field; lra). exact X1.
      - destruct IH as [(k & K1 & K2)|IH]; [lia|left; exists k; split; [lia|exact K2]|].
        destruct (C n) as [C1 C2]; [lia|].
        destruct (Rle_lt_dec x (hi g (sl n))) as [B|B].
        + left. exists n. split; [lia|]. rewrite C1. split; [exact IH|exact B].
        + right. rewrite C2, Nat.add_1_r in B. lra. }
    destruct (G (ng)) as [?|X]; [lia|assumption|]. exists (ng - 1)%nat. split; [lia|].
    destruct (C (ng - 1)%nat) as [C1 C2]; [lia|]. replace (ng - 1 + 1)%nat with ng in C2 by lia.
    replace (INR ng / INR ng) with 1 in X, C2 by (field; lra). rewrite C1, C2. split; [|lra].
    assert (INR (ng - 1) / INR ng <= 1).
    { apply Rmult_le_reg_r with (INR ng); [lra|]. unfold Rdiv. rewrite Rmult_assoc, Rinv_l, Rmult_1_r by lra. rewrite Rmult_1_l. apply le_INR. lia. }
    nra.
Qed.

(** No range is empty if the lower lag limit is below both the upper one and half
    the span, and the width limits leave room. *)
Definition sensible : Prop :=
  lag_low L < S / 2 /\ (0 <= lag_upp L -> lag_low L < lag_upp L)  /\
  (forall w, width_low L = Some w -> 0 < w < S / 3) /\
  (forall w, width_upp L = Some w -> 0 < w /\ match width_low L with Some v => v < w | None => q / 10 < w end) /\
  (m <> General -> negative L = false).
Lemma from_to : 0 < S -> sensible -> lag_from < lag_to.
Proof.
  intros Sp (A & B & _). unfold lag_from, lag_to. destruct Rlt_dec as [C|C].
  - apply Rmax_lub_lt; lra.
  - assert (lag_low L < lag_upp L) by (apply B; lra).
    apply Rmin_glb_lt; apply Rmax_lub_lt; lra.
Qed.
Theorem C96_nonempty : forall g i j r s, data_ok lowest sets S q -> (ng <= upper)%nat -> run = Ok g -> role_ok ng r -> at_slot i j r s ->
  m <> Photo -> (prior L <= 3)%nat -> widths = None -> sensible -> lo g s < hi g s.
Proof.
  intros g i j r s D Hu E Hr H M P W Hs. assert (D' := D). destruct D' as (_ & _ & _ & [_ (c & Cc & Wc)] & Qp & Sp).
  assert (QS : q <= S) by (eapply wait_span; eassumption).
  assert (FT := from_to Sp Hs). destruct Hs as (A & B & Wl & Wu & Ng).
  assert (X : exp (lo g s) < exp (hi g s) -> lo g s < hi g s) by apply exp_lt_inv.
  destruct (C96_amplitude g i j r s D E Hr H) as [A1 A2].
  destruct r as [|k|k|k].
  - destruct (A1 eq_refl) as [A3 A4]. apply X. lra.
  - specialize (A2 k eq_refl). replace (match m with Photo => (0 <? k)%nat | _ => false end) with false in A2 by (destruct m; congruence).
    destruct (negative L) eqn:NL.
    + assert (m = General) as EM by (destruct m; [reflexivity|contradiction|specialize (Ng ltac:(discriminate)); discriminate]).
      rewrite EM in A2. cbn [andb negb] in A2. lra.
    + cbn [andb] in A2. destruct A2 as [A3 A4]. apply X. rewrite (A3 eq_refl), A4. destruct m; [lra|lra|].
      destruct ((k =? 0)%nat && (line_no (n_lines sets) uniform i j =? 0)%nat); lra.
  - destruct (C96_centre g i j k s D E Hr H) as (_ & C0 & C1).
    destruct (Nat.eq_dec (prior L) 0) as [P0|P0].
    + destruct (C0 M P0) as [-> ->]. exact FT.
    + destruct (C1 M P0 ltac:(lia)) as [-> ->]. cbn [role_ok] in Hr. assert (0 < INR ng) by (apply lt_0_INR; lia).
      assert (INR k / INR ng < INR (k + 1) / INR ng).
      { apply Rmult_lt_compat_r; [apply Rinv_0_lt_compat; assumption|apply lt_INR; lia]. }
      nra.
  - assert (C := C96_width g i j k s D Hu E Hr H (fun w Hw => proj1 (Wl w Hw)) (fun w Hw => proj1 (Wu w Hw))).
    rewrite W, (photo_low_other _ _ M) in C. apply X. replace (match m with Photo => false | _ => (prior L =? 3)%nat && (1 <? ng)%nat end) with ((prior L =? 3)%nat && (1 <? ng)%nat) in C by (destruct m; congruence).
    destruct ((prior L =? 3)%nat && (1 <? ng)%nat) eqn:C3.
    + destruct (C FT) as [-> ->]. apply andb_true_iff in C3. destruct C3 as [_ C3]. apply Nat.ltb_lt in C3.
      assert (0 < INR (ng - 1)) by (apply lt_0_INR; lia). assert (0 < (lag_to - lag_from) / INR (ng - 1)) by (apply Rdiv_lt_0_compat; lra). lra.
    + destruct C as [-> ->]. destruct (width_low L) as [wl|] eqn:El, (width_upp L) as [wu|] eqn:Eu.
      * destruct (Wl wl eq_refl), (Wu wu eq_refl). apply Rmin_glb_lt; lra.
      * destruct (Wl wl eq_refl). lra.
      * destruct (Wu wu eq_refl). apply Rmin_glb_lt; lra.
      * lra.
Qed.

(** Every lag in the range of a centre lies within half the span of zero and
    within the limits, a negative upper limit counting as none; every width in
    the range of a width within the limits, and three times the width within
    the span, unless the lag prior is 3. *)
Theorem C96_inside : forall g i j k s x, data_ok lowest sets S q -> (ng <= upper)%nat -> run = Ok g -> (k < ng)%nat ->
  m <> Photo -> (prior L <= 3)%nat -> lo g s <= x <= hi g s ->
  (at_slot i j (Centre k) s -> Rabs x <= S / 2 /\ lag_low L <= x /\ (0 <= lag_upp L -> x <= lag_upp L)) /\
  (at_slot i j (Width k) s -> widths = None -> (prior L <> 3 \/ ng = 1)%nat ->
    (forall w, width_low L = Some w -> 0 < w) -> (forall w, width_upp L = Some w -> 0 < w) ->
    3 * exp x <= S /\ (forall w, width_low L = Some w -> w <= exp x) /\ (forall w, width_upp L = Some w -> exp x <= w) /\
    (width_low L = None -> q / 10 <= exp x)).
Proof.
  intros g i j k s x D Hu E Hk M P [X1 X2]. split.
  - intro H.
    assert (Y : lag_from <= x <= lag_to).
    { destruct (C96_centre g i j k s D E Hk H) as (_ & C0 & C1). destruct (Nat.eq_dec (prior L) 0) as [P0|P0].
      - destruct (C0 M P0). lra.
      - destruct (C1 M P0 ltac:(lia)) as [L1 L2]. assert (N0 : 0 < INR ng) by (apply lt_0_INR; lia).
        assert (K0 := pos_INR k).
        assert (Ik : 0 < / INR ng) by (apply Rinv_0_lt_compat; exact N0).
        assert (K1 : 0 <= INR k / INR ng) by (unfold Rdiv; nra).
        assert (K2 : INR (k + 1) / INR ng <= 1).
        { apply Rmult_le_reg_r with (INR ng); [lra|]. unfold Rdiv. rewrite Rmult_assoc, Rinv_l, Rmult_1_r by lra. rewrite Rmult_1_l. apply le_INR. lia. }
        assert (K3 : INR k / INR ng < INR (k + 1) / INR ng) by (apply Rmult_lt_compat_r; [exact Ik|apply lt_INR; lia]).
        assert (0 <= lag_to - lag_from) by nra. nra. }
    unfold lag_from, lag_to in Y. destruct D as (_ & _ & _ & _ & _ & Sp).
    assert (Y1 := Rmax_l (lag_low L) (- (S / 2))). assert (Y2 := Rmax_r (lag_low L) (- (S / 2))).
    destruct Rlt_dec.
    + split; [apply Rabs_le; lra|split; [lra|intro; lra]].
    + assert (Y3 := Rmin_l (lag_upp L) (S / 2)). assert (Y4 := Rmin_r (lag_upp L) (S / 2)).
      split; [apply Rabs_le; lra|split; [lra|intro; lra]].
  - intros H W Q Wl Wu. assert (C := C96_width g i j k s D Hu E Hk H Wl Wu). rewrite W, (photo_low_other _ _ M) in C.
    replace (match m with Photo => false | _ => (prior L =? 3)%nat && (1 <? ng)%nat end) with false in C.
    2:{ symmetry. destruct Q as [Q|Q]; [apply Nat.eqb_neq in Q; rewrite Q|rewrite Q, andb_false_r]; destruct m; reflexivity. }
    destruct C as [C1 C2].
    assert (L1 : exp (lo g s) <= exp x) by (destruct X1 as [X1| ->]; [left; apply exp_increasing; exact X1|lra]).
    assert (L2 : exp x <= exp (hi g s)) by (destruct X2 as [X2| ->]; [left; apply exp_increasing; exact X2|lra]).
    rewrite C1 in L1. rewrite C2 in L2. split; [|split; [|split]].
    + destruct (width_upp L) as [w|]; [assert (Y := Rmin_r w (S / 3))|]; lra.
    + intros w Ew. rewrite Ew in L1. exact L1.
    + intros w Ew. rewrite Ew in L2. assert (Y := Rmin_l w (S / 3)). lra.
    + intro Ew. rewrite Ew in L1. exact L1.
Qed.
End Run.
Print Assumptions C96_run.
Print Assumptions C96_amplitude.
Print Assumptions C96_centre.
Print Assumptions C96_width.
Print Assumptions C96_variability.
Print Assumptions C96_tile.
Print Assumptions C96_nonempty.
Print Assumptions C96_inside.

(** ** A case *)
(** One set: a continuum over 50 days and a line over 20. *)
Definition two_curves : list times := [mktimes [0; 10; 50] [[5; 25]]].
Lemma two_curves_of : forall c, curve_of two_curves c -> c = [0; 10; 50] \/ c = [5; 25].
Proof. intros c (d & [<-|[]] & [->|[<-|[]]]); auto. Qed.
Lemma two_curves_data : data_ok (-1000) two_curves 50 20.
Proof.
  assert (C1 : curve_of two_curves [0; 10; 50]) by (eexists; split; [left; reflexivity|left; reflexivity]).
  assert (C2 : curve_of two_curves [5; 25]) by (eexists; split; [left; reflexivity|right; left; reflexivity]).
  split; [|split; [|split; [|split; [|lra]]]].
  - intros c C. destruct (two_curves_of c C) as [->| ->]; repeat constructor; lra.
  - intros c t C I. destruct (two_curves_of c C) as [->| ->]; cbn in I; intuition lra.
  - split.
    + intros c t t' C I I'. destruct (two_curves_of c C) as [->| ->]; cbn in I, I'; intuition lra.
    + exists [0; 10; 50], 0, 50. split; [exact C1|]. cbn. intuition lra.
  - split.
    + intros c w C [_ W]. destruct (two_curves_of c C) as [->| ->]; cbn in W; lra.
    + exists [5; 25]. split; [exact C2|]. split; [cbn; lia|]. cbn. lra.
Qed.

(** The ranges of a run in the general mode on these data with [ng] components,
    separate parameters for every set, starting from the settings of a file. *)
Definition settings_ranges (f : list ascii) (ng : nat) (L : limits) (g : ranges) : Prop :=
  plain f /\ exists p, read_parset atof10 false f = Ok p /\ p_low p = Z.of_nat ng /\ limits_of p = Ok L /\
    prior_ranges two_curves General (-1000) L None (fun _ => (0, 0)) (fun _ => (0, 0)) ng ng 0 false (fun _ => 0) (fun _ => 1)
      (Ranges (fun _ => 0) (fun _ => 0)) = Ok g.
(** place of a parameter of the line *)
Definition slot_in (ng : nat) (r : role) : nat := (3 + offset r)%nat.
Lemma slot_in_ok : forall ng r, code_slot (n_sets two_curves) (n_lines two_curves) ng 0 false 0 0 r (slot_in ng r).
Proof. intros ng r. exists 3%nat. split; [|reflexivity]. cbn. f_equal. lia. Qed.

Lemma q1 : forall z, Q2R (z # 1) = IZR z.
Proof. intro z. unfold Q2R. cbn [Qnum Qden]. rewrite Rinv_1, Rmult_1_r. reflexivity. Qed.
Ltac lags L := unfold lag_from, lag_to, L; cbn [lag_low lag_upp]; rewrite ?q1.
Ltac settings := split; [apply plainb_ok; vm_compute; reflexivity|]; eexists; split; [vm_compute; reflexivity|]; split; [reflexivity|]; split; [reflexivity|].
(** Lags from -10 to 15 days, three components, lag prior 1: the components
    have the lags from -10 to -1.66..., to 6.66... and to 15; the widths are
    between 2 and 50/3 days. *)
Example C96_example : exists L g,
  settings_ranges (txt ["LagLimitLow -10"; "LagLimitUpp 15"; "NumCompLow 3"; "NumCompUpp 3"; "TypeLagPrior 1"]%string) 3 L g /\
  lo g (slot_in 3 (Centre 1)) = -5 / 3 /\ hi g (slot_in 3 (Centre 1)) = 20 / 3 /\ hi g (slot_in 3 (Centre 2)) = 15 /\
  exp (lo g (slot_in 3 (Width 0))) = 2 /\ exp (hi g (slot_in 3 (Width 0))) = 50 / 3 /\
  sensible General 50 20 L /\ lo g (slot_in 3 (Width 2)) < hi g (slot_in 3 (Width 2)).
Proof.
  set (L := Limits (Q2R (-10)) (Q2R 15) None None false 1).
  pose (g := g_of General two_curves 50 20 L None (fun _ => (0, 0)) (fun _ => (0, 0)) 3 3 0 false (fun _ => 0) (fun _ => 1) (Ranges (fun _ => 0) (fun _ => 0))).
  assert (E : prior_ranges two_curves General (-1000) L None (fun _ => (0, 0)) (fun _ => (0, 0)) 3 3 0 false (fun _ => 0) (fun _ => 1)
      (Ranges (fun _ => 0) (fun _ => 0)) = Ok g).
  { apply run_ok; [apply two_curves_data|discriminate]. }
  assert (F : lag_from 50 L = -10) by (lags L; rewrite Rmax_left; lra).
  assert (T : lag_to 50 L = 15) by (lags L; destruct Rlt_dec; [lra|rewrite Rmin_left; lra]).
  assert (Sn : sensible General 50 20 L).
  { unfold sensible, L. cbn [lag_low lag_upp width_low width_upp negative]. rewrite ?q1. split; [lra|]. split; [lra|]. split; [discriminate|]. split; [discriminate|congruence]. }
  exists L, g. split; [settings; exact E|].
  destruct (C96_centre _ _ _ _ _ _ _ _ _ _ _ _ _ _ _ _ g 0 0 1 _ two_curves_data E ltac:(lia) (slot_in_ok 3 (Centre 1))) as (_ & _ & C1).
  destruct (C1 ltac:(discriminate) ltac:(discriminate) ltac:(discriminate)) as [-> ->]. rewrite F, T.
  destruct (C96_centre _ _ _ _ _ _ _ _ _ _ _ _ _ _ _ _ g 0 0 2 _ two_curves_data E ltac:(lia) (slot_in_ok 3 (Centre 2))) as (_ & _ & C2).
  destruct (C2 ltac:(discriminate) ltac:(discriminate) ltac:(discriminate)) as [_ ->]. rewrite F, T.
  destruct (C96_width _ _ _ _ _ _ _ _ _ _ _ _ _ _ _ _ g 0 0 0 _ two_curves_data (le_n 3) E ltac:(lia) (slot_in_ok 3 (Width 0)) ltac:(discriminate) ltac:(discriminate)) as [-> ->].
  assert (Ne : lo g (slot_in 3 (Width 2)) < hi g (slot_in 3 (Width 2))).
  { apply (C96_nonempty _ _ _ _ _ _ _ _ _ _ _ _ _ _ _ _ g 0 0 (Width 2) _ two_curves_data (le_n 3) E (le_n 3 : role_ok 3 (Width 2)) (slot_in_ok 3 (Width 2)));
      [discriminate|cbn; lia|reflexivity|exact Sn]. }
  clearbody g. cbn. split; [lra|]. split; [lra|]. split; [lra|]. split; [lra|]. split; [lra|]. split; [exact Sn|exact Ne].
Qed.

(** ** Refuted *)
Lemma one_run : forall L ng, exists g,
  prior_ranges two_curves General (-1000) L None (fun _ => (0, 0)) (fun _ => (0, 0)) ng ng 0 false (fun _ => 0) (fun _ => 1)
      (Ranges (fun _ => 0) (fun _ => 0)) = Ok g /\
  (prior L = 0%nat -> forall k, (k < ng)%nat -> lo g (slot_in ng (Centre k)) = lag_from 50 L /\ hi g (slot_in ng (Centre k)) = lag_to 50 L) /\
  (forall k, (k < ng)%nat -> (1 <= prior L <= 3)%nat -> hi g (slot_in ng (Centre k)) = lag_from 50 L + (lag_to 50 L - lag_from 50 L) * (INR (k + 1) / INR ng)) /\
  (forall k, (k < ng)%nat -> (1 < ng)%nat -> prior L = 3%nat -> lag_from 50 L < lag_to 50 L ->
     (forall w, width_low L = Some w -> 0 < w) -> (forall w, width_upp L = Some w -> 0 < w) ->
     exp (hi g (slot_in ng (Width k))) = (lag_to 50 L - lag_from 50 L) / INR (ng - 1)) /\
  (forall k, (k < ng)%nat -> prior L <> 3%nat ->
     (forall w, width_low L = Some w -> 0 < w) -> (forall w, width_upp L = Some w -> 0 < w) ->
     exp (lo g (slot_in ng (Width k))) = match width_low L with Some w => w | None => 20 / 10 end /\
     exp (hi g (slot_in ng (Width k))) = match width_upp L with Some w => Rmin w (50 / 3) | None => 50 / 3 end).
Proof.
  intros L ng.
  pose (g := g_of General two_curves 50 20 L None (fun _ => (0, 0)) (fun _ => (0, 0)) ng ng 0 false (fun _ => 0) (fun _ => 1) (Ranges (fun _ => 0) (fun _ => 0))).
  assert (E : prior_ranges two_curves General (-1000) L None (fun _ => (0, 0)) (fun _ => (0, 0)) ng ng 0 false (fun _ => 0) (fun _ => 1)
      (Ranges (fun _ => 0) (fun _ => 0)) = Ok g).
  { apply run_ok; [apply two_curves_data|discriminate]. }
  exists g. split; [exact E|].
  assert (C := fun k H => C96_centre _ _ _ _ _ _ _ _ _ _ _ _ _ _ _ _ g 0 0 k _ two_curves_data E H (slot_in_ok ng (Centre k))).
  assert (W := fun k H => C96_width _ _ _ _ _ _ _ _ _ _ _ _ _ _ _ _ g 0 0 k _ two_curves_data (le_n ng) E H (slot_in_ok ng (Width k))).
  split; [|split; [|split]].
  - intros P k Hk. apply (C k Hk); [discriminate|exact P].
  - intros k Hk P. apply (C k Hk); [discriminate|lia|lia].
  - intros k Hk N P F A B. specialize (W k Hk A B). cbv beta iota in W. rewrite P in W. apply Nat.ltb_lt in N. rewrite N in W. apply W. exact F.
  - intros k Hk P A B. specialize (W k Hk A B). cbv beta iota in W. apply Nat.eqb_neq in P. rewrite P in W. exact W.
Qed.

(** An upper limit below zero is accepted, and not kept: the lags go up to half
    the span. *)
Theorem C96_upper_refuted : exists f L g, settings_ranges f 1 L g /\ lag_low L = -20 /\ lag_upp L = -5 /\
  lo g (slot_in 1 (Centre 0)) = -20 /\ hi g (slot_in 1 (Centre 0)) = 25.
Proof.
  set (L := Limits (Q2R (-20)) (Q2R (-5)) None None false 0). destruct (one_run L 1) as (g & E & C & _).
  exists (txt ["LagLimitLow -20"; "LagLimitUpp -5"]%string), L, g. split; [settings; exact E|].
  destruct (C eq_refl 0%nat ltac:(lia)) as [-> ->]. lags L.
  split; [lra|]. split; [lra|]. split; [rewrite Rmax_left; lra|]. destruct Rlt_dec; lra.
Qed.
Print Assumptions C96_upper_refuted.

(** Accepted settings can leave an upside-down range: a lower lag limit beyond half
    the span, or a lower width limit beyond a third. *)
Theorem C96_inverted_refuted :
  (exists f L g, settings_ranges f 1 L g /\ lo g (slot_in 1 (Centre 0)) = 30 /\ hi g (slot_in 1 (Centre 0)) = 25) /\
  (exists f L g, settings_ranges f 1 L g /\ exp (lo g (slot_in 1 (Width 0))) = 20 /\ exp (hi g (slot_in 1 (Width 0))) = 50 / 3).
Proof.
  split.
  - set (L := Limits (Q2R 30) (Q2R 40) None None false 0). destruct (one_run L 1) as (g & E & C & _).
    exists (txt ["LagLimitLow 30"; "LagLimitUpp 40"]%string), L, g. split; [settings; exact E|].
    destruct (C eq_refl 0%nat ltac:(lia)) as [-> ->]. lags L.
    split; [rewrite Rmax_left; lra|]. destruct Rlt_dec; [lra|]. rewrite Rmin_right; lra.
  - set (L := Limits (Q2R 0) (Q2R 20) (Some (Q2R 20)) None false 0). destruct (one_run L 1) as (g & E & _ & _ & _ & W).
    exists (txt ["LagLimitUpp 20"; "WidthLimitLow 20"]%string), L, g. split; [settings; exact E|].
    destruct (W 0%nat ltac:(lia)) as [-> ->]; [discriminate| |discriminate|].
    + intros w [= <-]. rewrite q1. lra.
    + unfold L. cbn [width_low width_upp]. rewrite ?q1. split; lra.
Qed.
Print Assumptions C96_inverted_refuted.

(** With lag prior 3 the widths ignore the limits, and three times a width may
    exceed the span. *)
Theorem C96_width_refuted : exists f L g, settings_ranges f 3 L g /\ width_upp L = Some 1 /\
  exp (hi g (slot_in 3 (Width 0))) = 25 /\ 50 < 3 * 25.
Proof.
  set (L := Limits (Q2R (-25)) (Q2R 25) None (Some (Q2R 1)) false 3). destruct (one_run L 3) as (g & E & _ & _ & W & _).
  exists (txt ["LagLimitLow -25"; "LagLimitUpp 25"; "WidthLimitUpp 1"; "NumCompLow 3"; "NumCompUpp 3"; "TypeLagPrior 3"]%string), L, g. split; [settings; exact E|].
  assert (F : lag_from 50 L = -25) by (lags L; rewrite Rmax_left; lra).
  assert (T : lag_to 50 L = 25) by (lags L; destruct Rlt_dec; [lra|rewrite Rmin_left; lra]).
  split; [cbn [width_upp L]; rewrite q1; reflexivity|]. rewrite (W 0%nat ltac:(lia) ltac:(lia) eq_refl).
  - rewrite F, T. cbn. lra.
  - rewrite F, T. lra.
  - discriminate.
  - intros w [= <-]. rewrite q1. lra.
Qed.
Print Assumptions C96_width_refuted.

(** With the lag priors 2 and 3 the centres are fixed on a grid that is not cut to
    the allowed lags: a fixed lag outside of the range of its own parameter, longer than
    the data. *)
Theorem C96_fixed_refuted : exists f L g fx, settings_ranges f 3 L g /\
  set_fixed_line (n_sets two_curves) (n_lines two_curves) 3 0 false true true (prior L) 0 (lag_low L) (upper_lag (lag_upp L) 50)
    (set_idx_line_pm (n_sets two_curves) (n_lines two_curves) 3 0 false unset) = Ok fx /\
  is_fixed fx (slot_in 3 (Centre 2)) = true /\ fix_val fx (slot_in 3 (Centre 2)) = 100 /\ hi g (slot_in 3 (Centre 2)) = 25.
Proof.
  set (L := Limits (Q2R 0) (Q2R 100) None None false 2). destruct (one_run L 3) as (g & E & _ & C & _).
  assert (N : ~ exists b, tied (n_sets two_curves) (n_lines two_curves) 3 0 false true (slot_in 3 (Centre 2)) b).
  { intros (b & _ & X & _). discriminate. }
  destruct (C39_own_fixed (n_sets two_curves) (n_lines two_curves) 3 0 false true true (prior L) 0 (lag_low L) (upper_lag (lag_upp L) 50)) as (fx & Ef & _ & Fx).
  destruct (Fx 0%nat 0%nat (Centre 2) _ ltac:(cbn; lia) (slot_in_ok 3 (Centre 2))) as [F1 F2].
  exists (txt ["LagLimitLow 0"; "LagLimitUpp 100"; "NumCompLow 3"; "NumCompUpp 3"; "TypeLagPrior 2"]%string), L, g, fx.
  split; [settings; exact E|]. split; [exact Ef|]. split; [apply F1; left; discriminate|]. split.
  - erewrite F2; [|exact N|reflexivity]. unfold upper_lag, L. cbn [lag_low lag_upp INR Nat.sub]. rewrite ?q1. destruct Rlt_dec; lra.
  - rewrite (C 2%nat ltac:(lia)) by (cbn; lia). lags L. destruct Rlt_dec; [lra|].
    rewrite Rmax_left, Rmin_right by lra. cbn [Nat.add INR]. lra.
Qed.
Print Assumptions C96_fixed_refuted.

(** A data span shorter than 1/(2 pi) days turns the range of the time scale
    upside down, in the mode that uses the bounds alone. *)
Theorem C96_short_refuted : exists sets S q, data_ok (-1000) sets S q /\ exists L g,
  prior_ranges sets Virtual (-1000) L None (fun _ => (0, 0)) (fun _ => (0, 0)) 1 1 0 false (fun _ => 0) (fun _ => 1)
      (Ranges (fun _ => 0) (fun _ => 0)) = Ok g /\ hi g 2%nat < lo g 2%nat.
Proof.
  pose (sets := [mktimes [] [[0; 0.1]]]). exists sets, 0.1, 0.1.
  assert (Cv : forall c, curve_of sets c -> c = [] \/ c = [0; 0.1]) by (intros c (d & [<-|[]] & [->|[<-|[]]]); auto).
  assert (C2 : curve_of sets [0; 0.1]) by (eexists; split; [left; reflexivity|right; left; reflexivity]).
  assert (D : data_ok (-1000) sets 0.1 0.1).
  { split; [|split; [|split; [|split; [|lra]]]].
    - intros c C. destruct (Cv c C) as [->| ->]; repeat constructor; lra.
    - intros c t C I. destruct (Cv c C) as [->| ->]; cbn in I; intuition lra.
    - split.
      + intros c t t' C I I'. destruct (Cv c C) as [->| ->]; cbn in I, I'; intuition lra.
      + exists [0; 0.1], 0, 0.1. split; [exact C2|]. cbn. intuition lra.
    - split.
      + intros c w C [X W]. destruct (Cv c C) as [->| ->]; cbn in X, W; [lia|lra].
      + exists [0; 0.1]. split; [exact C2|]. split; [cbn; lia|]. cbn. lra. }
  split; [exact D|]. set (L := Limits 0 10 None None false 0).
  pose (g := g_of Virtual sets 0.1 0.1 L None (fun _ => (0, 0)) (fun _ => (0, 0)) 1 1 0 false (fun _ => 0) (fun _ => 1) (Ranges (fun _ => 0) (fun _ => 0))).
  exists L, g.
  assert (E : prior_ranges sets Virtual (-1000) L None (fun _ => (0, 0)) (fun _ => (0, 0)) 1 1 0 false (fun _ => 0) (fun _ => 1)
      (Ranges (fun _ => 0) (fun _ => 0)) = Ok g) by (apply run_ok; [exact D|discriminate]).
  split; [exact E|].
  destruct (C96_variability _ _ _ _ _ _ _ _ _ _ _ _ _ _ _ _ g 0 2 D E ltac:(cbn; lia) ltac:(lia)) as [A B].
  cbn [bound_low bound_upp idx_con_pm Nat.mul Nat.add] in A, B. apply exp_lt_inv. rewrite A, B.
  assert (P := PI_4). lra.
Qed.
Print Assumptions C96_short_refuted.

(** The settings of the lag limits cannot be left out: in the general mode a file
    without them is rejected, though the upper limit has a default (half the span). *)
Theorem C96_default_refuted : exists f f', plain f /\ plain f' /\
  given (settings par_comment f) (w_of "LagLimitLow") = None /\ given (settings par_comment f) (w_of "LagLimitUpp") = None /\
  read_parset atof10 false f = Exit /\
  f' = f ++ txt ["LagLimitLow -2"]%string /\ (exists p, read_parset atof10 false f' = Ok p /\ p_lag_upp p = Num (-1)).
Proof.
  exists (txt ["FileDir /d"; "DataFile a.txt"; "TypeModel 0"]%string). eexists.
  split; [apply plainb_ok; vm_compute; reflexivity|]. split; [|split; [|split; [|split; [|split; [reflexivity|]]]]].
  - apply plainb_ok. vm_compute. reflexivity.
  - vm_compute. reflexivity.
  - vm_compute. reflexivity.
  - vm_compute. reflexivity.
  - eexists. split; [vm_compute; reflexivity|]. reflexivity.
Qed.
Print Assumptions C96_default_refuted.

(** The photometric mode changes the widths: it drops the lower limit for the
    first component, and turns a given range of a later one around if that ends
    below one day. *)
Theorem C96_photo_refuted :
  (exists L g, width_low L = Some 2 /\
    prior_ranges two_curves Photo (-1000) L None (fun _ => (0, 20)) (fun _ => (-5, 0)) 2 2 0 false (fun _ => 0) (fun _ => 1) (Ranges (fun _ => 0) (fun _ => 0)) = Ok g /\
    exp (lo g (slot_in 2 (Width 0))) = 1 / 100) /\
  (exists L f g, f 1%nat = (1 / 5, 1 / 2) /\ positive_pairs 2 f /\
    prior_ranges two_curves Photo (-1000) L (Some f) (fun _ => (0, 20)) (fun _ => (-5, 0)) 2 2 0 false (fun _ => 0) (fun _ => 1) (Ranges (fun _ => 0) (fun _ => 0)) = Ok g /\
    exp (lo g (slot_in 2 (Width 1))) = 1 /\ exp (hi g (slot_in 2 (Width 1))) = 1 / 2).
Proof.
  split.
  - set (L := Limits 0 20 (Some 2) None false 4).
    destruct (C96_run Photo (-1000) two_curves 50 20 L None (fun _ => (0, 20)) (fun _ => (-5, 0)) 2 2 0 false (fun _ => 0) (fun _ => 1) (Ranges (fun _ => 0) (fun _ => 0)) two_curves_data) as [[H _] _].
    destruct H as (g & E); [discriminate|]. exists L, g. split; [reflexivity|]. split; [exact E|].
    assert (W := C96_width _ _ _ _ _ _ _ _ _ _ _ _ _ _ _ _ g 0 0 0 _ two_curves_data (le_n 2) E ltac:(lia) (slot_in_ok 2 (Width 0))).
    destruct W as [-> _]; [intros w [= <-]; lra|discriminate|]. cbn [photo_low Nat.eqb width_low L]. apply Rmin_right. lra.
  - set (L := Limits 0 20 None None false 4). pose (f := fun k : nat => (1 / 5, 1 / 2)).
    assert (P : positive_pairs 2 f) by (intros k _; cbn; lra).
    destruct (C96_run Photo (-1000) two_curves 50 20 L (Some f) (fun _ => (0, 20)) (fun _ => (-5, 0)) 2 2 0 false (fun _ => 0) (fun _ => 1) (Ranges (fun _ => 0) (fun _ => 0)) two_curves_data) as [[H _] _].
    destruct H as (g & E); [intros f' [= <-]; exact P|]. exists L, f, g. split; [reflexivity|]. split; [exact P|]. split; [exact E|].
    assert (W := C96_width _ _ _ _ _ _ _ _ _ _ _ _ _ _ _ _ g 0 0 1 _ two_curves_data (le_n 2) E ltac:(lia) (slot_in_ok 2 (Width 1))).
    destruct W as [-> ->]; [discriminate|discriminate|]. cbn [photo_low Nat.eqb f fst snd]. split; [apply Rmax_right; lra|reflexivity].
Qed.
Print Assumptions C96_photo_refuted.
