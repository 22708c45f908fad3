(** C64: the mixed model inside the tolerance band of its special branches. *)
From Coq Require Import Reals Lra Lia List Arith.
From Coquelicot Require Import Coquelicot.
From Verif Require Import SemisepModel SemisepProofs KernelModel KernelCalc KernelSpec KernelTophat KernelExp KernelExp2 KernelExp3 KernelGauss KernelGauss2 KernelLift KernelSym
  PropKernel MixSpec MixModel MixGauss MixForms MixCode MixPairs MixLift PropMix.
Open Scope R_scope.

(** ** Integrals of nonnegative functions *)
Lemma wl_nonneg f v : (forall x, 0 <= f x) -> whole_line f v -> 0 <= v.
Proof.
  intros P H. destruct (Rle_dec 0 v) as [|N]; [assumption|exfalso].
  assert (E : 0 < - v) by lra. destruct (wl_elim f v H (mkposreal _ E)) as [M HM].
  destruct (HM (- (Rabs M + 1)) (Rabs M + 1)) as (y & Hy & B); try (pose proof (Rle_abs M); pose proof (Rle_abs (- M)); rewrite Rabs_Ropp in *; lra).
  assert (0 <= y).
  { apply (is_RInt_ge_0 f (- (Rabs M + 1)) (Rabs M + 1) y); [pose proof (Rabs_pos M); lra|exact Hy|]. intros; apply P. }
  cbn in B. apply Rabs_def2 in B. lra.
Qed.
Lemma cov_ll_nonneg p1 p2 T t1 t2 v : (forall a, 0 <= p1 a) -> (forall a, 0 <= p2 a) -> cov_ll p1 p2 T t1 t2 v -> 0 <= v.
Proof.
  intros P1 P2 (i & Hi & Wi).
  assert (I : forall a, 0 <= i a).
  { intros a. refine (wl_nonneg _ _ _ (Hi a)). intros b. cbv beta. apply Rmult_le_pos; [apply P2|left; apply exp_pos]. }
  refine (wl_nonneg _ _ _ Wi). intros a. cbv beta. apply Rmult_le_pos; [apply P1|apply I].
Qed.
Lemma shape_nonneg t c a : 0 <= area c -> 0 < width c -> 0 <= shape_of t c a.
Proof.
  intros A W. assert (I : 0 < / width c) by (apply Rinv_0_lt_compat, W).
  destruct t as [|[|[|[|t]]]]; cbn [shape_of]; [| | | |lra].
  - unfold gaussian. apply Rmult_le_pos; [|left; apply exp_pos]. apply Rmult_le_pos; [exact A|]. left. apply Rinv_0_lt_compat, Rmult_lt_0_compat; [|exact W].
    apply sqrt_lt_R0. pose proof PI_RGT_0. lra.
  - unfold tophat. destruct (Rle_dec _ _); [|lra]. apply Rmult_le_pos; [exact A|]. left. apply Rinv_0_lt_compat. lra.
  - unfold gamma2. cbv zeta. destruct (Rle_dec _ _); [|lra]. apply Rmult_le_pos; [|left; apply exp_pos].
    apply Rmult_le_pos; [apply Rmult_le_pos; lra|]. left. apply Rinv_0_lt_compat. nra.
  - unfold exponential. cbv zeta. destruct (Rle_dec _ _); [|lra]. apply Rmult_le_pos; [|left; apply exp_pos]. apply Rmult_le_pos; lra.
Qed.
Lemma mixed_nonneg n ty c a : (forall k, (k < n)%nat -> 0 <= area (c k) /\ 0 < width (c k)) -> 0 <= mixed_response n ty c a.
Proof.
  induction n as [|n IH]; intros H; unfold mixed_response; cbn [sumn]; [lra|].
  apply Rplus_le_le_0_compat; [apply IH; intros; apply H; lia|]. apply shape_nonneg; apply H; lia.
Qed.

(** ** Signs of the moments *)
Section Signs.
Variable w : R.
Hypothesis W : 0 < w.
(** a function with (exp(-x) F(x))' >= 0 that stays bounded is <= 0 *)
Lemma grow_nonpos (F G : R -> R) : (forall x, is_derive F x (F x + G x)) -> (forall x, 0 <= G x) ->
  (exists C, forall x, 0 <= x -> Rabs (F x) <= C) -> forall x, F x <= 0.
Proof.
  intros D P [C B] x. apply Rnot_lt_le. intros Q.
  set (h := fun y => F y * exp (- y)).
  assert (DH : forall y, is_derive h y (G y * exp (- y))).
  { intros y. unfold h. eapply der_eq; [apply (der_mult F (fun y => exp (- y)) y (F y + G y) (- exp (- y))); [apply D|]|cbv beta; ring].
    auto_derive; [exact I|ring]. }
  assert (C0 : 0 <= C) by (eapply Rle_trans; [apply Rabs_pos|apply (B 0); lra]).
  set (q := F x * exp (- x)). assert (Q' : 0 < q) by (apply Rmult_lt_0_compat; [exact Q|apply exp_pos]).
  set (y := Rmax (Rmax x 0) (C / q) + 1).
  assert (Y : x < y /\ 0 < y /\ C / q < y).
  { unfold y. pose proof (Rmax_l (Rmax x 0) (C / q)). pose proof (Rmax_r (Rmax x 0) (C / q)). pose proof (Rmax_l x 0). pose proof (Rmax_r x 0). lra. }
  destruct (MVT_gen h x y (fun y => G y * exp (- y))) as (c & _ & E).
  - intros; apply DH.
  - intros z _. apply continuity_pt_filterlim, ex_derive_cont. eexists. apply DH.
  - assert (M : h x <= h y).
    { assert (0 <= G c * exp (- c) * (y - x)); [|lra]. apply Rmult_le_pos; [apply Rmult_le_pos; [apply P|left; apply exp_pos]|lra]. }
    change (h x) with q in M. unfold h in M.
    assert (F y <= C) by (eapply Rle_trans; [apply Rle_abs|apply B; lra]).
    assert (1 + y < exp y) by (apply exp_ineq1; lra).
    rewrite exp_Ropp in M. assert (EP : 0 < exp y) by apply exp_pos.
    assert (M' : q * exp y <= F y). { apply (Rmult_le_reg_r (/ exp y)); [apply Rinv_0_lt_compat, EP|]. replace (q * exp y * / exp y) with q by (field; lra). exact M. }
    assert (C < q * y). { destruct Y as (_ & _ & Y). apply (Rmult_lt_compat_l q) in Y; [|exact Q']. replace (q * (C / q)) with C in Y by (field; lra). exact Y. }
    nra.
Qed.
Lemma M0_nonneg ka x : 0 <= M0 w ka x.
Proof.
  pose proof L_pos. unfold M0. apply Rmult_le_pos; [apply Rmult_le_pos; [left; apply exp_pos|]|left; apply Rinv_0_lt_compat; lra].
  pose proof (Phi_lt ((x / w + ka * w) / sqrt 2)). lra.
Qed.
Lemma M1_nonpos x : M1 w 1 x <= 0.
Proof.
  apply (grow_nonpos (M1 w 1) (M0 w 1)).
  - intros y. eapply der_eq; [apply M1_derive; exact W|ring].
  - intros y. apply M0_nonneg.
  - apply M1_bound; [exact W|lra].
Qed.
Lemma M2_nonneg x : 0 <= M2 w 1 x.
Proof.
  cut (- M2 w 1 x <= 0); [lra|]. apply (grow_nonpos (fun x => - M2 w 1 x) (fun y => - 2 * M1 w 1 y)).
  - intros y. eapply der_eq; [apply der_opp, M2_derive; exact W|ring].
  - intros y. pose proof (M1_nonpos y). lra.
  - destruct (M2_bound w W 1 ltac:(lra)) as [C HC]. exists C. intros y Y. rewrite Rabs_Ropp. apply HC, Y.
Qed.
Lemma M0_between : w * w / (1 + w * w) * nd w 0 <= M0 w 1 0 <= nd w 0.
Proof.
  pose proof (M1_nonpos 0) as A. pose proof (M2_nonneg 0) as B. unfold M1 in A. unfold M2 in B.
  rewrite Rplus_0_l, Rmult_1_l in A, B. assert (WW : 0 < w * w) by nra. set (u := w * w) in *. split.
  - apply (Rmult_le_reg_l (u * (1 + u))); [nra|]. replace (u * (1 + u) * (u / (1 + u) * nd w 0)) with (u * u * nd w 0) by (field; lra). nra.
  - nra.
Qed.
End Signs.

(** ** A Gaussian of width 1000 and a gamma response of scale 0.999991

    Damping time 1, amplitudes 1, both responses start together; the prior of the
    code admits this for a time span of 3000: damping times from 1 on, widths up to
    a third of the time span (src/init.c:48, 70-71). *)
Definition ty02 (k : nat) : nat := match k with O => 0%nat | _ => 2%nat end.
Definition v02 : R := 1 - 9 / 1000000.
Definition pm02 : arr := fun i => match i with 6%nat => ln 1000 | 8%nat => 2 * v02 | 9%nat => ln v02 | _ => 0 end.
Definition c02 : nat -> comp := stored exp pm02 3.
Lemma c02_0 : c02 0 = Comp 1 0 1000.
Proof. unfold c02, stored. cbn [Nat.add Nat.mul pm02]. rewrite exp_0, exp_ln by lra. reflexivity. Qed.
Lemma c02_1 : c02 1 = Comp 1 (2 * v02) v02.
Proof. unfold c02, stored. cbn [Nat.add Nat.mul pm02]. rewrite exp_0, exp_ln by (unfold v02; lra). reflexivity. Qed.

Section Witness.
Variables log_erfc erfc : R -> R.
Hypothesis HL : log_erfc_correct log_erfc.

Lemma gauss_small : sll1_gauss log_erfc 1 1 0 1000 1 0 1000 0 <= 2.
Proof.
  unfold sll1_gauss. cbv zeta. set (B := sqrt (1000 * 1000 + 1000 * 1000)).
  assert (B0 : 0 < B) by (apply sqrt_lt_R0; lra).
  replace (0 - (0 - 0)) with 0 by ring. pose proof sqrt2_pos.
  replace (- 0 / 1 + log_erfc (- (0 / B - B / 1) / sqrt 2) + B * B / 2 / 1 / 1)
    with (B * B / 2 + log_erfc ((0 / B + / 1 * B) / sqrt 2)).
  2:{ replace (- (0 / B - B / 1) / sqrt 2) with ((0 / B + / 1 * B) / sqrt 2) by (field; split; lra). field. }
  replace (0 / 1 + log_erfc ((0 / B + B / 1) / sqrt 2) + B * B / 2 / 1 / 1)
    with (B * B / 2 + log_erfc ((0 / B + / 1 * B) / sqrt 2)).
  2:{ replace ((0 / B + B / 1) / sqrt 2) with ((0 / B + / 1 * B) / sqrt 2) by (field; split; lra). field. }
  rewrite (E_M0 log_erfc HL B (/ 1) 0) by (first [reflexivity | rewrite Rinv_1; field]).
  pose proof (M0_bound B B0 (/ 1) 0 ltac:(lra)) as M. apply Rabs_le_between in M. lra.
Qed.
Lemma gamma_small : sll1_gamma 1 1 (2 * v02) v02 1 (2 * v02) v02 0 <= 5.
Proof.
  unfold sll1_gamma. cbv zeta. replace (0 - (2 * v02 - 2 * v02 - (2 * v02 - 2 * v02))) with 0 by ring.
  destruct (Rle_dec 0 0) as [_|N]; [|lra].
  destruct (Rlt_dec (Rabs ((1 - v02) / 1)) EPS) as [_|N].
  2:{ exfalso. apply N. rewrite Rabs_pos_eq by (unfold v02; lra). unfold v02, EPS. lra. }
  assert (V : 99/100 < v02 < 1) by (unfold v02; lra). set (v := v02) in *.
  replace (0 / 1) with 0 by field. rewrite exp_0.
  replace ((1 + v) / 1 * 0 / v) with 0 by (field; lra).
  replace ((v + v) / v) with 2 by (field; lra). replace (v / v) with 1 by (field; lra). replace ((1 + v) / 1) with (1 + v) by field.
  assert (I4 : / ((1 + v) * (1 + v) * (1 + v) * (1 + v)) <= 1).
  { rewrite <- Rinv_1. apply Rinv_le_contravar; [lra|]. assert (1 <= (1 + v) * (1 + v)) by nra. nra. }
  assert (I2 : / ((1 + v) * (1 + v) * 2 * 2) <= 1/4).
  { replace (1/4) with (/ 4) by field. apply Rinv_le_contravar; [lra|]. nra. }
  unfold Rdiv in *. nra.
Qed.
Lemma nd_lower : / 3000 <= nd 1000 0.
Proof.
  unfold nd. replace (- (0 * 0) / (2 * (1000 * 1000))) with 0 by field. rewrite exp_0. unfold Rdiv. rewrite Rmult_1_l.
  apply Rinv_le_contravar; [apply nd_const; lra|].
  assert (S : sqrt 2 * (2 * L) <= 3).
  { rewrite <- sqrtPI, <- sqrt_mult by (pose proof PI_RGT_0; lra). rewrite <- (sqrt_square 3) by lra. apply sqrt_le_1_alt. pose proof PI_4. lra. }
  lra.
Qed.
Lemma wrong_pair : mix_gau_gam log_erfc 1 1 0 1000 1 (2 * v02) v02 0 <= - 300.
Proof.
  unfold mix_gau_gam. cbv zeta.
  destruct (Rlt_dec EPS (Rabs (1 - v02))) as [N|_].
  { exfalso. rewrite Rabs_pos_eq in N by (unfold v02; lra). unfold v02, EPS in N. lra. }
  replace (0 - (0 - (2 * v02 - 2 * v02))) with 0 by ring. pose proof sqrt2_pos as S2.
  assert (W : 0 < 1000) by lra.
  assert (V : v02 = 1 - 9 / 1000000) by reflexivity. set (v := v02) in *. clearbody v.
  set (w := 1000) in *. assert (WV : w = 1000) by reflexivity. clearbody w.
  set (m := M0 w 1 0). set (k := nd w 0).
  assert (E1 : forall e z, e = w * w / 2 -> z = w / sqrt 2 -> exp (e + log_erfc z) = 2 * m).
  { intros e z -> ->. unfold m. apply (E_M0 log_erfc HL w); field; repeat split; lra. }
  set (r := exp (w * w / (v * v) / 2 - w * w / 2)).
  rewrite (E1 (- 0 / 1 + w * w / (1 * 1) / 2)) by (field; repeat split; lra).
  replace (0 / w + w / 1) with w by (field; lra).
  rewrite (E1 (0 / 1 + w * w / (1 * 1) / 2) (w / sqrt 2)) by (reflexivity || field).
  replace (0 / v + w * w / (v * v) / 2 + log_erfc (w / sqrt 2)) with ((w * w / (v * v) / 2 - w * w / 2) + (w * w / 2 + log_erfc (w / sqrt 2))) by (field; lra).
  rewrite (exp_plus (w * w / (v * v) / 2 - w * w / 2)), (E1 (w * w / 2) (w / sqrt 2)) by reflexivity. fold r.
  replace (w * exp (- 0 * 0 / (w * w) / 2) / sqrt (PI / 2)) with (w * (exp (- 0 * 0 / (w * w) / 2) / sqrt (PI / 2))) by (unfold Rdiv; ring).
  rewrite !(E_nd w W 0) by (field; lra). fold k.
  assert (R10 : 10 <= r).
  { unfold r. assert (9 <= w * w / (v * v) / 2 - w * w / 2).
    { assert (1 + 18/1000000 <= / (v * v)).
      { apply (Rmult_le_reg_r (v * v)); [nra|]. rewrite Rinv_l by nra. rewrite V. lra. }
      unfold Rdiv. rewrite WV. lra. }
    pose proof (exp_ineq1 (w * w / (v * v) / 2 - w * w / 2) ltac:(lra)). lra. }
  pose proof (M0_between w W) as [Ml Mu]. fold m in Ml, Mu. fold k in Ml, Mu.
  assert (K : / 3000 <= k) by (unfold k; rewrite WV; apply nd_lower).
  assert (M1b : m <= 1). { pose proof (M0_bound w W 1 0 ltac:(lra)) as M. apply Rabs_le_between in M. unfold m. lra. }
  assert (M0p : 0 <= m) by (unfold m; apply M0_nonneg).
  assert (Mh : k / 2 <= m).
  { eapply Rle_trans; [|exact Ml]. unfold Rdiv. rewrite (Rmult_comm k). apply Rmult_le_compat_r; [lra|]. rewrite WV. lra. }
  assert (C1 : 0 < / (1 + v) <= 1). { split; [apply Rinv_0_lt_compat; lra|]. rewrite <- Rinv_1. apply Rinv_le_contravar; lra. }
  assert (Cv : / 2 <= / ((1 + v) * v)). { apply Rinv_le_contravar; [nra|]. nra. }
  assert (Iv : 0 < / (v * v) / 2 <= 1). { assert (/ (v * v) <= 2); [|assert (0 < / (v * v)) by (apply Rinv_0_lt_compat; nra); lra].
    replace 2 with (/ (/ 2)) by field. apply Rinv_le_contravar; [lra|]. nra. }
  eapply Rle_trans with (2 * (/ (1 + v) * / (1 + v)) * m + (w * w) * / ((1 + v) * v) * (k - r * m) + w * w * (/ (v * v) / 2) * ((1 + w * w) * m - w * w * k)).
  { right. field. split; lra. }
  assert (T1 : 2 * (/ (1 + v) * / (1 + v)) * m <= 2). { assert (/ (1 + v) * / (1 + v) <= 1) by nra. assert (0 <= / (1 + v) * / (1 + v)) by nra. nra. }
  assert (T2 : (w * w) * / ((1 + v) * v) * (k - r * m) <= - 2 * (w * w * k)).
  { assert (N : k - r * m <= - 4 * k) by nra. 
    assert (P : w * w * / 2 <= w * w * / ((1 + v) * v)) by (apply Rmult_le_compat_l; [nra|exact Cv]).
    set (q := w * w * / ((1 + v) * v)) in *. assert (0 < w * w) by nra. nra. }
  assert (T3 : w * w * (/ (v * v) / 2) * ((1 + w * w) * m - w * w * k) <= w * w * k).
  { assert (N : (1 + w * w) * m - w * w * k <= k) by nra. set (i := / (v * v) / 2) in *.
    assert (0 < w * w) by nra. assert (0 < w * w * i <= w * w) by nra. set (q := w * w * i) in *. 
    destruct (Rle_dec 0 ((1 + w * w) * m - w * w * k)); nra. }
  assert (333 <= w * w * k) by (rewrite WV; lra). lra.
Qed.

(** the integrals exist whatever the scales are *)
Lemma true_variance : exists v, cov_ll (mixed_response 2 ty02 c02) (mixed_response 2 ty02 c02) 1 0 0 v.
Proof.
  assert (T0 : 0 < 1) by lra. assert (W : forall k, 0 < width (c02 k)) by (intros k; apply exp_pos).
  assert (P : forall k1 k2, exists u, whole_line (fun a => shape_of (ty02 k1) (c02 k1) a * inner log_erfc 1 (ty02 k2) (c02 k2) (0 - (0 - a))) u).
  { intros k1 k2. destruct k1 as [|k1], k2 as [|k2]; cbn [ty02 shape_of].
    - eexists. apply (gauss_ll log_erfc HL 1 (c02 0) (c02 0) 0 0 T0 (W _) (W _)).
    - set (c2 := c02 (S k2)). set (D := 0 - 0 + (centre c2 - 2 * width c2)).
      eexists. eapply wl_ext; [|apply wl_scal, (gaussian_outer (c02 0) (fun y => cG 1 (width c2) (- y)) D); [apply W|apply Pgg_avg; (exact T0 || apply W)]].
      intros a. cbv beta. cbn [inner]. replace (0 - (0 - a) - (centre c2 - 2 * width c2)) with (- (D - a)) by (unfold D; ring).
      rewrite <- (Rmult_assoc (area c2)), (Rmult_comm (area c2)), Rmult_assoc. reflexivity.
    - set (c1 := c02 (S k1)). set (c2 := c02 0). set (D := 0 - 0 + centre c2).
      eexists. eapply wl_ext; [|apply wl_scal, (gamma_outer c1 (Sg 1 (width c2)) (fun x => Pge 1 (width c2) (width c1) (- x)) (fun x => Pgg 1 (width c2) (width c1) (- x)) D);
        [apply W| | |apply Sg_cont; (exact T0 || apply W)|apply neg_bdd, Pgg_bdd; (exact T0 || apply W)|apply neg_bdd, Pge_bdd; (exact T0 || apply W)]].
      + intros a. cbv beta. cbn [inner]. rewrite (gauss_exact log_erfc HL 1 T0 (width c2) (W _)). replace (0 - (0 - a) - centre c2) with (- (D - a)) by (unfold D; ring). rewrite Sg_even.
        rewrite <- (Rmult_assoc (area c2)), (Rmult_comm (area c2)), Rmult_assoc. reflexivity.
      + apply (neg_ode (width c1) (W _) (Pgg 1 (width c2) (width c1)) (Pge 1 (width c2) (width c1))). apply Pgg_ode; (exact T0 || apply W).
      + intros x. eapply der_eq; [apply (neg_ode (width c1) (W _) (Pge 1 (width c2) (width c1)) (Sg 1 (width c2))); apply Pge_ode; (exact T0 || apply W)|]. rewrite Sg_even. reflexivity.
    - eexists. apply (gamma_ll 1 (c02 (S k1)) (c02 (S k2)) 0 0 T0 (W _) (W _)). }
  destruct (P 0%nat 0%nat) as [u00 H00], (P 0%nat 1%nat) as [u01 H01], (P 1%nat 0%nat) as [u10 H10], (P 1%nat 1%nat) as [u11 H11].
  exists (sumn 2 (fun k1 => sumn 2 (fun k2 => match k1, k2 with O, O => u00 | O, _ => u01 | _, O => u10 | _, _ => u11 end))).
  apply (mixed_ll_sum 2 ty02 c02 2 ty02 c02 1 0 0 (fun k2 a => inner log_erfc 1 (ty02 k2) (c02 k2) (0 - (0 - a)))).
  - intros k2 a K2. apply inner_cl; [exact HL|exact T0| |apply W]. destruct k2; cbn; lia.
  - intros k1 k2 K1 K2. destruct k1 as [|[|]], k2 as [|[|]]; try lia; assumption.
Qed.

(** the variance of a line made of these two components is not negative, but the
    mixed model returns a number below -500 *)
Theorem C64_gauss_gamma_band_refuted : exists pm,
  damping pm (fun _ => 0%nat) 0%nat = 1
  /\ (forall k, (k < 2)%nat -> area (stored exp pm 3 k) = 1 /\ 1/2 <= width (stored exp pm 3 k) <= 1000)
  /\ (exists v, cov_ll (mixed_response 2 ty02 (stored exp pm 3)) (mixed_response 2 ty02 (stored exp pm 3)) (damping pm (fun _ => 0%nat) 0%nat) 0 0 v /\ 0 <= v)
  /\ Sll_mmap log_erfc erfc (fun _ => 0%nat) (fun _ _ => 3%nat) 2 ty02 0 0 pm 0 0 < - 500.
Proof.
  exists pm02. assert (D1 : damping pm02 (fun _ => 0%nat) 0%nat = 1) by (cbn [Nat.add pm02]; apply exp_0).
  split; [exact D1|]. split; [|split].
  - intros k K. fold c02. destruct k as [|[|k]]; [rewrite c02_0|rewrite c02_1|lia]; cbn [area width]; split; try reflexivity; try lra. unfold v02. lra.
  - rewrite D1. fold c02. destruct true_variance as [v H]. exists v. split; [exact H|]. eapply cov_ll_nonneg; [| |exact H];
      intros a; apply mixed_nonneg; intros k _; split; try (left; apply exp_pos); apply exp_pos.
  - rewrite Sll_mmap_is, Sll2_mmap_sum. cbn [sumn ty02 Nat.mul Nat.add nth FP_Sll]. unfold pair_val. fold c02. rewrite c02_0, c02_1. cbn [area centre width].
    replace (exp (pm02 (0 + 2)%nat)) with 1 by (symmetry; apply exp_0). unfold direct, swapped. replace (0 - 0) with 0 by ring.
    pose proof gauss_small. pose proof gamma_small. pose proof wrong_pair. lra.
Qed.
End Witness.
Print Assumptions C64_gauss_gamma_band_refuted.
