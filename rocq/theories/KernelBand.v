(** Inside the tolerance band |taud - tau| < EPS taud the code uses the formula
    for equal time scales although they differ.  The error of that formula
    against the exact covariance is bounded by a small multiple of EPS. *)
From Coq Require Import Reals Lra Lia.
From Coquelicot Require Import Coquelicot.
From Verif Require Import SemisepModel SemisepProofs KernelCalc KernelSpec KernelModel KernelTophat KernelExp KernelExp2 KernelExp3 KernelSym.
Open Scope R_scope.

(** d + tau d' = r with |r| <= B and |d(0)| <= B keeps |d| <= B *)
Lemma decay_upper (tau B : R) (d r : R -> R) : 0 < tau ->
  (forall x, is_derive d x ((r x - d x) / tau)) -> (forall x, 0 <= x -> r x <= B) -> d 0 <= B ->
  forall x, 0 <= x -> d x <= B.
Proof.
  intros T0 D HR H0 x X.
  set (h := fun y => (B - d y) * exp (y / tau)).
  assert (DH : forall y, is_derive h y ((B - r y) / tau * exp (y / tau))).
  { intros y. unfold h. eapply der_eq.
    - apply (der_mult (fun y => B - d y) (fun y => exp (y / tau)) y (0 - (r y - d y) / tau) (exp (y / tau) / tau)).
      + apply (der_minus (fun _ => B) d y 0 ((r y - d y) / tau)); [apply (is_derive_const B y)|apply D].
      + auto_derive; [exact I|]. unfold Rdiv. ring.
    - cbv beta. field. lra. }
  destruct (MVT_gen h 0 x (fun y => (B - r y) / tau * exp (y / tau))) as (c & Hc & E).
  - intros; apply DH.
  - intros y _. apply continuity_pt_filterlim. apply ex_derive_cont. eexists. apply DH.
  - rewrite Rmin_left, Rmax_right in Hc by lra.
    assert (P : 0 <= (B - r c) / tau * exp (c / tau) * (x - 0)).
    { apply Rmult_le_pos; [|lra]. apply Rmult_le_pos; [|apply Rlt_le, exp_pos]. apply Rmult_le_pos; [pose proof (HR c ltac:(lra)); lra|].
      left. apply Rinv_0_lt_compat, T0. }
    rewrite <- E in P. unfold h in P. replace (0 / tau) with 0 in P by (unfold Rdiv; ring). rewrite exp_0 in P.
    pose proof (exp_pos (x / tau)). apply Rnot_lt_le. intros Lt. nra.
Qed.
Lemma decay_bound (tau B : R) (d r : R -> R) : 0 < tau ->
  (forall x, is_derive d x ((r x - d x) / tau)) -> (forall x, 0 <= x -> Rabs (r x) <= B) -> Rabs (d 0) <= B ->
  forall x, 0 <= x -> Rabs (d x) <= B.
Proof.
  intros T0 D HR H0 x X. apply Rabs_le_between. split.
  - cut (- d x <= B); [lra|]. apply (decay_upper tau B (fun y => - d y) (fun y => - r y) T0); auto.
    + intros y. eapply der_eq; [apply der_opp, D|]. field. lra.
    + intros y Y. pose proof (HR y Y) as Q. apply Rabs_le_between in Q. lra.
    + apply Rabs_le_between in H0. lra.
  - apply (decay_upper tau B d r T0); auto.
    + intros y Y. pose proof (HR y Y) as Q. apply Rabs_le_between in Q. lra.
    + apply Rabs_le_between in H0. lra.
Qed.

Lemma ep_bound_pos T a0 a1 a2 x : 0 < T -> 0 <= x -> Rabs (ep (- T) a0 a1 a2 x) <= Rabs a0 + Rabs a1 * T + 4 * Rabs a2 * (T * T).
Proof.
  intros T0 X. replace (ep (- T) a0 a1 a2 x) with (ep T a0 (- a1) a2 (- x)).
  - rewrite <- (Rabs_Ropp a1). apply ep_bound; lra.
  - unfold ep. replace (- x / T) with (x / - T) by (field; lra). ring.
Qed.

Definition in_band (T tau : R) : Prop := Rabs ((T - tau) / T) < EPS.
Lemma in_band_range T tau : 0 < T -> in_band T tau -> exists e, tau = T * (1 - e) /\ (T - tau) / T = e /\ Rabs e < EPS /\ -1/1000 < e < 1/1000.
Proof.
  intros T0 H. exists ((T - tau) / T). assert (E : tau = T * (1 - (T - tau) / T)) by (field; lra).
  repeat split; auto; unfold in_band, EPS in H; apply Rabs_def2 in H; lra.
Qed.

Section Band.
Variables T tau : R.
Hypothesis T0 : 0 < T.
Hypothesis tau0 : 0 < tau.
Hypothesis NE : T <> tau.
Let p1 := (T + tau) / T.
Let p2 := (T - tau) / T.

(** the formulas for equal scales *)
Definition bE : R -> R := ep (- T) (1 / p1) (/ T) 0.
Definition bG : R -> R := ep (- T) (1 / (p1 * p1)) (1 / (T * p1)) (1 / (2 * (T * T))).
Definition xE : R -> R := ep2 (- T) (1 / p2) 0 0 (- tau) (- 1 / p2 + 1 / p1) 0 0.
Definition xG : R -> R := ep2 (- T) (1 / (p2 * p2)) 0 0 (- tau) (- 1 / (p2 * p2) + 1 / (p1 * p1)) (- 1 / (tau * p2) + 1 / (tau * p1)) 0.

Lemma xE_ode x : is_derive xE x ((ep2 (- T) 1 0 0 (- tau) 0 0 0 x - xE x) / tau).
Proof. unfold xE. apply ep2_ode; try lra; unfold p1, p2; try (field; lra). Qed.
Lemma xG_ode x : is_derive xG x ((xE x - xG x) / tau).
Proof. unfold xG, xE. apply ep2_ode; try lra; unfold p1, p2; try (field; lra). Qed.

Hypothesis B : in_band T tau.
Lemma p1_near : exists e, tau = T * (1 - e) /\ p2 = e /\ p1 = 2 - e /\ Rabs e < EPS /\ -1/1000 < e < 1/1000.
Proof.
  destruct (in_band_range T tau T0 B) as (e & E1 & E2 & E3 & E4). exists e. repeat split; try tauto; try lra.
  unfold p1. rewrite E1. field. lra.
Qed.

Lemma small_coeff a e : Rabs a <= 1 -> Rabs (e * a) <= Rabs e.
Proof. intros H. rewrite Rabs_mult. rewrite <- (Rmult_1_r (Rabs e)) at 2. apply Rmult_le_compat_l; [apply Rabs_pos|exact H]. Qed.
Lemma inv_p e : -1/1000 < e < 1/1000 -> 0 < / (2 - e) < 1.
Proof. intros H. split; [apply Rinv_0_lt_compat; lra|]. rewrite <- Rinv_1. apply Rinv_lt_contravar; lra. Qed.

Lemma bE_error x : 0 <= x -> Rabs (bE x - xE x) <= 2 * EPS.
Proof.
  destruct p1_near as (e & Et & E2 & E1 & Ee & Er). pose proof (inv_p e Er) as IP.
  apply (decay_bound tau (2 * EPS) (fun x => bE x - xE x) (ep (- T) (e * (/ (2 - e) - 1)) (e / T) 0) tau0).
  - intros y. eapply der_eq.
    + apply (der_minus bE xE y); [unfold bE; eapply ep_ode; [lra|apply (Rgt_not_eq tau 0 tau0)|reflexivity..]|apply xE_ode].
    + replace (bE y) with (ep (- T) (1 / p1) (/ T) 0 y) by reflexivity.
      unfold ep2, ep. rewrite E1, Et. field. lra.
  - intros y Y. eapply Rle_trans; [apply ep_bound_pos; assumption|].
    rewrite Rabs_R0. assert (Rabs (e * (/ (2 - e) - 1)) <= Rabs e) by (apply small_coeff, Rabs_le_between; lra).
    assert (Rabs (e / T) * T = Rabs e).
    { unfold Rdiv. rewrite Rabs_mult, (Rabs_pos_eq (/ T)) by (apply Rlt_le, Rinv_0_lt_compat; lra). field. lra. }
    lra.
  - unfold bE, xE. rewrite ep2_0. unfold ep. replace (0 / - T) with 0 by (field; lra). rewrite exp_0.
    replace (_ - _) with 0 by (unfold Rdiv; ring). rewrite Rabs_R0. unfold EPS. lra.
Qed.
Lemma bG_error x : 0 <= x -> Rabs (bG x - xG x) <= 6 * EPS.
Proof.
  destruct p1_near as (e & Et & E2 & E1 & Ee & Er). pose proof (inv_p e Er) as IP.
  apply (decay_bound tau (6 * EPS) (fun x => bG x - xG x)
    (fun y => ep (- T) (e * (/ (2 - e) * / (2 - e) - / (2 - e))) (e / T * (/ (2 - e) - 1)) (e / (2 * (T * T))) y + (bE y - xE y)) tau0).
  - intros y. eapply der_eq.
    + apply (der_minus bG xG y); [unfold bG; eapply ep_ode; [lra|apply (Rgt_not_eq tau 0 tau0)|reflexivity..]|apply xG_ode].
    + replace (bG y) with (ep (- T) (1 / (p1 * p1)) (1 / (T * p1)) (1 / (2 * (T * T))) y) by reflexivity.
      replace (bE y) with (ep (- T) (1 / p1) (/ T) 0 y) by reflexivity.
      unfold ep. rewrite E1, Et. field. lra.
  - intros y Y. eapply Rle_trans; [apply Rabs_triang|]. pose proof (bE_error y Y).
    cut (Rabs (ep (- T) (e * (/ (2 - e) * / (2 - e) - / (2 - e))) (e / T * (/ (2 - e) - 1)) (e / (2 * (T * T))) y) <= 4 * EPS); [lra|].
    eapply Rle_trans; [apply ep_bound_pos; assumption|].
    assert (Rabs (e * (/ (2 - e) * / (2 - e) - / (2 - e))) <= Rabs e) by (apply small_coeff, Rabs_le_between; nra).
    assert (Rabs (e / T * (/ (2 - e) - 1)) * T <= Rabs e).
    { replace (e / T * (/ (2 - e) - 1)) with (/ T * (e * (/ (2 - e) - 1))) by (unfold Rdiv; ring).
      rewrite Rabs_mult, (Rabs_pos_eq (/ T)) by (apply Rlt_le, Rinv_0_lt_compat; lra).
      replace (/ T * Rabs (e * (/ (2 - e) - 1)) * T) with (Rabs (e * (/ (2 - e) - 1))) by (field; lra).
      apply small_coeff, Rabs_le_between; lra. }
    assert (4 * Rabs (e / (2 * (T * T))) * (T * T) <= 2 * Rabs e).
    { unfold Rdiv. rewrite Rabs_mult, (Rabs_pos_eq (/ _)) by (apply Rlt_le, Rinv_0_lt_compat; nra). right. field. lra. }
    lra.
  - unfold bG, xG. rewrite ep2_0. unfold ep. replace (0 / - T) with 0 by (field; lra). rewrite exp_0.
    replace (_ - _) with 0 by (unfold Rdiv; ring). rewrite Rabs_R0. unfold EPS. lra.
Qed.
End Band.

(** the code against the exact covariance, whatever the scales *)
Lemma not_in_band T tau : 0 < T -> ~ in_band T tau -> clear_of_band T tau.
Proof.
  intros T0 H. left. unfold in_band in H. apply Rnot_lt_le in H.
  unfold Rdiv in H. rewrite Rabs_mult, (Rabs_pos_eq (/ T)) in H by (apply Rlt_le, Rinv_0_lt_compat; lra). exact H.
Qed.
Lemma band_dec T tau : 0 < T -> clear_of_band T tau \/ (in_band T tau /\ T <> tau).
Proof.
  intros T0. destruct (Rlt_dec (Rabs ((T - tau) / T)) EPS) as [H|H].
  - destruct (Req_dec T tau) as [->|N]; [left; right; reflexivity|right; split; assumption].
  - left. apply not_in_band; assumption.
Qed.
Lemma scale_error a e f k : Rabs (a - e) <= k -> Rabs (f * a - f * e) <= Rabs f * k.
Proof. intros H. rewrite <- Rmult_minus_distr_l, Rabs_mult. apply Rmult_le_compat_l; [apply Rabs_pos|exact H]. Qed.

Lemma slc1_exp_error T f c tau D : 0 < T -> 0 < tau ->
  Rabs (slc1_exp T f c tau D - f * cE T tau (D - (c - tau))) <= Rabs f * (2 * EPS).
Proof.
  intros T0 W. assert (E0 : 0 <= EPS) by (unfold EPS; lra). pose proof (Rabs_pos f).
  destruct (band_dec T tau T0) as [C|[IB N]].
  - rewrite slc1_exp_exact by assumption. rewrite Rminus_diag_eq, Rabs_R0 by reflexivity. nra.
  - unfold slc1_exp. cbv zeta. set (x := D - (c - tau)). pose proof (p1_pos T tau T0 W) as P1. unfold cE, glue.
    destruct (Rle_dec x 0) as [L|L].
    + unfold cE_l, ep2, ep. replace (_ - _) with 0 by (unfold Rdiv; ring). rewrite Rabs_R0. nra.
    + destruct (Rlt_dec (Rabs ((T - tau) / T)) EPS); [|contradiction].
      unfold cE_r. destruct (Req_EM_T T tau); [contradiction|].
      rewrite (Rmult_comm _ f).
      replace (exp (- x / T) * (x / T + 1 / ((T + tau) / T))) with (bE T tau x).
      * apply scale_error. apply bE_error; try assumption. lra.
      * unfold bE, ep. replace (x / - T) with (- x / T) by (field; lra). unfold Rdiv. ring.
Qed.
Lemma slc1_gamma_error T f c tau D : 0 < T -> 0 < tau ->
  Rabs (slc1_gamma T f c tau D - f * cG T tau (D - (c - 2 * tau))) <= Rabs f * (6 * EPS).
Proof.
  intros T0 W. assert (E0 : 0 <= EPS) by (unfold EPS; lra). pose proof (Rabs_pos f).
  destruct (band_dec T tau T0) as [C|[IB N]].
  - rewrite slc1_gamma_exact by assumption. rewrite Rminus_diag_eq, Rabs_R0 by reflexivity. nra.
  - unfold slc1_gamma. cbv zeta. set (x := D - (c - 2 * tau)). pose proof (p1_pos T tau T0 W) as P1. unfold cG, glue.
    destruct (Rle_dec x 0) as [L|L].
    + unfold cG_l, ep2, ep. replace (_ - _) with 0 by (field; lra). rewrite Rabs_R0. nra.
    + destruct (Rlt_dec (Rabs ((T - tau) / T)) EPS); [|contradiction].
      unfold cG_r. destruct (Req_EM_T T tau); [contradiction|].
      rewrite (Rmult_comm _ f).
      match goal with |- Rabs (f * ?a - _) <= _ => replace a with (bG T tau x) end.
      * apply scale_error. apply bG_error; try assumption. lra.
      * unfold bG, ep. replace (x / - T) with (- x / T) by (field; lra). field. lra.
Qed.
