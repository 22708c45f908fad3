(** The closed forms for exponential and gamma responses, branch by branch. *)
From Coq Require Import Reals Lra Lia.
From Coquelicot Require Import Coquelicot.
From Verif Require Import SemisepModel SemisepProofs KernelCalc KernelSpec KernelModel KernelTophat KernelExp.
Open Scope R_scope.

(** [H + tau H' = g] *)
Definition ode (tau : R) (H g : R -> R) : Prop := forall x, is_derive H x ((g x - H x) / tau).

(** ** The exact covariances of one component, as functions of the time
    difference, for unit amplitude and start 0 *)
Section One.
Variables T tau : R.
Hypothesis T0 : 0 < T.
Hypothesis tau0 : 0 < tau.
Let p1 := (T + tau) / T.
Let p2 := (T - tau) / T.

(** exponential response *)
Definition cE_l : R -> R := ep2 T (1 / p1) 0 0 T 0 0 0.
Definition cE_r : R -> R :=
  if Req_EM_T T tau then ep2 (- T) (1 / p1) (/ T) 0 (- tau) 0 0 0
  else ep2 (- T) (1 / p2) 0 0 (- tau) (- 1 / p2 + 1 / p1) 0 0.
Definition cE : R -> R := glue cE_l cE_r.
(** gamma response *)
Definition cG_l : R -> R := ep2 T (1 / (p1 * p1)) 0 0 T 0 0 0.
Definition cG_r : R -> R :=
  if Req_EM_T T tau then ep2 (- T) (1 / (p1 * p1)) (1 / (T * p1)) (1 / (2 * (T * T))) (- tau) 0 0 0
  else ep2 (- T) (1 / (p2 * p2)) 0 0 (- tau) (- 1 / (p2 * p2) + 1 / (p1 * p1)) (- 1 / (tau * p2) + 1 / (tau * p1)) 0.
Definition cG : R -> R := glue cG_l cG_r.

Lemma cE_0 : cE_l 0 = cE_r 0.
Proof. unfold cE_l, cE_r. destruct (Req_EM_T T tau); rewrite !ep2_0; unfold Rdiv; ring. Qed.
Lemma cG_0 : cG_l 0 = cG_r 0.
Proof. unfold cG_l, cG_r. destruct (Req_EM_T T tau); rewrite !ep2_0; unfold Rdiv; ring. Qed.

Lemma e0_ep x : e0 T x = glue (ep2 T 1 0 0 T 0 0 0) (ep2 (- T) 1 0 0 (- tau) 0 0 0) x.
Proof.
  rewrite e0_glue. unfold glue. destruct (Rle_dec x 0); unfold ep2, ep.
  - ring.
  - replace (- x / T) with (x / - T) by (field; lra). ring.
Qed.
Lemma cE_ode : ode tau cE (e0 T).
Proof.
  intros x. rewrite e0_ep. unfold cE. apply glue_ode; [lra| | |apply cE_0|rewrite !ep2_0; ring].
  - intros y. apply ep2_ode; try lra; unfold p1; try (field; lra).
  - intros y. unfold cE_r. destruct (Req_EM_T T tau) as [E|NE].
    + apply ep2_ode; try lra; unfold p1; try (rewrite <- E; field; lra).
    + apply ep2_ode; try lra; unfold p1, p2; try (field; lra).
Qed.
Lemma cG_ode : ode tau cG cE.
Proof.
  intros x. unfold cG, cE. apply glue_ode; [lra| | |apply cG_0|apply cE_0].
  - intros y. apply ep2_ode; try lra; unfold p1; try (field; lra).
  - intros y. unfold cG_r, cE_r. destruct (Req_EM_T T tau) as [E|NE].
    + apply ep2_ode; try lra; unfold p1; try (rewrite <- E; field; lra).
    + apply ep2_ode; try lra; unfold p1, p2; try (field; lra).
Qed.
Lemma cE_bound : exists C, forall x, x <= 0 -> Rabs (cE x) <= C.
Proof. destruct (ep2_bound T (1 / p1) 0 0 T 0 0 0 T0 T0) as [C HC]. exists C. apply glue_bound. exact HC. Qed.
Lemma cG_bound : exists C, forall x, x <= 0 -> Rabs (cG x) <= C.
Proof. destruct (ep2_bound T (1 / (p1 * p1)) 0 0 T 0 0 0 T0 T0) as [C HC]. exists C. apply glue_bound. exact HC. Qed.
Lemma cE_continuous x : continuous cE x.
Proof. apply ex_derive_cont. eexists. apply cE_ode. Qed.
Lemma cG_continuous x : continuous cG x.
Proof. apply ex_derive_cont. eexists. apply cG_ode. Qed.

(** what the code computes *)
Definition clear_of_band : Prop := EPS <= Rabs (T - tau) / T \/ tau = T.
Lemma band_cases : clear_of_band ->
  (T = tau /\ Rabs ((T - tau) / T) < EPS) \/ (T <> tau /\ ~ Rabs ((T - tau) / T) < EPS).
Proof.
  assert (E0 : 0 < EPS) by (unfold EPS; lra).
  assert (RA : Rabs ((T - tau) / T) = Rabs (T - tau) / T).
  { unfold Rdiv. rewrite Rabs_mult, (Rabs_pos_eq (/ T)); [reflexivity|]. left. apply Rinv_0_lt_compat. lra. }
  intros [H| ->].
  - right. split; [|lra]. intros ->. rewrite Rminus_diag_eq, Rabs_R0 in H by reflexivity. unfold Rdiv in H. lra.
  - left. split; [reflexivity|]. rewrite Rminus_diag_eq by reflexivity. unfold Rdiv. rewrite Rmult_0_l, Rabs_R0. exact E0.
Qed.
Lemma p1_pos : 0 < p1.
Proof. unfold p1. apply Rdiv_lt_0_compat; lra. Qed.
Lemma slc1_exp_exact f c D : clear_of_band -> slc1_exp T f c tau D = f * cE (D - (c - tau)).
Proof.
  intros B. unfold slc1_exp. cbv zeta. set (x := D - (c - tau)). fold p1 p2. pose proof p1_pos as P1. unfold cE, glue.
  destruct (Rle_dec x 0) as [L|L]; [unfold cE_l, ep2, ep; field; lra|].
  unfold cE_r. destruct (band_cases B) as [[E S]|[E S]]; fold p2 in S.
  - destruct (Rlt_dec (Rabs p2) EPS); [|contradiction]. destruct (Req_EM_T T tau); [|contradiction].
    unfold ep2, ep. replace (x / - T) with (- x / T) by (field; lra). unfold Rdiv. ring.
  - destruct (Rlt_dec (Rabs p2) EPS); [contradiction|]. destruct (Req_EM_T T tau); [contradiction|].
    unfold ep2, ep. replace (x / - T) with (- x / T) by (field; lra). replace (x / - tau) with (- x / tau) by (field; lra). unfold Rdiv. ring.
Qed.
Lemma slc1_gamma_exact f c D : clear_of_band -> slc1_gamma T f c tau D = f * cG (D - (c - 2 * tau)).
Proof.
  intros B. unfold slc1_gamma. cbv zeta. set (x := D - (c - 2 * tau)). fold p1 p2. unfold cG, glue. pose proof p1_pos as P1.
  destruct (Rle_dec x 0) as [L|L]; [unfold cG_l, ep2, ep; field; lra|].
  unfold cG_r. destruct (band_cases B) as [[E S]|[E S]]; fold p2 in S.
  - destruct (Rlt_dec (Rabs p2) EPS); [|contradiction]. destruct (Req_EM_T T tau); [|contradiction].
    unfold ep2, ep. replace (x / - T) with (- x / T) by (field; lra). field. lra.
  - destruct (Rlt_dec (Rabs p2) EPS); [contradiction|]. destruct (Req_EM_T T tau); [contradiction|].
    assert (p2 <> 0). { unfold p2. intros Z. apply E. apply Rmult_eq_compat_r with (r := T) in Z. unfold Rdiv in Z. rewrite Rmult_assoc, Rinv_l in Z by lra. lra. }
    unfold ep2, ep. replace (x / - T) with (- x / T) by (field; lra). replace (x / - tau) with (- x / tau) by (field; lra). field. lra.
Qed.
End One.

Lemma exp_cl T c tc tl : 0 < T -> 0 < width c -> 
  cov_cl (exponential c) T tc tl (area c * cE T (width c) (tl - tc - (centre c - width c))).
Proof.
  intros T0 W. unfold cov_cl. destruct (cE_bound T (width c) T0) as [C HC].
  pose proof (exp_conv (cE T (width c)) (e0 T) (area c) (centre c - width c) (width c) (tl - tc) C W
    (cE_ode T (width c) T0 W) (e0_continuous T) HC) as G.
  eapply wl_ext; [|exact G]. intros a. cbv beta. unfold exponential, e0.
  replace (tc - (tl - a)) with (- (tl - tc - a)) by ring. rewrite Rabs_Ropp. reflexivity.
Qed.
Lemma gamma_cl T c tc tl : 0 < T -> 0 < width c ->
  cov_cl (gamma2 c) T tc tl (area c * cG T (width c) (tl - tc - (centre c - 2 * width c))).
Proof.
  intros T0 W. unfold cov_cl. destruct (cE_bound T (width c) T0) as [C HC]. destruct (cG_bound T (width c) T0) as [C' HC'].
  pose proof (gamma_conv (cG T (width c)) (cE T (width c)) (e0 T) (area c) (centre c - 2 * width c) (width c) (tl - tc) (Rmax C C') W
    (cG_ode T (width c) T0 W) (cE_ode T (width c) T0 W) (e0_continuous T)) as G.
  eapply wl_ext; [|apply G].
  - intros a. cbv beta. unfold gamma2, e0.
    replace (tc - (tl - a)) with (- (tl - tc - a)) by ring. rewrite Rabs_Ropp. reflexivity.
  - intros x X. eapply Rle_trans; [apply HC', X|apply Rmax_r].
  - intros x X. eapply Rle_trans; [apply HC, X|apply Rmax_l].
Qed.
