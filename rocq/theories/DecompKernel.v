(** The closed forms for one component, branch by branch. *)
From Coq Require Import Reals Lra Lia.
From Coquelicot Require Import Coquelicot.
From Verif Require Import SemisepModel SemisepProofs KernelCalc KernelSpec KernelModel KernelExp KernelExp2 KernelExp3 DecompModel.
Open Scope R_scope.

(** the tolerance of src/line_decomp.c is on the difference of the inverse scales *)
Definition clear_inverse (T tau : R) : Prop := EPS <= Rabs (/ tau - / T) \/ tau = T.

Lemma inv_diff T tau : 0 < T -> 0 < tau -> (T - tau) / T / tau = / tau - / T.
Proof. intros. field. lra. Qed.
Lemma inv_sum T tau : 0 < T -> 0 < tau -> (T + tau) / T / tau = / tau + / T.
Proof. intros. field. lra. Qed.
Lemma inverse_cases T tau : 0 < T -> 0 < tau -> clear_inverse T tau ->
  (T = tau /\ Rabs ((T - tau) / T / tau) < EPS) \/ (T <> tau /\ ~ Rabs ((T - tau) / T / tau) < EPS).
Proof.
  intros T0 t0. assert (E0 : 0 < EPS) by (unfold EPS; lra). rewrite inv_diff by assumption. intros [H| ->].
  - right. split; [|lra]. intros ->. rewrite Rminus_diag_eq, Rabs_R0 in H by reflexivity. lra.
  - left. split; [reflexivity|]. rewrite Rminus_diag_eq, Rabs_R0 by reflexivity. exact E0.
Qed.

Section One.
Variables T tau : R.
Hypothesis T0 : 0 < T.
Hypothesis t0 : 0 < tau.
Hypothesis B : clear_inverse T tau.
Lemma slc1s_exp_exact f c D : slc1s_exp T f c tau D = f * cE T tau (D - (c - tau)).
Proof.
  unfold slc1s_exp. cbv zeta. set (x := D - (c - tau)). unfold cE, glue.
  destruct (Rle_dec x 0) as [L|L].
  - unfold cE_l, ep2, ep. field. lra.
  - unfold cE_r. destruct (inverse_cases T tau T0 t0 B) as [[E S]|[E S]].
    + destruct (Rlt_dec _ EPS); [|contradiction]. destruct (Req_EM_T T tau); [|contradiction].
      unfold ep2, ep. replace (x / - T) with (- x / T) by (field; lra). subst tau. field. lra.
    + destruct (Rlt_dec _ EPS); [contradiction|]. destruct (Req_EM_T T tau); [contradiction|].
      unfold ep2, ep. replace (x / - T) with (- x / T) by (field; lra). replace (x / - tau) with (- x / tau) by (field; lra). field. lra.
Qed.
Lemma slc1s_gamma_exact f c D : slc1s_gamma T f c tau D = f * cG T tau (D - (c - 2 * tau)).
Proof.
  unfold slc1s_gamma. cbv zeta. set (x := D - (c - 2 * tau)). unfold cG, glue.
  destruct (Rle_dec x 0) as [L|L].
  - unfold cG_l, ep2, ep. field. lra.
  - unfold cG_r. destruct (inverse_cases T tau T0 t0 B) as [[E S]|[E S]].
    + destruct (Rlt_dec _ EPS); [|contradiction]. destruct (Req_EM_T T tau); [|contradiction].
      unfold ep2, ep. replace (x / - T) with (- x / T) by (field; lra). subst tau. field. lra.
    + destruct (Rlt_dec _ EPS); [contradiction|]. destruct (Req_EM_T T tau); [contradiction|].
      unfold ep2, ep. replace (x / - T) with (- x / T) by (field; lra). replace (x / - tau) with (- x / tau) by (field; lra). field. lra.
Qed.
End One.

Section Two.
Variables T tau1 tau2 : R.
Hypothesis T0 : 0 < T.
Hypothesis t1 : 0 < tau1.
Hypothesis t2 : 0 < tau2.
Hypothesis B1 : clear_inverse T tau1.
Hypothesis B2 : clear_inverse T tau2.
Lemma p5_eq : (T - tau1) / T / tau1 + (T + tau2) / T / tau2 = (tau1 + tau2) / (tau1 * tau2).
Proof. field. lra. Qed.
Lemma sll1s_exp_exact f1 c1 f2 c2 D :
  sll1s_exp T f1 c1 tau1 f2 c2 tau2 D = f1 * (f2 * lE T tau1 tau2 (D - ((c1 - tau1) - (c2 - tau2)))).
Proof.
  unfold sll1s_exp. cbv zeta. rewrite p5_eq. set (x := D - (c1 - tau1 - (c2 - tau2))). unfold lE, glue. destruct (Rle_dec x 0) as [L|L].
  - unfold lE_l. destruct (inverse_cases T tau2 T0 t2 B2) as [[E S]|[E S]];
    destruct (Rlt_dec _ EPS), (Req_EM_T T tau2); try contradiction; unfold ep2, ep.
    + subst tau2. field. repeat split; lra.
    + field. repeat split; lra.
  - unfold lE_r. destruct (inverse_cases T tau1 T0 t1 B1) as [[E S]|[E S]];
    destruct (Rlt_dec _ EPS), (Req_EM_T T tau1); try contradiction; unfold ep2, ep;
    replace (x / - T) with (- x / T) by (field; lra); replace (x / - tau1) with (- x / tau1) by (field; lra).
    + subst tau1. field. repeat split; lra.
    + field. repeat split; lra.
Qed.
Lemma sll1s_gamma_exact f1 c1 f2 c2 D :
  sll1s_gamma T f1 c1 tau1 f2 c2 tau2 D = f1 * (f2 * lG T tau1 tau2 (D - ((c1 - 2 * tau1) - (c2 - 2 * tau2)))).
Proof.
  unfold sll1s_gamma. cbv zeta. rewrite p5_eq. set (x := D - (c1 - 2 * tau1 - (c2 - 2 * tau2))). unfold lG, glue. destruct (Rle_dec x 0) as [L|L].
  - unfold lG_l, lG_l_of. destruct (inverse_cases T tau2 T0 t2 B2) as [[E S]|[E S]];
    destruct (Rlt_dec _ EPS), (Req_EM_T T tau2); try contradiction; unfold ep2, ep.
    + subst tau2. field. repeat split; lra.
    + field. repeat split; lra.
  - unfold lG_r, lG_r_of. destruct (inverse_cases T tau1 T0 t1 B1) as [[E S]|[E S]];
    destruct (Rlt_dec _ EPS), (Req_EM_T T tau1); try contradiction; unfold ep2, ep;
    replace (x / - T) with (- x / T) by (field; lra); replace (x / - tau1) with (- x / tau1) by (field; lra).
    + subst tau1. field. repeat split; lra.
    + field. repeat split; lra.
Qed.
End Two.
