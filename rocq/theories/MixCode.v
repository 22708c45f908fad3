(** The formulas of the code are the exact forms of MixForms.v. *)
From Coq Require Import Reals Lra Lia.
From Coquelicot Require Import Coquelicot.
From Verif Require Import SemisepModel SemisepProofs KernelModel KernelCalc KernelSpec KernelTophat KernelExp KernelExp2 KernelExp3 KernelGauss KernelGauss2
  MixSpec MixModel MixGauss MixForms.
Open Scope R_scope.

Lemma erfc_is erfc x : erfc_correct erfc -> erfc x = (L - Phi x) / L.
Proof.
  intros H.
  pose proof (is_RInt_gen_unique (V := R_CompleteNormedModule) _ _ (H x)) as E1.
  pose proof (is_RInt_gen_unique (V := R_CompleteNormedModule) _ _ (erfc_integral x)) as E2. congruence.
Qed.
Lemma erfc_exists : erfc_correct (fun x => (L - Phi x) / L).
Proof. exact erfc_integral. Qed.

Section Code.
Variables log_erfc erfc : R -> R.
Hypothesis HL : log_erfc_correct log_erfc.
Hypothesis HE : erfc_correct erfc.
Variable T : R.
Hypothesis T0 : 0 < T.

(** the special branch is taken exactly for equal time scales *)
Definition apart (v : R) : Prop := EPS < Rabs (T - v) \/ v = T.
Lemma apart_cases v : apart v -> (T = v /\ ~ EPS < Rabs (T - v)) \/ (T <> v /\ EPS < Rabs (T - v)).
Proof.
  assert (E0 : 0 < EPS) by (unfold EPS; lra).
  intros [H| ->].
  - right. split; [|exact H]. intros ->. rewrite Rminus_diag_eq, Rabs_R0 in H by reflexivity. lra.
  - left. split; [reflexivity|]. rewrite Rminus_diag_eq, Rabs_R0 by reflexivity. lra.
Qed.

Section G.
Variable w : R.
Hypothesis W : 0 < w.
Lemma E_M0 ka x e z : e = ka * x + ka * ka * (w * w) / 2 -> z = (x / w + ka * w) / sqrt 2 -> exp (e + log_erfc z) = 2 * M0 w ka x.
Proof. intros -> ->. pose proof L_pos. rewrite exp_plus, (erfc_value log_erfc) by exact HL. unfold M0. field. lra. Qed.
Lemma E_nd x e : e = - (x * x) / (2 * (w * w)) -> exp e / sqrt (PI / 2) = 2 * w * nd w x.
Proof.
  intros ->. pose proof L_pos. pose proof sqrt2_pos. unfold nd.
  assert (S : sqrt (PI / 2) = 2 * L / sqrt 2).
  { rewrite sqrt_div_alt by lra. rewrite sqrtPI. reflexivity. }
  rewrite S. transitivity (exp (- (x * x) / (2 * (w * w))) * (sqrt 2 * sqrt 2) / (sqrt 2 * (2 * L))).
  - field. split; lra.
  - rewrite sqrt2_sq. field. repeat split; lra.
Qed.
Lemma E_erfc x z : z = x / w / sqrt 2 -> erfc z = 2 * M0 w 0 x.
Proof.
  intros ->. pose proof L_pos. rewrite (erfc_is erfc) by exact HE. unfold M0.
  replace (0 * x + 0 * 0 * (w * w) / 2) with 0 by field. rewrite exp_0.
  replace ((x / w + 0 * w) / sqrt 2) with (x / w / sqrt 2) by (unfold Rdiv; ring). field. lra.
Qed.

Ltac em ka x := match goal with |- context [exp (?e + log_erfc ?z)] =>
  rewrite (E_M0 ka x e z) by (pose proof sqrt2_pos; field; repeat split; lra) end.
Lemma M1_val ka x : M1 w ka x = (x + ka * (w * w)) * M0 w ka x - w * w * nd w x.
Proof. reflexivity. Qed.
Lemma M2_val ka x : M2 w ka x = ((x + ka * (w * w)) * (x + ka * (w * w)) + w * w) * M0 w ka x - w * w * (x + ka * (w * w)) * nd w x.
Proof. reflexivity. Qed.

Lemma gau_exp_exact f1 c1 f2 c2 v D : 0 < v -> apart v ->
  mix_gau_exp log_erfc T f1 c1 w f2 c2 v D = f1 * (f2 * Pge T w v (D - (c1 - (c2 - v)))).
Proof.
  intros V A. unfold mix_gau_exp. cbv zeta. set (x := D - (c1 - (c2 - v))). unfold Pge.
  destruct (apart_cases v A) as [[E N]|[E N]]; destruct (Rlt_dec EPS (Rabs (T - v))), (Req_EM_T T v); try contradiction.
  - rewrite M1_val. rewrite (E_nd x) by (field; lra).
    em (/ T) (- x). repeat em (/ T) x. rewrite <- E. field. repeat split; lra.
  - em (/ T) (- x). em (/ T) x. em (/ v) x. field. repeat split; lra.
Qed.
Lemma gau_gam_exact f1 c1 f2 c2 v D : 0 < v -> apart v ->
  mix_gau_gam log_erfc T f1 c1 w f2 c2 v D = f1 * (f2 * Pgg T w v (D - (c1 - (c2 - 2 * v)))).
Proof.
  intros V A. unfold mix_gau_gam. cbv zeta. set (x := D - (c1 - (c2 - 2 * v))). unfold Pgg.
  destruct (apart_cases v A) as [[E N]|[E N]]; destruct (Rlt_dec EPS (Rabs (T - v))), (Req_EM_T T v); try contradiction.
  - rewrite M1_val, M2_val.
    replace ((x / w + w / T) * exp (- x * x / (w * w) / 2) / sqrt (PI / 2)) with ((x / w + w / T) * (exp (- x * x / (w * w) / 2) / sqrt (PI / 2))) by (unfold Rdiv; ring).
    rewrite !(E_nd x) by (field; lra). rewrite <- E.
    em (/ T) (- x). repeat em (/ T) x. field. repeat split; lra.
  - rewrite M1_val. rewrite (E_nd x) by (field; lra). em (/ T) (- x). em (/ T) x. repeat em (/ v) x. field. repeat split; lra.
Qed.
Lemma gau_top_exact f1 c1 f2 c2 v D : 0 < v ->
  mix_gau_top log_erfc erfc T f1 c1 w f2 c2 v D
  = f1 * (f2 * ((Ag T w (D - (c1 - c2) + v) - Ag T w (D - (c1 - c2) - v)) / (2 * v))).
Proof.
  intros V. unfold mix_gau_top. cbv zeta. set (x := D - (c1 - c2)). pose proof sqrt2_pos. unfold Ag.
  rewrite (E_erfc (x - v)) by (field; split; lra). rewrite (E_erfc (x + v)) by (field; split; lra).
  em (/ T) (- (x - v)). em (/ T) (x + v). em (/ T) (x - v). em (/ T) (- (x + v)).
  assert (R : forall y, M0 w 0 (- y) = 1 - M0 w 0 y).
  { intros y. pose proof L_pos. unfold M0. replace (0 * - y + 0 * 0 * (w * w) / 2) with 0 by field. replace (0 * y + 0 * 0 * (w * w) / 2) with 0 by field.
    rewrite exp_0. replace ((- y / w + 0 * w) / sqrt 2) with (- ((y / w + 0 * w) / sqrt 2)) by (field; split; lra). rewrite Phi_odd. field. lra. }
  rewrite (R (x + v)), (R (x - v)). field. lra.
Qed.
Lemma gauss_exact f c D : slc1_gauss log_erfc T f c w D = f * Sg T w (D - c).
Proof.
  rewrite (slc1_gauss_Phi log_erfc HL) by assumption. set (x := D - c). unfold Sg, M0. pose proof sqrt2_pos. pose proof L_pos.
  replace ((- x / w + / T * w) / sqrt 2) with (- ((x / w - w / T) / sqrt 2)) by (field; repeat split; lra). rewrite Phi_odd.
  replace ((x / w + / T * w) / sqrt 2) with ((x / w + w / T) / sqrt 2) by (field; repeat split; lra).
  replace (/ T * - x + / T * / T * (w * w) / 2) with (w * w / (2 * (T * T)) - x / T) by (field; lra).
  replace (/ T * x + / T * / T * (w * w) / 2) with (w * w / (2 * (T * T)) + x / T) by (field; lra).
  field. lra.
Qed.
End G.

(** ** Top-hat against exponential and gamma *)
Lemma exp_top_exact f1 c1 v f2 c2 w D : 0 < v -> 0 < w -> apart v ->
  mix_exp_top T f1 c1 v f2 c2 w D
  = f1 * (f2 * ((Bt T v (D - ((c1 - v) - c2) + w) - Bt T v (D - ((c1 - v) - c2) - w)) / (2 * w))).
Proof.
  intros V W A. unfold mix_exp_top. cbv zeta. set (x := D - (c1 - v - c2)). unfold Bt, cE.
  destruct (Rle_dec x (- w)) as [L1|L1]; [|destruct (Rle_dec x w) as [L2|L2]].
  - rewrite !glue_l, !E1_neg by lra. unfold cE_l, ep2, ep.
    replace (exp ((x + w) / T)) with (exp (x / T) * exp (w / T)) by (rewrite <- exp_plus; f_equal; field; lra).
    replace (exp ((x - w) / T)) with (exp (x / T) * exp (- w / T)) by (rewrite <- exp_plus; f_equal; field; lra).
    field. repeat split; lra.
  - rewrite (E1_pos T (x + w)), (E1_neg T (x - w)), (glue_r _ _ (x + w)), (glue_l _ _ (x - w)) by (first [lra | apply cE_0]).
    unfold cE_l, cE_r.
    destruct (apart_cases v A) as [[E N]|[E N]]; destruct (Rlt_dec EPS (Rabs (T - v))), (Req_EM_T T v); try contradiction; unfold ep2, ep.
    + rewrite <- E. replace (x / T - w / T) with ((x - w) / T) by (field; lra).
      replace ((x + w) / - T) with (- (x + w) / T) by (field; lra). replace (- (w + x) / T) with (- (x + w) / T) by (field; lra).
      field. repeat split; lra.
    + replace (x / T - w / T) with ((x - w) / T) by (field; lra). replace (- x / T - w / T) with (- (x + w) / T) by (field; lra).
      replace ((x + w) / - T) with (- (x + w) / T) by (field; lra). replace ((x + w) / - v) with (- (x + w) / v) by (field; lra).
      replace (- (w + x) / v) with (- (x + w) / v) by (field; lra).
      field. repeat split; lra.
  - rewrite !E1_pos, !glue_r by (first [lra | apply cE_0]). unfold cE_r.
    replace (- (- w + x)) with (- (x - w)) by ring. replace (- (w + x)) with (- (x + w)) by ring.
    destruct (apart_cases v A) as [[E N]|[E N]]; destruct (Rlt_dec EPS (Rabs (T - v))), (Req_EM_T T v); try contradiction; unfold ep2, ep.
    + rewrite <- E. replace ((x + w) / - T) with (- (x + w) / T) by (field; lra). replace ((x - w) / - T) with (- (x - w) / T) by (field; lra).
      field. repeat split; lra.
    + replace ((x + w) / - T) with (- (x + w) / T) by (field; lra). replace ((x - w) / - T) with (- (x - w) / T) by (field; lra).
      replace ((x + w) / - v) with (- (x + w) / v) by (field; lra). replace ((x - w) / - v) with (- (x - w) / v) by (field; lra).
      field. repeat split; lra.
Qed.
Lemma gam_top_exact f1 c1 v f2 c2 w D : 0 < v -> 0 < w -> apart v ->
  mix_gam_top T f1 c1 v f2 c2 w D
  = f1 * (f2 * ((Ct T v (D - ((c1 - 2 * v) - c2) + w) - Ct T v (D - ((c1 - 2 * v) - c2) - w)) / (2 * w))).
Proof.
  intros V W A. unfold mix_gam_top. cbv zeta. set (x := D - (c1 - 2 * v - c2)). unfold Ct, Bt, cE, cG.
  destruct (Rle_dec x (- w)) as [L1|L1]; [|destruct (Rle_dec x w) as [L2|L2]].
  - rewrite !glue_l, !E1_neg by lra. unfold cE_l, cG_l, ep2, ep.
    replace (exp ((x + w) / T)) with (exp (x / T) * exp (w / T)) by (rewrite <- exp_plus; f_equal; field; lra).
    replace (exp ((x - w) / T)) with (exp (x / T) * exp (- w / T)) by (rewrite <- exp_plus; f_equal; field; lra).
    field. repeat split; lra.
  - rewrite (E1_pos T (x + w)), (E1_neg T (x - w)), !(glue_r _ _ (x + w)), !(glue_l _ _ (x - w)) by (first [lra | apply cE_0 | apply cG_0]).
    unfold cE_l, cE_r, cG_l, cG_r.
    replace (- (w + x)) with (- (x + w)) by ring. replace (- (w - x)) with (x - w) by ring.
    destruct (apart_cases v A) as [[E N]|[E N]]; destruct (Rlt_dec EPS (Rabs (T - v))), (Req_EM_T T v); try contradiction; unfold ep2, ep.
    + rewrite <- E. replace ((x + w) / - T) with (- (x + w) / T) by (field; lra). field. repeat split; lra.
    + replace ((x + w) / - T) with (- (x + w) / T) by (field; lra). replace ((x + w) / - v) with (- (x + w) / v) by (field; lra).
      field. repeat split; lra.
  - rewrite !E1_pos, !glue_r by (first [lra | apply cE_0 | apply cG_0]). unfold cE_r, cG_r.
    replace (- ((- w + x) / v)) with (- (x - w) / v) by (field; lra). replace (- ((w + x) / v)) with (- (x + w) / v) by (field; lra).
    replace (- ((- w + x) / T)) with (- (x - w) / T) by (field; lra). replace (- ((w + x) / T)) with (- (x + w) / T) by (field; lra).
    replace (- (- w + x)) with (- (x - w)) by ring. replace (- (w + x)) with (- (x + w)) by ring.
    destruct (apart_cases v A) as [[E N]|[E N]]; destruct (Rlt_dec EPS (Rabs (T - v))), (Req_EM_T T v); try contradiction; unfold ep2, ep.
    + rewrite <- E. replace ((x + w) / - T) with (- (x + w) / T) by (field; lra). replace ((x - w) / - T) with (- (x - w) / T) by (field; lra).
      field. repeat split; lra.
    + replace ((x + w) / - T) with (- (x + w) / T) by (field; lra). replace ((x - w) / - T) with (- (x - w) / T) by (field; lra).
      replace ((x + w) / - v) with (- (x + w) / v) by (field; lra). replace ((x - w) / - v) with (- (x - w) / v) by (field; lra).
      field. repeat split; lra.
Qed.

(** ** Exponential against gamma *)
Lemma exp_gam_with_exact deg f1 c1 v f2 c2 u D : 0 < v -> 0 < u -> apart v -> apart u ->
  (forall p DT, p <> 0 -> deg p DT = 2 / (p * p * p) + DT / (p * p)) ->
  mix_exp_gam_with deg T f1 c1 v f2 c2 u D = f1 * (f2 * Peg T v u (D - ((c1 - v) - (c2 - 2 * u)))).
Proof.
  intros V U A1 A2 HD. unfold mix_exp_gam_with. cbv zeta. set (x := D - (c1 - v - (c2 - 2 * u))). unfold Peg.
  assert (P3 : (T + u) / T / u <> 0). { assert (0 < (T + u) / T / u); [|lra]. apply Rdiv_lt_0_compat; [apply Rdiv_lt_0_compat|]; lra. }
  destruct (Rle_dec 0 x) as [L1|L1].
  - rewrite glue_r by (first [exact L1 | apply Peg_0; assumption]). unfold Peg_r.
    destruct (apart_cases v A1) as [[E N]|[E N]]; destruct (Rlt_dec EPS (Rabs (T - v))), (Req_EM_T T v); try contradiction; unfold ep2, ep.
    + rewrite HD by exact P3. rewrite <- E. replace (x / - T) with (- x / T) by (field; lra). field. repeat split; lra.
    + replace (x / - T) with (- x / T) by (field; lra). replace (x / - v) with (- x / v) by (field; lra). field. repeat split; lra.
  - rewrite glue_l by lra. unfold Peg_l.
    destruct (apart_cases u A2) as [[E N]|[E N]]; destruct (Rlt_dec EPS (Rabs (T - u))), (Req_EM_T T u); try contradiction; unfold ep2, ep.
    + rewrite <- E. field. repeat split; lra.
    + field. repeat split; lra.
Qed.
Lemma exp_gam_exact f1 c1 v f2 c2 u D : 0 < v -> 0 < u -> apart v -> apart u ->
  mix_exp_gam T f1 c1 v f2 c2 u D = f1 * (f2 * Peg T v u (D - ((c1 - v) - (c2 - 2 * u)))).
Proof. intros. apply exp_gam_with_exact; try assumption. intros p x P. field. exact P. Qed.
End Code.
