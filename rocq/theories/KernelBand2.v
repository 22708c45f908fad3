(** The same for the line-line covariances. *)
From Coq Require Import Reals Lra Lia.
From Coquelicot Require Import Coquelicot.
From Verif Require Import SemisepModel SemisepProofs KernelCalc KernelSpec KernelModel KernelTophat KernelExp KernelExp2 KernelExp3 KernelSym KernelBand.
Open Scope R_scope.

Lemma Rabs_prod x y X Y : Rabs x <= X -> Rabs y <= Y -> Rabs (x * y) <= X * Y.
Proof. intros H1 H2. rewrite Rabs_mult. apply Rmult_le_compat; try assumption; apply Rabs_pos. Qed.
Lemma Rabs_sum x y X Y : Rabs x <= X -> Rabs y <= Y -> Rabs (x + y) <= X + Y.
Proof. intros H1 H2. eapply Rle_trans; [apply Rabs_triang|]. lra. Qed.
Lemma Rabs_in x X : - X <= x <= X -> Rabs x <= X.
Proof. apply Rabs_le_between. Qed.

(** With T = 1: tau1 = 1 - e, tau2 = b, s = 1 + b. *)
Section Bounds.
Variables e b : R.
Hypothesis He : -1/1000 < e < 1/1000.
Hypothesis Hb : 0 < b.
Let q := / (1 + b).
Let g := / (1 - e + b).
Let h := / (1 - e).
Lemma Hq : 0 < q < 1.
Proof. unfold q. split; [apply Rinv_0_lt_compat; lra|]. rewrite <- Rinv_1 at 2. apply Rinv_lt_contravar; lra. Qed.
Lemma Hh : 99/100 < h < 101/100.
Proof.
  unfold h. split.
  - replace (99/100) with (/ (100/99)) by field. apply Rinv_lt_contravar; [apply Rmult_lt_0_compat|]; lra.
  - replace (101/100) with (/ (100/101)) by field. apply Rinv_lt_contravar; [apply Rmult_lt_0_compat|]; lra.
Qed.
Lemma Hg : 0 < g < 101/100.
Proof.
  unfold g. split; [apply Rinv_0_lt_compat; lra|]. replace (101/100) with (/ (100/101)) by field. apply Rinv_lt_contravar; [apply Rmult_lt_0_compat|]; lra.
Qed.
Lemma Hbg : 0 < b * g < 1.
Proof.
  unfold g. split; [apply Rmult_lt_0_compat; [lra|apply Rinv_0_lt_compat; lra]|].
  apply Rmult_lt_reg_r with (1 - e + b); [lra|]. rewrite Rmult_assoc, Rinv_l by lra. lra.
Qed.
Lemma Hbq : 0 < b * q < 1.
Proof.
  unfold q. split; [apply Rmult_lt_0_compat; [lra|apply Rinv_0_lt_compat; lra]|].
  apply Rmult_lt_reg_r with (1 + b); [lra|]. rewrite Rmult_assoc, Rinv_l by lra. lra.
Qed.
Let i2 := / (2 - e).
Lemma Hi2 : 0 < i2 < 51/100.
Proof.
  unfold i2. split; [apply Rinv_0_lt_compat; lra|]. replace (51/100) with (/ (100/51)) by field. apply Rinv_lt_contravar; [apply Rmult_lt_0_compat|]; lra.
Qed.
(** exponential responses *)
Definition eE0 : R := b * h * (q * q) + i2 * g * (1 - e).
Lemma eE0_bound : 0 <= eE0 <= 2.
Proof.
  pose proof Hq. pose proof Hh. pose proof Hg. pose proof Hbq. pose proof Hi2. unfold eE0.
  replace (b * h * (q * q)) with (h * ((b * q) * q)) by ring.
  assert (A : 0 <= (b * q) * q <= 1) by (split; nra).
  assert (A2 : 0 <= i2 * g <= 6/10) by (split; nra). split; nra.
Qed.
Definition eE_mis : R := (b * q) * (b * q) * (h * g).
Lemma eE_mis_bound : Rabs eE_mis <= 2.
Proof.
  pose proof Hq. pose proof Hh. pose proof Hg. pose proof Hbq. unfold eE_mis.
  assert (0 <= (b * q) * (b * q) <= 1) by (split; nra). assert (0 <= h * g <= 2) by (split; nra). apply Rabs_in. split; nra.
Qed.
Definition eE_1 : R := h * q.
Lemma eE_1_bound : Rabs eE_1 <= 2.
Proof. pose proof Hq. pose proof Hh. unfold eE_1. apply Rabs_in. split; nra. Qed.

(** gamma responses *)
Definition eG0 : R := 3 * ((b * q) * (b * q) * (q * q) * (h * h)) + (1 + 2 * (2 - e) * (b * g)) * (i2 * i2) * (g * (1 - e) * (g * (1 - e))).
Definition eG1 : R := 2 * ((b * q) * (q * q) * (h * h)) + h * i2 * (g * (1 - e) * (g * (1 - e))).
Definition eG2 : R := (h * h) * (q * q) / 2.
Lemma Hgg : 0 <= g * (1 - e) * (g * (1 - e)) <= 11/10.
Proof. pose proof Hg. assert (0 <= g * (1 - e) <= 102/100) by (split; nra). split; nra. Qed.
Lemma Hqq : 0 <= q * q <= 1.
Proof. pose proof Hq. split; nra. Qed.
Lemma Hhh : 0 <= h * h <= 11/10.
Proof. pose proof Hh. split; nra. Qed.
Lemma eG0_bound : Rabs eG0 <= 6.
Proof.
  pose proof Hgg as G. pose proof Hqq as Q. pose proof Hhh as H. pose proof Hbq as B. pose proof Hbg as BG. pose proof Hi2 as I. unfold eG0.
  assert (B2 : 0 <= (b * q) * (b * q) <= 1) by (split; nra).
  assert (C : 0 <= (b * q) * (b * q) * (q * q) <= 1) by (split; nra).
  assert (C1 : 0 <= (b * q) * (b * q) * (q * q) * (h * h) <= 11/10) by (split; nra).
  assert (D : 0 <= 1 + 2 * (2 - e) * (b * g) <= 6) by (split; nra).
  assert (I2 : 0 <= i2 * i2 <= 27/100) by (split; nra).
  assert (D2 : 0 <= (1 + 2 * (2 - e) * (b * g)) * (i2 * i2) <= 162/100) by (split; nra).
  apply Rabs_in. split; nra.
Qed.
Lemma eG1_bound : Rabs eG1 <= 4.
Proof.
  pose proof Hgg as G. pose proof Hqq as Q. pose proof Hhh as H. pose proof Hbq as B. pose proof Hi2 as I. pose proof Hh as H1. unfold eG1.
  assert (C : 0 <= (b * q) * (q * q) <= 1) by (split; nra).
  assert (C1 : 0 <= (b * q) * (q * q) * (h * h) <= 11/10) by (split; nra).
  assert (D : 0 <= h * i2 <= 6/10) by (split; nra).
  apply Rabs_in. split; nra.
Qed.
Lemma eG2_bound : Rabs eG2 <= 1.
Proof. pose proof Hqq. pose proof Hhh. unfold eG2. apply Rabs_in. split; nra. Qed.
Definition eG_mis : R := (b * g) * (b * g) * (b * g) * (q * q) * (8 - e * (7 + 9 * q) + e * e * (2 + 3 * q + 3 * (q * q))) * (h * h).
Lemma eG_mis_bound : Rabs eG_mis <= 20.
Proof.
  pose proof Hqq as Q. pose proof Hhh as H. pose proof Hbg as B. pose proof Hq as Q1. unfold eG_mis.
  assert (B2 : 0 <= (b * g) * (b * g) <= 1) by (split; nra).
  assert (B3 : 0 <= (b * g) * (b * g) * (b * g) <= 1) by (split; nra).
  assert (B4 : 0 <= (b * g) * (b * g) * (b * g) * (q * q) <= 1) by (split; nra).
  assert (E : 0 <= 8 - e * (7 + 9 * q) + e * e * (2 + 3 * q + 3 * (q * q)) <= 9).
  { assert (-1/10 <= e * (7 + 9 * q) <= 1/10) by (split; nra). assert (0 <= e * e <= 1/1000) by (split; nra).
    assert (0 <= e * e * (2 + 3 * q + 3 * (q * q)) <= 1/10) by (split; nra). lra. }
  apply Rabs_in.
  assert (F : 0 <= (b * g) * (b * g) * (b * g) * (q * q) * (8 - e * (7 + 9 * q) + e * e * (2 + 3 * q + 3 * (q * q))) <= 9) by (split; nra).
  split; nra.
Qed.
Definition em_mis : R := eG0 + (b * g) * (b * g) * (q * q) * (3 - e * (1 + 2 * q)) * h.
Lemma em_mis_bound : Rabs em_mis <= 20.
Proof.
  pose proof eG0_bound as G. pose proof Hqq as Q. pose proof Hh as H. pose proof Hbg as B. pose proof Hq as Q1. unfold em_mis.
  assert (B2 : 0 <= (b * g) * (b * g) <= 1) by (split; nra).
  assert (B4 : 0 <= (b * g) * (b * g) * (q * q) <= 1) by (split; nra).
  assert (E : 0 <= 3 - e * (1 + 2 * q) <= 4) by (split; nra).
  assert (F : 0 <= (b * g) * (b * g) * (q * q) * (3 - e * (1 + 2 * q)) <= 4) by (split; nra).
  apply Rle_trans with (6 + 14); [|lra]. apply Rabs_sum; [exact G|]. apply Rabs_in. split; nra.
Qed.
End Bounds.

Section BandLL.
Variables T tau1 tau2 : R.
Hypothesis T0 : 0 < T.
Hypothesis tau10 : 0 < tau1.
Hypothesis tau20 : 0 < tau2.
Hypothesis NE : T <> tau1.
Hypothesis B : in_band T tau1.
Let p1 := (T - tau1) / T.
Let p2 := (T + tau1) / T.
Let p3 := (T + tau2) / T.
Let p51 := (tau1 + tau2) / tau1.
Let p52 := (tau1 + tau2) / tau2.

(** the right branches of the code, for lags x >= 0 *)
Definition blE : R -> R := ep (- T) (tau2 / tau1 / p3 / p3 + 1 / (p2 * p51)) (/ (tau1 * p3)) 0.
Definition blG : R -> R :=
  ep (- T) ((tau2 / tau1) * (tau2 / tau1) / (p3 * p3 * p3 * p3) * 3 + (1 + 2 * p2 / p52) / (p2 * p2 * p51 * p51))
          ((tau2 / tau1) * (tau2 / tau1) / (p3 * p3 * p3 * p3) * (2 * p3 / tau2) + p2 / tau1 / (p2 * p2 * p51 * p51))
          ((tau2 / tau1) * (tau2 / tau1) / (p3 * p3 * p3 * p3) * (p3 * p3 / (tau2 * tau2) / 2)).

Lemma scaled : exists e b, tau1 = T * (1 - e) /\ tau2 = T * b /\ 0 < b /\ e <> 0 /\ Rabs e < EPS /\ -1/1000 < e < 1/1000.
Proof.
  destruct (in_band_range T tau1 T0 B) as (e & E1 & E2 & E3 & E4). exists e, (tau2 / T). repeat split; try tauto; try lra.
  - field. lra.
  - apply Rdiv_lt_0_compat; lra.
  - intros ->. apply NE. rewrite E1. ring.
Qed.
Lemma lE_r_eq x : lE_r T tau1 tau2 x = ep2 (- T) (1 / (p1 * p3)) 0 0 (- tau1) (/ (p1 * p51) * (- 1 + p1 / p2)) 0 0 x.
Proof. unfold lE_r. destruct (Req_EM_T T tau1); [contradiction|reflexivity]. Qed.
Lemma lE_r_ode x : is_derive (lE_r T tau1 tau2) x ((gE_r T tau1 tau2 x - lE_r T tau1 tau2 x) / tau1).
Proof.
  unfold lE_r, gE_r. destruct (Req_EM_T T tau1); [contradiction|].
  apply ep2_ode; try lra; field; repeat split; lra.
Qed.
Lemma ep_scale_bound a0 a1 a2 X0 X1 X2 x : 0 <= x -> Rabs a0 <= X0 -> Rabs a1 <= X1 -> Rabs a2 <= X2 ->
  Rabs (ep (- T) a0 (a1 / T) (a2 / (T * T)) x) <= X0 + X1 + 4 * X2.
Proof.
  intros X H0 H1 H2. eapply Rle_trans; [apply ep_bound_pos; assumption|].
  assert (Rabs (a1 / T) * T = Rabs a1).
  { unfold Rdiv. rewrite Rabs_mult, (Rabs_pos_eq (/ T)) by (apply Rlt_le, Rinv_0_lt_compat; lra). field. lra. }
  assert (4 * Rabs (a2 / (T * T)) * (T * T) = 4 * Rabs a2).
  { unfold Rdiv. rewrite Rabs_mult, (Rabs_pos_eq (/ _)) by (apply Rlt_le, Rinv_0_lt_compat; nra). field. lra. }
  lra.
Qed.

Lemma blE_error x : 0 <= x -> Rabs (blE x - lE_r T tau1 tau2 x) <= 4 * EPS.
Proof.
  destruct scaled as (e & b & E1 & E2 & Pb & Ne & Ee & Er).
  assert (C0 : tau2 / tau1 / p3 / p3 + 1 / (p2 * p51) = eE0 e b).
  { unfold p2, p3, p51, eE0. rewrite E1, E2. field. repeat split; nra. }
  assert (C1 : / (tau1 * p3) = eE_1 e b / T).
  { unfold p3, eE_1. rewrite E1, E2. field. repeat split; nra. }
  apply (decay_bound tau1 (4 * EPS) (fun x => blE x - lE_r T tau1 tau2 x) (ep (- T) (e * eE0 e b) (e * eE_1 e b / T) (0 / (T * T))) tau10).
  - intros y. eapply der_eq.
    + apply (der_minus blE (lE_r T tau1 tau2) y); [unfold blE; eapply ep_ode; [lra|apply (Rgt_not_eq tau1 0 tau10)|reflexivity..]|apply lE_r_ode].
    + replace (blE y) with (ep (- T) (eE0 e b) (eE_1 e b / T) 0 y) by (unfold blE; rewrite C0, C1; reflexivity).
      rewrite C0, C1. unfold gE_r, ep2. fold p3.
      assert (C2 : 1 / p3 = (1 - e) * eE_1 e b). { unfold p3, eE_1. rewrite E2. field. split; nra. }
      unfold ep. rewrite C2, E1. field. repeat split; nra.
  - intros y Y. eapply Rle_trans; [apply (ep_scale_bound (e * eE0 e b) (e * eE_1 e b) 0 (Rabs e * 2) (Rabs e * 2) 0 y Y)|].
    + apply Rabs_prod; [lra|]. pose proof (eE0_bound e b Er Pb). apply Rabs_in. lra.
    + apply Rabs_prod; [lra|]. apply eE_1_bound; assumption.
    + rewrite Rabs_R0. lra.
    + lra.
  - replace (blE 0 - lE_r T tau1 tau2 0) with (e * eE_mis e b).
    + apply Rle_trans with (Rabs e * 2); [|unfold EPS in *; lra]. apply Rabs_prod; [lra|]. apply eE_mis_bound; assumption.
    + rewrite lE_r_eq, ep2_0. unfold blE, ep. replace (0 / - T) with 0 by (field; lra). rewrite exp_0.
      unfold eE_mis, p1, p2, p3, p51. rewrite E1, E2. field. repeat split; nra.
Qed.

Lemma lG_r_eq x : lG_r T tau1 tau2 x = ep2 (- T) (1 / (p1 * p1 * p3 * p3)) 0 0
        (- tau1) ((- (1 + 2 * p1 / p52) + (1 + 2 * p2 / p52) * (p1 * p1) / (p2 * p2)) / (p1 * p1 * p51 * p51))
             ((- (p1 / tau1) + p2 / tau1 * (p1 * p1) / (p2 * p2)) / (p1 * p1 * p51 * p51)) 0 x.
Proof. unfold lG_r, lG_r_of. destruct (Req_EM_T T tau1); [contradiction|reflexivity]. Qed.
Lemma m_r_eq x : m_r T tau1 tau2 x = ops tau1 (- T) (1 / (p1 * p1 * p3 * p3)) 0 0
        (- tau1) ((- (1 + 2 * p1 / p52) + (1 + 2 * p2 / p52) * (p1 * p1) / (p2 * p2)) / (p1 * p1 * p51 * p51))
             ((- (p1 / tau1) + p2 / tau1 * (p1 * p1) / (p2 * p2)) / (p1 * p1 * p51 * p51)) 0 x.
Proof. unfold m_r, lG_r_of. destruct (Req_EM_T T tau1); [contradiction|reflexivity]. Qed.
Lemma lG_r_ode x : is_derive (lG_r T tau1 tau2) x ((m_r T tau1 tau2 x - lG_r T tau1 tau2 x) / tau1).
Proof.
  unfold lG_r, m_r, lG_r_of, ops. destruct (Req_EM_T T tau1); [contradiction|]. apply ep2_ode; lra || reflexivity.
Qed.
Lemma m_r_ode x : is_derive (m_r T tau1 tau2) x ((gG_r T tau1 tau2 x - m_r T tau1 tau2 x) / tau1).
Proof.
  unfold gG_r, m_r, lG_r_of, ops. destruct (Req_EM_T T tau1); [contradiction|].
  apply ep2_ode; try lra; field; repeat split; lra.
Qed.

Lemma blG_error x : 0 <= x -> Rabs (blG x - lG_r T tau1 tau2 x) <= 50 * EPS.
Proof.
  destruct scaled as (e & b & E1 & E2 & Pb & Ne & Ee & Er).
  set (a0 := eG0 e b). set (a1 := eG1 e b). set (a2 := eG2 e b).
  pose proof (eG0_bound e b Er Pb : Rabs a0 <= 6) as A0. pose proof (eG1_bound e b Er Pb : Rabs a1 <= 4) as A1. pose proof (eG2_bound e b Er Pb : Rabs a2 <= 1) as A2.
  assert (Q : forall y, blG y = ep (- T) a0 (a1 / T) (a2 / (T * T)) y).
  { intros y. unfold blG. f_equal.
    - unfold a0, eG0, p2, p3, p51, p52. rewrite E1, E2. field. repeat split; nra.
    - unfold a1, eG1, p2, p3, p51, p52. rewrite E1, E2. field. repeat split; nra.
    - unfold a2, eG2, p2, p3, p51, p52. rewrite E1, E2. field. repeat split; nra. }
  set (mt := ep (- T) (e * a0 + (1 - e) * a1) ((e * a1 + 2 * (1 - e) * a2) / T) (e * a2 / (T * T))).
  assert (Dm : forall y, is_derive blG y ((mt y - blG y) / tau1)).
  { intros y. rewrite Q. apply (is_derive_ext (ep (- T) a0 (a1 / T) (a2 / (T * T)))); [intros; symmetry; apply Q|].
    apply ep_ode; try lra; rewrite E1; field; lra. }
  assert (Rg : 2 * a2 * ((1 - e) * (1 - e)) = 1 / (p3 * p3)).
  { unfold a2, eG2, p3. rewrite E2. field. repeat split; nra. }
  set (rr := ep (- T) (e * (e * a0 + 2 * (1 - e) * a1)) (e * (e * a1 + 4 * (1 - e) * a2) / T) (e * (e * a2) / (T * T))).
  assert (Drr : forall y, is_derive mt y ((rr y + gG_r T tau1 tau2 y - mt y) / tau1)).
  { intros y. eapply der_eq; [unfold mt; eapply ep_ode; [lra|apply (Rgt_not_eq tau1 0 tau10)|reflexivity..]|].
    unfold rr, gG_r, mt, ep2. fold p3. unfold ep. rewrite <- Rg, E1. field. repeat split; nra. }
  assert (EB : Rabs e <= 1/1000) by (apply Rabs_in; lra).
  assert (RB : forall y, 0 <= y -> Rabs (rr y) <= 50 * EPS).
  { intros y Y. unfold rr. eapply Rle_trans; [apply (ep_scale_bound _ _ _ (Rabs e * 10) (Rabs e * 10) (Rabs e * 1) y Y)|].
    - apply Rabs_prod; [lra|]. apply Rle_trans with (1/1000 * 6 + 2002/1000 * 4); [|lra]. apply Rabs_sum; apply Rabs_prod; try assumption. apply Rabs_in; lra.
    - apply Rabs_prod; [lra|]. apply Rle_trans with (1/1000 * 4 + 4004/1000 * 1); [|lra]. apply Rabs_sum; apply Rabs_prod; try assumption. apply Rabs_in; lra.
    - apply Rabs_prod; [lra|]. apply Rle_trans with (1/1000 * 1); [|lra]. apply Rabs_prod; assumption.
    - unfold EPS in *. lra. }
  assert (Mm : forall y, 0 <= y -> Rabs (mt y - m_r T tau1 tau2 y) <= 50 * EPS).
  { apply (decay_bound tau1 (50 * EPS) (fun y => mt y - m_r T tau1 tau2 y) rr tau10).
    - intros y. eapply der_eq; [apply (der_minus mt (m_r T tau1 tau2) y); [apply Drr|apply m_r_ode]|]. field. lra.
    - exact RB.
    - replace (mt 0 - m_r T tau1 tau2 0) with (e * em_mis e b).
      + apply Rle_trans with (Rabs e * 20); [|unfold EPS in *; lra]. apply Rabs_prod; [lra|]. apply em_mis_bound; assumption.
      + rewrite m_r_eq. unfold ops. rewrite ep2_0. unfold mt, ep. replace (0 / - T) with 0 by (field; lra). rewrite exp_0.
        unfold em_mis. fold a0. unfold a1, eG1, p1, p2, p3, p51, p52. rewrite E1, E2. field. repeat split; nra. }
  apply (decay_bound tau1 (50 * EPS) (fun y => blG y - lG_r T tau1 tau2 y) (fun y => mt y - m_r T tau1 tau2 y) tau10).
  - intros y. eapply der_eq; [apply (der_minus blG (lG_r T tau1 tau2) y); [apply Dm|apply lG_r_ode]|]. field. lra.
  - exact Mm.
  - replace (blG 0 - lG_r T tau1 tau2 0) with (e * eG_mis e b).
    + apply Rle_trans with (Rabs e * 20); [|unfold EPS in *; lra]. apply Rabs_prod; [lra|]. apply eG_mis_bound; assumption.
    + rewrite lG_r_eq, ep2_0, Q. unfold ep. replace (0 / - T) with 0 by (field; lra). rewrite exp_0.
      unfold a0, eG0, eG_mis, p1, p2, p3, p51, p52. rewrite E1, E2. field. repeat split; nra.
Qed.
End BandLL.

(** the exact covariance is symmetric *)
Lemma lE_swap T t1 t2 x : 0 < T -> 0 < t1 -> 0 < t2 -> lE T t1 t2 x = lE T t2 t1 (- x).
Proof.
  intros T0 W1 W2. destruct (Req_dec x 0) as [->|N]; [rewrite Ropp_0; apply lE_swap_0; assumption|].
  assert (G : forall a b y, 0 < a -> 0 < b -> lE_l T a b y = lE_r T b a (- y)).
  { intros a b y Wa Wb. unfold lE_l, lE_r. rewrite (Rplus_comm b a). destruct (Req_EM_T T b); unfold ep2, ep;
    replace (- y / - T) with (y / T) by (field; lra); replace (- y / - b) with (y / b) by (field; lra).
    - ring.
    - rewrite (Rmult_comm ((T + a) / T)). ring. }
  unfold lE, glue. destruct (Rle_dec x 0), (Rle_dec (- x) 0); try (exfalso; lra).
  - apply G; assumption.
  - rewrite (G t2 t1 (- x)), Ropp_involutive by assumption. reflexivity.
Qed.
Lemma lG_swap T t1 t2 x : 0 < T -> 0 < t1 -> 0 < t2 -> lG T t1 t2 x = lG T t2 t1 (- x).
Proof.
  intros T0 W1 W2. destruct (Req_dec x 0) as [->|N]; [rewrite Ropp_0; apply lG_swap_0; assumption|].
  assert (G : forall a b y, 0 < a -> 0 < b -> lG_l T a b y = lG_r T b a (- y)).
  { intros a b y Wa Wb. unfold lG_l, lG_r, lG_l_of, lG_r_of. rewrite (Rplus_comm b a). destruct (Req_EM_T T b); unfold ep2, ep;
    replace (- y / - T) with (y / T) by (field; lra); replace (- y / - b) with (y / b) by (field; lra).
    - unfold Rdiv. ring.
    - replace ((T + a) / T * ((T + a) / T) * ((T - b) / T) * ((T - b) / T))
        with ((T - b) / T * ((T - b) / T) * ((T + a) / T) * ((T + a) / T)) by ring. unfold Rdiv. ring. }
  unfold lG, glue. destruct (Rle_dec x 0), (Rle_dec (- x) 0); try (exfalso; lra).
  - apply G; assumption.
  - rewrite (G t2 t1 (- x)), Ropp_involutive by assumption. reflexivity.
Qed.

(** the branch of the code for lags x > 0; the other is its mirror image *)
Definition kE (T tau1 tau2 x : R) : R :=
  let p1 := (T - tau1) / T in let p2 := (T + tau1) / T in let p3 := (T + tau2) / T in let p51 := (tau1 + tau2) / tau1 in
  if Rlt_dec (Rabs p1) EPS
  then exp (- x / T) * (x / tau1 / p3 + tau2 / tau1 * 1 / p3 / p3 + 1 / (p2 * p51))
  else exp (- x / T) / (p1 * p3) + exp (- x / tau1) / (p1 * p51) * (- 1 + p1 / p2).
Definition kG (T tau1 tau2 x : R) : R :=
  let p1 := (T - tau1) / T in let p2 := (T + tau1) / T in let p3 := (T + tau2) / T in
  let p51 := (tau1 + tau2) / tau1 in let p52 := (tau1 + tau2) / tau2 in
  if Rlt_dec (Rabs p1) EPS
  then let tmp := p3 * x / tau2 in
    exp (- x / T) * ((tau2 / tau1) * (tau2 / tau1) / (p3 * p3 * p3 * p3) * (3 + 2 * tmp + tmp * tmp / 2)
                     + (1 + p2 * x / tau1 + 2 * p2 / p52) / (p2 * p2 * p51 * p51))
  else exp (- x / T) / (p1 * p1 * p3 * p3)
    + exp (- x / tau1) / (p1 * p1 * p51 * p51)
      * (- (1 + p1 * x / tau1 + 2 * p1 / p52) + (1 + p2 * x / tau1 + 2 * p2 / p52) * (p1 * p1) / (p2 * p2)).

Lemma pos_nz a b : 0 < a -> 0 < b -> a / b <> 0.
Proof. intros A B. pose proof (Rdiv_lt_0_compat a b A B). lra. Qed.
Lemma kE_error T tau1 tau2 x : 0 < T -> 0 < tau1 -> 0 < tau2 -> 0 <= x -> Rabs (kE T tau1 tau2 x - lE T tau1 tau2 x) <= 4 * EPS.
Proof.
  intros T0 W1 W2 X. unfold lE. rewrite glue_r by (try assumption; apply lE_0; assumption). unfold kE. cbv zeta.
  pose proof (pos_nz (T + tau1) T ltac:(lra) T0). pose proof (pos_nz (T + tau2) T ltac:(lra) T0).
  pose proof (pos_nz (tau1 + tau2) tau1 ltac:(lra) W1).
  assert (E0 : 0 <= 4 * EPS) by (unfold EPS; lra).
  destruct (band_dec T tau1 T0) as [C|[IB N]].
  - unfold lE_r. destruct (band_cases T tau1 T0 W1 C) as [[E S]|[E S]]; destruct (Rlt_dec _ EPS), (Req_EM_T T tau1); try contradiction;
    unfold ep2, ep; replace (x / - T) with (- x / T) by (field; lra); replace (x / - tau1) with (- x / tau1) by (field; lra).
    + rewrite Rminus_diag_eq; [rewrite Rabs_R0; exact E0|]. field. repeat split; lra.
    + pose proof (p_nz T T0 tau1 E). rewrite Rminus_diag_eq; [rewrite Rabs_R0; exact E0|]. field. repeat split; lra.
  - destruct (Rlt_dec _ EPS); [|contradiction].
    match goal with |- Rabs (?a - _) <= _ => replace a with (blE T tau1 tau2 x) end.
    + apply blE_error; assumption.
    + unfold blE, ep. replace (x / - T) with (- x / T) by (field; lra). field. repeat split; lra.
Qed.
Lemma kG_error T tau1 tau2 x : 0 < T -> 0 < tau1 -> 0 < tau2 -> 0 <= x -> Rabs (kG T tau1 tau2 x - lG T tau1 tau2 x) <= 50 * EPS.
Proof.
  intros T0 W1 W2 X. unfold lG. rewrite glue_r by (try assumption; apply lG_0; assumption). unfold kG. cbv zeta.
  pose proof (pos_nz (T + tau1) T ltac:(lra) T0). pose proof (pos_nz (T + tau2) T ltac:(lra) T0).
  pose proof (pos_nz (tau1 + tau2) tau1 ltac:(lra) W1). pose proof (pos_nz (tau1 + tau2) tau2 ltac:(lra) W2).
  assert (E0 : 0 <= 50 * EPS) by (unfold EPS; lra).
  destruct (band_dec T tau1 T0) as [C|[IB N]].
  - unfold lG_r, lG_r_of. destruct (band_cases T tau1 T0 W1 C) as [[E S]|[E S]]; destruct (Rlt_dec _ EPS), (Req_EM_T T tau1); try contradiction;
    unfold ep2, ep; replace (x / - T) with (- x / T) by (field; lra); replace (x / - tau1) with (- x / tau1) by (field; lra).
    + rewrite Rminus_diag_eq; [rewrite Rabs_R0; exact E0|]. field. repeat split; lra.
    + pose proof (p_nz T T0 tau1 E). rewrite Rminus_diag_eq; [rewrite Rabs_R0; exact E0|]. field. repeat split; lra.
  - destruct (Rlt_dec _ EPS); [|contradiction].
    match goal with |- Rabs (?a - _) <= _ => replace a with (blG T tau1 tau2 x) end.
    + apply blG_error; assumption.
    + unfold blG, ep. replace (x / - T) with (- x / T) by (field; lra). field. repeat split; lra.
Qed.
Lemma sll1_exp_k T f1 c1 tau1 f2 c2 tau2 D : let x := D - ((c1 - tau1) - (c2 - tau2)) in
  sll1_exp T f1 c1 tau1 f2 c2 tau2 D = f1 * f2 * (if Rle_dec x 0 then kE T tau2 tau1 (- x) else kE T tau1 tau2 x).
Proof.
  intros x. unfold sll1_exp, kE. cbv zeta. fold x. rewrite (Rmult_comm (f1 * f2)), (Rplus_comm tau2 tau1).
  destruct (Rle_dec x 0); [|reflexivity]. rewrite Ropp_involutive, (Rmult_comm ((T + tau1) / T)). reflexivity.
Qed.
Lemma sll1_gamma_k T f1 c1 tau1 f2 c2 tau2 D : let x := D - ((c1 - 2 * tau1) - (c2 - 2 * tau2)) in
  sll1_gamma T f1 c1 tau1 f2 c2 tau2 D = f1 * f2 * (if Rle_dec x 0 then kG T tau2 tau1 (- x) else kG T tau1 tau2 x).
Proof.
  intros x. unfold sll1_gamma, kG. cbv zeta. fold x. rewrite (Rmult_comm (f1 * f2)), (Rplus_comm tau2 tau1).
  destruct (Rle_dec x 0); [|reflexivity]. f_equal. destruct (Rlt_dec _ EPS); rewrite Ropp_involutive.
  - unfold Rdiv. ring.
  - replace ((T + tau1) / T * ((T + tau1) / T) * ((T - tau2) / T) * ((T - tau2) / T))
      with ((T - tau2) / T * ((T - tau2) / T) * ((T + tau1) / T) * ((T + tau1) / T)) by ring. unfold Rdiv; ring.
Qed.

Lemma sll1_exp_error T f1 c1 tau1 f2 c2 tau2 D : 0 < T -> 0 < tau1 -> 0 < tau2 ->
  Rabs (sll1_exp T f1 c1 tau1 f2 c2 tau2 D - f1 * (f2 * lE T tau1 tau2 (D - ((c1 - tau1) - (c2 - tau2))))) <= Rabs (f1 * f2) * (4 * EPS).
Proof.
  intros T0 W1 W2. rewrite sll1_exp_k. cbv zeta. set (x := D - _). rewrite <- Rmult_assoc. apply scale_error.
  destruct (Rle_dec x 0).
  - rewrite lE_swap by assumption. apply kE_error; lra.
  - apply kE_error; lra.
Qed.
Lemma sll1_gamma_error T f1 c1 tau1 f2 c2 tau2 D : 0 < T -> 0 < tau1 -> 0 < tau2 ->
  Rabs (sll1_gamma T f1 c1 tau1 f2 c2 tau2 D - f1 * (f2 * lG T tau1 tau2 (D - ((c1 - 2 * tau1) - (c2 - 2 * tau2))))) <= Rabs (f1 * f2) * (50 * EPS).
Proof.
  intros T0 W1 W2. rewrite sll1_gamma_k. cbv zeta. set (x := D - _). rewrite <- Rmult_assoc. apply scale_error.
  destruct (Rle_dec x 0).
  - rewrite lG_swap by assumption. apply kG_error; lra.
  - apply kG_error; lra.
Qed.
