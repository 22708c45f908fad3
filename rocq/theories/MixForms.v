(** The covariances of two components of different shapes, unit areas, as
    functions of the time difference minus the difference of the starting
    delays; and the integrals they are. *)
From Coq Require Import Reals Lra Lia.
From Coquelicot Require Import Coquelicot.
From Verif Require Import SemisepModel SemisepProofs KernelModel KernelCalc KernelSpec KernelTophat KernelExp KernelExp2 KernelExp3 KernelGauss KernelGauss2 MixGauss.
Open Scope R_scope.

(** ** Bounded to the right of 0 *)
Definition bdd (f : R -> R) : Prop := exists C, forall x, 0 <= x -> Rabs (f x) <= C.
Lemma bdd_plus f g : bdd f -> bdd g -> bdd (fun x => f x + g x).
Proof.
  intros [C H] [C' H']. exists (C + C'). intros x X. eapply Rle_trans; [apply Rabs_triang|].
  apply Rplus_le_compat; [apply H, X|apply H', X].
Qed.
Lemma bdd_scal k f : bdd f -> bdd (fun x => k * f x).
Proof.
  intros [C H]. exists (Rabs k * C). intros x X. rewrite Rabs_mult. apply Rmult_le_compat_l; [apply Rabs_pos|apply H, X].
Qed.

(** ** The response of one line against a function of the time *)
Lemma tophat_conv (A g : R -> R) c D : 0 < width c ->
  (forall x, is_derive A x (g x)) -> (forall x, continuous g x) ->
  whole_line (fun a => tophat c a * g (D - a)) (area c / (2 * width c) * (A (D - centre c + width c) - A (D - centre c - width c))).
Proof.
  intros W DA CG.
  replace (area c / (2 * width c) * (A (D - centre c + width c) - A (D - centre c - width c)))
    with (- (area c / (2 * width c)) * A (D - (centre c + width c)) - - (area c / (2 * width c)) * A (D - (centre c - width c))).
  2:{ replace (D - (centre c + width c)) with (D - centre c - width c) by ring. replace (D - (centre c - width c)) with (D - centre c + width c) by ring. ring. }
  apply (wl_window _ (fun a => area c / (2 * width c) * g (D - a)) (fun a => - (area c / (2 * width c)) * A (D - a))).
  - lra.
  - intros x Hx. rewrite (proj1 (tophat_window c x W) Hx). ring.
  - intros x Hx. rewrite (proj2 (tophat_window c x W) Hx). ring.
  - intros x _. eapply der_eq; [apply der_scal, (der_comp A (fun a => D - a) x (g (D - x)) (-1)); [apply DA|auto_derive; [exact I|ring]]|ring].
  - intros x _. apply cont_scal. apply (cont_comp g (fun a => D - a) x); [|apply CG]. apply ex_derive_cont. auto_derive. exact I.
Qed.
Lemma gaussian_outer c (g : R -> R) D v : 0 < width c ->
  whole_line (fun y => nd (width c) (y - (D - centre c)) * g y) v ->
  whole_line (fun a => gaussian c a * g (D - a)) (area c * v).
Proof.
  intros W H. apply (wl_scal (area c)) in H. apply wl_flip in H. apply (wl_shift _ (- D)) in H.
  eapply wl_ext; [|exact H]. intros a. cbv beta. replace (- (a + - D)) with (D - a) by ring.
  unfold gaussian, nd. rewrite sqrt2PI.
  replace (D - a - (D - centre c)) with (- (a - centre c)) by ring. replace (- (a - centre c) * - (a - centre c)) with ((a - centre c) * (a - centre c)) by ring.
  unfold Rdiv. ring.
Qed.

Local Opaque M0 M1 M2 nd.

Section Forms.
Variable T : R.
Hypothesis T0 : 0 < T.
Let iT : 0 <= / T.
Proof. left. apply Rinv_0_lt_compat, T0. Qed.

(** ** One Gaussian *)
Section Gau.
Variable w : R.
Hypothesis W : 0 < w.
Definition Sg (x : R) : R := M0 w (/ T) x + M0 w (/ T) (- x).
Lemma Sg_even x : Sg (- x) = Sg x.
Proof. unfold Sg. rewrite Ropp_involutive. ring. Qed.
Lemma M0_neg ka x : is_derive (fun x => M0 w ka (- x)) x (nd w x - ka * M0 w ka (- x)).
Proof.
  eapply der_eq; [apply (der_comp (M0 w ka) Ropp x (ka * M0 w ka (- x) - nd w (- x)) (-1)); [apply M0_derive, W|auto_derive; [exact I|ring]]|].
  rewrite nd_even. ring.
Qed.
Lemma Sg_cont x : continuous Sg x.
Proof.
  apply ex_derive_cont. eexists. apply (der_plus (M0 w (/ T)) (fun x => M0 w (/ T) (- x))); [apply M0_derive, W|apply M0_neg].
Qed.

(** antiderivative of Sg; also the Gaussian average of E1 *)
Definition Ag (x : R) : R := T * M0 w (/ T) x - T * M0 w 0 x + (T * M0 w 0 (- x) - T * M0 w (/ T) (- x)).
Lemma Ag_derive x : is_derive Ag x (Sg x).
Proof.
  unfold Ag. eapply der_eq.
  - exact (der_plus _ _ _ _ _ (der_minus _ _ _ _ _ (der_scal T _ _ _ (M0_derive w W (/ T) x)) (der_scal T _ _ _ (M0_derive w W 0 x)))
      (der_minus _ _ _ _ _ (der_scal T _ _ _ (M0_neg 0 x)) (der_scal T _ _ _ (M0_neg (/ T) x)))).
  - unfold Sg. field. lra.
Qed.
Lemma Ag_odd x : Ag (- x) = - Ag x.
Proof. unfold Ag. rewrite Ropp_involutive. ring. Qed.
Lemma Ag_avg x : whole_line (fun y => nd w (y - x) * E1 T y) (Ag x).
Proof.
  unfold E1, Ag. apply (gauss_glue w).
  - replace (T * M0 w (/ T) x - T * M0 w 0 x) with
      (T * M0 w (/ T) x + 0 * M1 w (/ T) x + 0 * M2 w (/ T) x + (- T * M0 w 0 x + 0 * M1 w 0 x + 0 * M2 w 0 x)) by ring.
    eapply wl_ext; [|apply wl_plus; [apply (half_left w W (/ T) T 0 0 x iT)|apply (half_left w W 0 (- T) 0 0 x (Rle_refl 0))]].
    intros y. cbv beta. destruct (Rle_dec y 0); [|ring]. rewrite Rmult_0_l, exp_0. replace (/ T * y) with (y / T) by (unfold Rdiv; ring). ring.
  - replace (T * M0 w 0 (- x) - T * M0 w (/ T) (- x)) with
      (T * M0 w 0 (- x) - 0 * M1 w 0 (- x) + 0 * M2 w 0 (- x) + (- T * M0 w (/ T) (- x) - 0 * M1 w (/ T) (- x) + 0 * M2 w (/ T) (- x))) by ring.
    eapply wl_ext; [|apply wl_plus; [apply (half_right w W 0 T 0 0 x (Rle_refl 0))|apply (half_right w W (/ T) (- T) 0 0 x iT)]].
    intros y. cbv beta. destruct (Rle_dec y 0); [ring|]. rewrite Ropp_0, Rmult_0_l, exp_0. replace (- / T * y) with (- y / T) by (unfold Rdiv; ring). ring.
Qed.

Section GauX.
Variable v : R.
Hypothesis V : 0 < v.
Let p3 := (T + v) / T.
Let p4 := (T - v) / T.
(** Gaussian against exponential *)
Definition Pge (x : R) : R :=
  (if Req_EM_T T v then 1 / p3 * M0 w (/ T) x + - / T * M1 w (/ T) x
   else 1 / p4 * M0 w (/ T) x + (- 1 / p4 + 1 / p3) * M0 w (/ v) x) + 1 / p3 * M0 w (/ T) (- x).
(** Gaussian against gamma *)
Definition Pgg (x : R) : R :=
  (if Req_EM_T T v then 1 / (p3 * p3) * M0 w (/ T) x + - 1 / (T * p3) * M1 w (/ T) x + 1 / (2 * (T * T)) * M2 w (/ T) x
   else 1 / (p4 * p4) * M0 w (/ T) x + ((- 1 / (p4 * p4) + 1 / (p3 * p3)) * M0 w (/ v) x + (1 / (v * p4) - 1 / (v * p3)) * M1 w (/ v) x))
  + 1 / (p3 * p3) * M0 w (/ T) (- x).

Lemma Pge_avg x : whole_line (fun y => nd w (y - x) * cE T v (- y)) (Pge x).
Proof.
  apply (wl_ext (fun y => nd w (y - x) * glue (gE_l T v) (gE_r T v v) y)). { intros y. rewrite <- gE_flip by assumption. reflexivity. }
  unfold Pge. apply (gauss_glue w).
  - unfold gE_l. fold p3 p4. destruct (Req_EM_T T v) as [E|N].
    + eapply eq_rect; [apply (left_ep2 w W); lra|]. rewrite <- E. ring.
    + eapply eq_rect; [apply (left_ep2 w W); lra|]. ring.
  - unfold gE_r. fold p3. eapply eq_rect; [apply (right_ep2 w W); lra|]. ring.
Qed.
Lemma Pgg_avg x : whole_line (fun y => nd w (y - x) * cG T v (- y)) (Pgg x).
Proof.
  apply (wl_ext (fun y => nd w (y - x) * glue (gG_l T v) (gG_r T v v) y)). { intros y. rewrite <- gG_flip by assumption. reflexivity. }
  unfold Pgg. apply (gauss_glue w).
  - unfold gG_l. fold p3 p4. destruct (Req_EM_T T v) as [E|N].
    + eapply eq_rect; [apply (left_ep2 w W); lra|]. rewrite <- E. ring.
    + eapply eq_rect; [apply (left_ep2 w W); lra|]. ring.
  - unfold gG_r. fold p3. eapply eq_rect; [apply (right_ep2 w W); lra|]. ring.
Qed.
Lemma Pge_ode x : is_derive Pge x ((Pge x - Sg x) / v).
Proof.
  unfold Pge at 1. destruct (Req_EM_T T v) as [E|N].
  - eapply der_eq.
    + apply der_plus; [apply der_plus; apply der_scal; [apply M0_derive, W|apply M1_derive, W]|apply der_scal, M0_neg].
    + unfold Pge, Sg, p3. destruct (Req_EM_T T v); [|contradiction]. rewrite <- E. field. lra.
  - eapply der_eq.
    + apply der_plus; [apply der_plus; apply der_scal; apply M0_derive, W|apply der_scal, M0_neg].
    + unfold Pge, Sg, p3, p4. destruct (Req_EM_T T v); [contradiction|]. field. repeat split; lra.
Qed.
Lemma Pgg_ode x : is_derive Pgg x ((Pgg x - Pge x) / v).
Proof.
  unfold Pgg at 1. destruct (Req_EM_T T v) as [E|N].
  - eapply der_eq.
    + apply der_plus; [apply der_plus; [apply der_plus|]; apply der_scal; [apply M0_derive, W|apply M1_derive, W|apply M2_derive, W]|apply der_scal, M0_neg].
    + unfold Pgg, Pge, p3. destruct (Req_EM_T T v); [|contradiction]. rewrite <- E. field. lra.
  - eapply der_eq.
    + apply der_plus; [apply der_plus; [apply der_scal, M0_derive, W|apply der_plus; apply der_scal; [apply M0_derive, W|apply M1_derive, W]]|apply der_scal, M0_neg].
    + unfold Pgg, Pge, p3, p4. destruct (Req_EM_T T v); [contradiction|]. field. repeat split; lra.
Qed.
Lemma bdd_M0 ka : 0 <= ka -> bdd (M0 w ka).
Proof. intros K. exists 1. intros x _. apply M0_bound; assumption. Qed.
Lemma bdd_M0n ka : 0 <= ka -> bdd (fun x => M0 w ka (- x)).
Proof. intros K. exists 1. intros x _. apply M0_bound; assumption. Qed.
Lemma Pge_bdd : bdd Pge.
Proof.
  assert (iv : 0 <= / v) by (left; apply Rinv_0_lt_compat, V).
  unfold Pge. apply (bdd_plus _ (fun x => 1 / p3 * M0 w (/ T) (- x))); [|apply bdd_scal, bdd_M0n, iT].
  destruct (Req_EM_T T v).
  - apply (bdd_plus (fun x => 1 / p3 * M0 w (/ T) x) (fun x => - / T * M1 w (/ T) x)); apply bdd_scal; [apply bdd_M0, iT|apply M1_bound; assumption].
  - apply (bdd_plus (fun x => 1 / p4 * M0 w (/ T) x) (fun x => (- 1 / p4 + 1 / p3) * M0 w (/ v) x)); apply bdd_scal; apply bdd_M0; assumption.
Qed.
Lemma Pgg_bdd : bdd Pgg.
Proof.
  assert (iv : 0 <= / v) by (left; apply Rinv_0_lt_compat, V).
  unfold Pgg. apply (bdd_plus _ (fun x => 1 / (p3 * p3) * M0 w (/ T) (- x))); [|apply bdd_scal, bdd_M0n, iT].
  destruct (Req_EM_T T v).
  - apply (bdd_plus (fun x => 1 / (p3 * p3) * M0 w (/ T) x + - 1 / (T * p3) * M1 w (/ T) x) (fun x => 1 / (2 * (T * T)) * M2 w (/ T) x)).
    + apply (bdd_plus (fun x => 1 / (p3 * p3) * M0 w (/ T) x) (fun x => - 1 / (T * p3) * M1 w (/ T) x)); apply bdd_scal; [apply bdd_M0, iT|apply M1_bound; assumption].
    + apply bdd_scal, M2_bound; assumption.
  - apply (bdd_plus (fun x => 1 / (p4 * p4) * M0 w (/ T) x)
      (fun x => (- 1 / (p4 * p4) + 1 / (p3 * p3)) * M0 w (/ v) x + (1 / (v * p4) - 1 / (v * p3)) * M1 w (/ v) x)); [apply bdd_scal, bdd_M0, iT|].
    apply (bdd_plus (fun x => (- 1 / (p4 * p4) + 1 / (p3 * p3)) * M0 w (/ v) x) (fun x => (1 / (v * p4) - 1 / (v * p3)) * M1 w (/ v) x));
    apply bdd_scal; [apply bdd_M0, iv|apply M1_bound; assumption].
Qed.
(** seen from the other side *)
Lemma neg_ode (P Q : R -> R) : (forall x, is_derive P x ((P x - Q x) / v)) -> ode v (fun x => P (- x)) (fun x => Q (- x)).
Proof.
  intros H x. eapply der_eq; [apply (der_comp P Ropp x ((P (- x) - Q (- x)) / v) (-1)); [apply H|auto_derive; [exact I|ring]]|]. field. lra.
Qed.
End GauX.
End Gau.

(** ** Top-hat against exponential and gamma *)
Section Top.
Variable v : R.
Hypothesis V : 0 < v.
Definition Bt (x : R) : R := E1 T x - v * cE T v x.
Definition Ct (x : R) : R := Bt x - v * cG T v x.
Lemma Bt_derive x : is_derive Bt x (cE T v x).
Proof.
  unfold Bt. eapply der_eq; [apply der_minus; [apply E1_derive, T0|apply der_scal, cE_ode; assumption]|]. field. lra.
Qed.
Lemma Ct_derive x : is_derive Ct x (cG T v x).
Proof.
  unfold Ct. eapply der_eq; [apply der_minus; [apply Bt_derive|apply der_scal, cG_ode; assumption]|]. field. lra.
Qed.
Lemma Bt_ode : ode v Bt (E1 T).
Proof. intros x. eapply der_eq; [apply Bt_derive|]. unfold Bt. field. lra. Qed.
Lemma Ct_ode : ode v Ct Bt.
Proof. intros x. eapply der_eq; [apply Ct_derive|]. unfold Ct. field. lra. Qed.
Lemma E1_bound x : x <= 0 -> Rabs (E1 T x) <= T.
Proof.
  intros X. rewrite E1_neg by exact X. assert (E : exp (x / T) <= 1).
  { rewrite <- exp_0. assert (N : x / T <= 0) by (apply Rmult_le_reg_r with T; [lra|]; unfold Rdiv; rewrite Rmult_assoc, Rinv_l by lra; lra).
    destruct (Rle_lt_or_eq_dec _ _ N) as [N'| ->]; [left; apply exp_increasing, N'|right; reflexivity]. }
  pose proof (exp_pos (x / T)). rewrite Rabs_mult, (Rabs_pos_eq T), Rabs_left1 by lra.
  assert (T * - (exp (x / T) - 1) <= T * 1) by (apply Rmult_le_compat_l; lra). lra.
Qed.
Lemma Bt_bound : exists C, forall x, x <= 0 -> Rabs (Bt x) <= C.
Proof.
  destruct (cE_bound T v T0) as [C H]. exists (T + v * C). intros x X. unfold Bt.
  eapply Rle_trans; [apply Rabs_triang|]. rewrite Rabs_Ropp, Rabs_mult, (Rabs_pos_eq v) by lra.
  apply Rplus_le_compat; [apply E1_bound, X|]. apply Rmult_le_compat_l; [lra|apply H, X].
Qed.
Lemma Ct_bound : exists C, forall x, x <= 0 -> Rabs (Ct x) <= C.
Proof.
  destruct (cG_bound T v T0) as [C H]. destruct Bt_bound as [C' H']. exists (C' + v * C). intros x X. unfold Ct.
  eapply Rle_trans; [apply Rabs_triang|]. rewrite Rabs_Ropp, Rabs_mult, (Rabs_pos_eq v) by lra.
  apply Rplus_le_compat; [apply H', X|]. apply Rmult_le_compat_l; [lra|apply H, X].
Qed.
End Top.

(** ** Exponential (scale v) against gamma (scale u) *)
Section EG.
Variables v u : R.
Hypothesis V : 0 < v.
Hypothesis U : 0 < u.
Let p1 := (T - v) / T / v.
Let p2 := (T + v) / T / v.
Let p3 := (T + u) / T / u.
Let p4 := (T - u) / T / u.
Let p5 := (v + u) / v / u.
Let k := v * u * u.
Definition Peg_l : R -> R :=
  if Req_EM_T T u then ep2 T ((1 / (p2 * p2 * p2) + (1 / (p5 * p3 * p3) + 1 / p5 / p5 / p3)) / k)
      ((- (1 / (p2 * p2)) - 1 / p5 / p3) / k) (1 / (2 * p2) / k) u 0 0 0
  else ep2 T (1 / (p2 * p4 * p4) / k) 0 0
      u (((1 / p3 - 1 / p4) * (1 / p5 / p5) + (1 / p3 / p3 - 1 / p4 / p4) / p5) / k) (- ((1 / p3 - 1 / p4) / p5) / k) 0.
Definition Peg_r : R -> R :=
  if Req_EM_T T v then ep2 (- T) ((2 / (p3 * p3 * p3) + 1 / (p2 * p5 * p5)) / k) (1 / (p3 * p3) / k) 0 (- v) 0 0 0
  else ep2 (- T) (1 / (p1 * p3 * p3) / k) 0 0 (- v) ((1 / p2 - 1 / p1) / (p5 * p5) / k) 0 0.
Definition Peg : R -> R := glue Peg_l Peg_r.
Ltac unp := unfold k, p1, p2, p3, p4, p5.
Lemma Peg_0 : Peg_l 0 = Peg_r 0.
Proof.
  unfold Peg_l, Peg_r. destruct (Req_EM_T T u) as [E2|N2], (Req_EM_T T v) as [E1|N1]; rewrite !ep2_0; unp.
  - rewrite <- E1, <- E2. field. lra.
  - rewrite <- E2. field. repeat split; lra.
  - rewrite <- E1. field. repeat split; lra.
  - field. repeat split; lra.
Qed.
Lemma Peg_ode : ode v Peg (glue (gG_l T u) (gG_r T v u)).
Proof.
  intros x. unfold Peg. apply glue_ode; [lra| | |apply Peg_0|apply gG_0].
  - intros y. unfold Peg_l, gG_l. destruct (Req_EM_T T u) as [E2|N2].
    + apply ep2_ode; try lra; unp; rewrite <- ?E2; field; repeat split; lra.
    + apply ep2_ode; try lra; unp; field; repeat split; lra.
  - intros y. unfold Peg_r, gG_r. destruct (Req_EM_T T v) as [E1|N1].
    + apply ep2_ode; try lra; unp; rewrite <- ?E1; field; repeat split; lra.
    + apply ep2_ode; try lra; unp; field; repeat split; lra.
Qed.
Lemma Peg_bound : exists C, forall x, x <= 0 -> Rabs (Peg x) <= C.
Proof.
  unfold Peg, Peg_l. destruct (Req_EM_T T u);
  match goal with |- context[glue (ep2 ?s ?a ?b ?c ?r ?d ?e ?f) _] => destruct (ep2_bound s a b c r d e f) as [C HC]; [lra|lra|] end;
  exists C; apply glue_bound; exact HC.
Qed.
(** seen from the other side *)
Definition Qeg_l : R -> R :=
  if Req_EM_T T v then ep2 T ((2 / (p3 * p3 * p3) + 1 / (p2 * p5 * p5)) / k) (- (1 / (p3 * p3) / k)) 0 v 0 0 0
  else ep2 T (1 / (p1 * p3 * p3) / k) 0 0 v ((1 / p2 - 1 / p1) / (p5 * p5) / k) 0 0.
Definition Qeg_r : R -> R :=
  if Req_EM_T T u then ep2 (- T) ((1 / (p2 * p2 * p2) + (1 / (p5 * p3 * p3) + 1 / p5 / p5 / p3)) / k)
      ((1 / (p2 * p2) + 1 / p5 / p3) / k) (1 / (2 * p2) / k) (- u) 0 0 0
  else ep2 (- T) (1 / (p2 * p4 * p4) / k) 0 0
      (- u) (((1 / p3 - 1 / p4) * (1 / p5 / p5) + (1 / p3 / p3 - 1 / p4 / p4) / p5) / k) ((1 / p3 - 1 / p4) / p5 / k) 0.
Lemma Qeg_0 : Qeg_l 0 = Qeg_r 0.
Proof.
  pose proof Peg_0 as E. unfold Qeg_l, Qeg_r. unfold Peg_l, Peg_r in E.
  destruct (Req_EM_T T u), (Req_EM_T T v); rewrite !ep2_0 in *; symmetry; exact E.
Qed.
Lemma Peg_flip x : Peg (- x) = glue Qeg_l Qeg_r x.
Proof.
  unfold Peg, glue. destruct (Rle_dec (- x) 0) as [L1|L1], (Rle_dec x 0) as [M|M]; try lra.
  - assert (x = 0) by lra. subst x. rewrite Ropp_0, Qeg_0. unfold Peg_l, Qeg_r. destruct (Req_EM_T T u); rewrite !ep2_0; reflexivity.
  - unfold Peg_l, Qeg_r. destruct (Req_EM_T T u); unfold ep2, ep;
    replace (- x / T) with (x / - T) by (field; lra); replace (- x / u) with (x / - u) by (field; lra); unfold Rdiv; ring.
  - unfold Peg_r, Qeg_l. destruct (Req_EM_T T v); unfold ep2, ep;
    replace (- x / - T) with (x / T) by (field; lra); replace (- x / - v) with (x / v) by (field; lra); unfold Rdiv; ring.
Qed.
Lemma Qeg_ode : ode u (glue Qeg_l Qeg_r) (lE T u v).
Proof.
  intros x. unfold lE. apply glue_ode; [lra| | |apply Qeg_0|apply lE_0; assumption].
  - intros y. unfold Qeg_l, lE_l. destruct (Req_EM_T T v) as [E2|N2].
    + apply ep2_ode; try lra; unp; rewrite <- ?E2; field; repeat split; lra.
    + apply ep2_ode; try lra; unp; field; repeat split; lra.
  - intros y. unfold Qeg_r, lE_r. destruct (Req_EM_T T u) as [E1|N1].
    + apply ep2_ode; try lra; unp; rewrite <- ?E1; field; repeat split; lra.
    + apply ep2_ode; try lra; unp; field; repeat split; lra.
Qed.
Lemma Qeg_bound : exists C, forall x, x <= 0 -> Rabs (glue Qeg_l Qeg_r x) <= C.
Proof.
  unfold Qeg_l. destruct (Req_EM_T T v);
  match goal with |- context[glue (ep2 ?s ?a ?b ?c ?r ?d ?e ?f) _] => destruct (ep2_bound s a b c r d e f) as [C HC]; [lra|lra|] end;
  exists C; apply glue_bound; exact HC.
Qed.
End EG.
End Forms.
