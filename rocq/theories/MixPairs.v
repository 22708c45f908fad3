(** Every entry of the table of pairs is the double integral it stands for. *)
From Coq Require Import Reals Lra Lia List Arith.
From Coquelicot Require Import Coquelicot.
From Verif Require Import SemisepModel SemisepProofs KernelModel KernelCalc KernelSpec KernelTophat KernelExp KernelExp2 KernelExp3 KernelGauss KernelGauss2 KernelLift
  MixSpec MixModel MixGauss MixForms MixCode.
Open Scope R_scope.

Lemma exp_outer c (g H : R -> R) D : 0 < width c -> ode (width c) H g -> (forall x, continuous g x) ->
  (exists C, forall x, x <= 0 -> Rabs (H x) <= C) ->
  whole_line (fun a => exponential c a * g (D - a)) (area c * H (D - (centre c - width c))).
Proof. intros W O K [C B]. exact (exp_conv H g (area c) (centre c - width c) (width c) D C W O K B). Qed.
Lemma gamma_outer c (g H1 H : R -> R) D : 0 < width c -> ode (width c) H H1 -> ode (width c) H1 g -> (forall x, continuous g x) ->
  (exists C, forall x, x <= 0 -> Rabs (H x) <= C) -> (exists C, forall x, x <= 0 -> Rabs (H1 x) <= C) ->
  whole_line (fun a => gamma2 c a * g (D - a)) (area c * H (D - (centre c - 2 * width c))).
Proof.
  intros W O O1 K [C B] [C1 B1].
  apply (gamma_conv H H1 g (area c) (centre c - 2 * width c) (width c) D (Rmax C C1) W O O1 K).
  - intros x X. eapply Rle_trans; [apply B, X|apply Rmax_l].
  - intros x X. eapply Rle_trans; [apply B1, X|apply Rmax_r].
Qed.
Lemma cont_neg (f : R -> R) : (forall x, continuous f x) -> forall x, continuous (fun y => f (- y)) x.
Proof. intros H x. apply (cont_comp f Ropp x); [apply ex_derive_cont; auto_derive; exact I|apply H]. Qed.
Lemma neg_derive (F f : R -> R) : (forall x, is_derive F x (f x)) -> forall x, is_derive (fun y => - F (- y)) x (f (- x)).
Proof.
  intros H x. eapply der_eq; [apply der_opp, (der_comp F Ropp x (f (- x)) (-1)); [apply H|auto_derive; [exact I|ring]]|ring].
Qed.
Lemma neg_bdd f : bdd f -> exists C, forall x, x <= 0 -> Rabs (f (- x)) <= C.
Proof. intros [C H]. exists C. intros x X. apply H. lra. Qed.

Section Pairs.
Variables log_erfc erfc : R -> R.
Hypothesis HL : log_erfc_correct log_erfc.
Hypothesis HE : erfc_correct erfc.
Variable T : R.
Hypothesis T0 : 0 < T.

(** the covariance of the continuum with one component, as a function of the time difference *)
Definition inner (t : nat) (c : comp) (x : R) : R :=
  match t with
  | 0%nat => slc1_gauss log_erfc T (area c) (centre c) (width c) x
  | 1%nat => slc1_tophat T (area c) (centre c) (width c) x
  | 2%nat => area c * cG T (width c) (x - (centre c - 2 * width c))
  | 3%nat => area c * cE T (width c) (x - (centre c - width c))
  | _ => 0
  end.
Lemma inner_cl t c tc tl : (t < 4)%nat -> 0 < width c -> cov_cl (shape_of t c) T tc tl (inner t c (tl - tc)).
Proof.
  intros L W. destruct t as [|[|[|[|t]]]]; [| | | |lia]; cbn [shape_of inner].
  - apply gauss_cl; assumption.
  - apply tophat_cl; assumption.
  - apply gamma_cl; assumption.
  - apply exp_cl; assumption.
Qed.

(** a width is fine when the special branches are taken exactly for equal scales *)
Definition fine (t : nat) (w : R) : Prop :=
  (2 <= t)%nat -> w = T \/ (EPS < Rabs (T - w) /\ EPS <= Rabs (T - w) / T).
Lemma fine_apart t w : (2 <= t)%nat -> fine t w -> apart T w.
Proof. intros L F. destruct (F L) as [E|[E _]]; [right|left]; assumption. Qed.
Lemma fine_clear t w : (2 <= t)%nat -> fine t w -> clear_of_band T w.
Proof. intros L F. destruct (F L) as [E|[_ E]]; [right|left]; assumption. Qed.

Variables c1 c2 : comp.
Hypothesis W1 : 0 < width c1.
Hypothesis W2 : 0 < width c2.
Variables t1 t2 : R.

Notation f1 := (area c1). Notation m1 := (centre c1). Notation w1 := (width c1).
Notation f2 := (area c2). Notation m2 := (centre c2). Notation w2 := (width c2).

Lemma top_inner y : slc1_tophat T f2 m2 w2 (- y) = f2 / (2 * w2) * (E1 T (y + m2 + w2) - E1 T (y + m2 - w2)).
Proof. rewrite slc1_tophat_diff by assumption. f_equal. f_equal; f_equal; ring. Qed.

(** first component Gaussian *)
Lemma p_ge : apart T w2 -> whole_line (fun a => gaussian c1 a * inner 3 c2 (t2 - (t1 - a))) (mix_gau_exp log_erfc T f1 m1 w1 f2 m2 w2 (t1 - t2)).
Proof.
  intros A. rewrite (gau_exp_exact log_erfc HL T T0 w1 W1) by assumption. cbn [inner].
  set (D := t1 - t2 + (m2 - w2)).
  replace (t1 - t2 - (m1 - (m2 - w2))) with (D - m1) by (unfold D; ring).
  replace (f1 * (f2 * Pge T w1 w2 (D - m1))) with (f2 * (f1 * Pge T w1 w2 (D - m1))) by ring.
  eapply wl_ext; [|apply wl_scal, (gaussian_outer c1 (fun y => cE T w2 (- y)) D); [exact W1|apply Pge_avg; assumption]].
  intros a. cbv beta. replace (t2 - (t1 - a) - (m2 - w2)) with (- (D - a)) by (unfold D; ring). ring.
Qed.
Lemma p_gg : apart T w2 -> whole_line (fun a => gaussian c1 a * inner 2 c2 (t2 - (t1 - a))) (mix_gau_gam log_erfc T f1 m1 w1 f2 m2 w2 (t1 - t2)).
Proof.
  intros A. rewrite (gau_gam_exact log_erfc HL T T0 w1 W1) by assumption. cbn [inner].
  set (D := t1 - t2 + (m2 - 2 * w2)).
  replace (t1 - t2 - (m1 - (m2 - 2 * w2))) with (D - m1) by (unfold D; ring).
  replace (f1 * (f2 * Pgg T w1 w2 (D - m1))) with (f2 * (f1 * Pgg T w1 w2 (D - m1))) by ring.
  eapply wl_ext; [|apply wl_scal, (gaussian_outer c1 (fun y => cG T w2 (- y)) D); [exact W1|apply Pgg_avg; assumption]].
  intros a. cbv beta. replace (t2 - (t1 - a) - (m2 - 2 * w2)) with (- (D - a)) by (unfold D; ring). ring.
Qed.
Lemma p_gt : whole_line (fun a => gaussian c1 a * inner 1 c2 (t2 - (t1 - a))) (mix_gau_top log_erfc erfc T f1 m1 w1 f2 m2 w2 (t1 - t2)).
Proof.
  rewrite (gau_top_exact log_erfc erfc HL HE T T0 w1 W1) by assumption. cbn [inner].
  set (D := t1 - t2).
  assert (S : forall s, whole_line (fun a => gaussian c1 a * E1 T (D - a + s)) (f1 * Ag T w1 (D - m1 + s))).
  { intros s. apply (gaussian_outer c1 (fun y => E1 T (y + s)) D); [exact W1|].
    pose proof (wl_shift _ s _ (Ag_avg T T0 w1 W1 (D - m1 + s))) as G. eapply wl_ext; [|exact G].
    intros y. cbv beta. f_equal. f_equal. ring. }
  pose proof (wl_plus _ _ _ _ (wl_scal (f2 / (2 * w2)) _ _ (S (m2 + w2))) (wl_scal (- (f2 / (2 * w2))) _ _ (S (m2 - w2)))) as G.
  eapply eq_rect.
  - eapply wl_ext; [|exact G]. intros a. cbv beta. replace (t2 - (t1 - a)) with (- (D - a)) by (unfold D; ring). rewrite top_inner.
    replace (D - a + m2 + w2) with (D - a + (m2 + w2)) by ring. replace (D - a + m2 - w2) with (D - a + (m2 - w2)) by ring. ring.
  - replace (D - m1 + (m2 + w2)) with (D - (m1 - m2) + w2) by ring. replace (D - m1 + (m2 - w2)) with (D - (m1 - m2) - w2) by ring. field. lra.
Qed.
(** first component exponential *)
Lemma p_eg : apart T w1 -> whole_line (fun a => exponential c1 a * inner 0 c2 (t2 - (t1 - a))) (mix_gau_exp log_erfc T f2 m2 w2 f1 m1 w1 (t2 - t1)).
Proof.
  intros A. rewrite (gau_exp_exact log_erfc HL T T0 w2 W2) by assumption. cbn [inner].
  set (D := t1 - t2 + m2).
  replace (t2 - t1 - (m2 - (m1 - w1))) with (- (D - (m1 - w1))) by (unfold D; ring).
  eapply wl_ext; [|apply wl_scal, (exp_outer c1 (Sg T w2) (fun x => Pge T w2 w1 (- x)) D); [exact W1| |apply Sg_cont; assumption|apply neg_bdd, Pge_bdd; assumption]].
  - intros a. cbv beta. rewrite (gauss_exact log_erfc HL T T0 w2 W2). replace (t2 - (t1 - a) - m2) with (- (D - a)) by (unfold D; ring). rewrite Sg_even. ring.
  - intros x. eapply der_eq; [apply (neg_ode w1 W1 (Pge T w2 w1) (Sg T w2)); apply Pge_ode; assumption|]. rewrite Sg_even. reflexivity.
Qed.
Lemma p_et : apart T w1 -> whole_line (fun a => exponential c1 a * inner 1 c2 (t2 - (t1 - a))) (mix_exp_top T f1 m1 w1 f2 m2 w2 (t1 - t2)).
Proof.
  intros A. rewrite (exp_top_exact T T0) by assumption. cbn [inner]. set (D := t1 - t2).
  assert (S : forall s, whole_line (fun a => exponential c1 a * E1 T (D - a + s)) (f1 * Bt T w1 (D + s - (m1 - w1)))).
  { intros s. eapply wl_ext; [|apply (exp_outer c1 (E1 T) (Bt T w1) (D + s)); [exact W1|apply Bt_ode; assumption|apply E1_continuous; assumption|apply Bt_bound; assumption]].
    intros a. cbv beta. f_equal. f_equal. ring. }
  pose proof (wl_plus _ _ _ _ (wl_scal (f2 / (2 * w2)) _ _ (S (m2 + w2))) (wl_scal (- (f2 / (2 * w2))) _ _ (S (m2 - w2)))) as G.
  eapply eq_rect.
  - eapply wl_ext; [|exact G]. intros a. cbv beta. replace (t2 - (t1 - a)) with (- (D - a)) by (unfold D; ring). rewrite top_inner.
    replace (D - a + m2 + w2) with (D - a + (m2 + w2)) by ring. replace (D - a + m2 - w2) with (D - a + (m2 - w2)) by ring. ring.
  - replace (D + (m2 + w2) - (m1 - w1)) with (D - (m1 - w1 - m2) + w2) by ring. replace (D + (m2 - w2) - (m1 - w1)) with (D - (m1 - w1 - m2) - w2) by ring. field. lra.
Qed.
Lemma p_eG : apart T w1 -> apart T w2 -> whole_line (fun a => exponential c1 a * inner 2 c2 (t2 - (t1 - a))) (mix_exp_gam T f1 m1 w1 f2 m2 w2 (t1 - t2)).
Proof.
  intros A1 A2. rewrite (exp_gam_exact T T0) by assumption. cbn [inner]. set (D := t1 - t2 + (m2 - 2 * w2)).
  replace (t1 - t2 - (m1 - w1 - (m2 - 2 * w2))) with (D - (m1 - w1)) by (unfold D; ring).
  replace (f1 * (f2 * Peg T w1 w2 (D - (m1 - w1)))) with (f2 * (f1 * Peg T w1 w2 (D - (m1 - w1)))) by ring.
  eapply wl_ext; [|apply wl_scal, (exp_outer c1 (fun y => cG T w2 (- y)) (Peg T w1 w2) D); [exact W1| |apply cont_neg; intros; apply cG_continuous; assumption|apply Peg_bound; assumption]].
  - intros a. cbv beta. replace (t2 - (t1 - a) - (m2 - 2 * w2)) with (- (D - a)) by (unfold D; ring). ring.
  - intros x. eapply der_eq; [apply Peg_ode; assumption|]. rewrite <- gG_flip by assumption. reflexivity.
Qed.
(** first component gamma *)
Lemma p_Gg : apart T w1 -> whole_line (fun a => gamma2 c1 a * inner 0 c2 (t2 - (t1 - a))) (mix_gau_gam log_erfc T f2 m2 w2 f1 m1 w1 (t2 - t1)).
Proof.
  intros A. rewrite (gau_gam_exact log_erfc HL T T0 w2 W2) by assumption. cbn [inner].
  set (D := t1 - t2 + m2).
  replace (t2 - t1 - (m2 - (m1 - 2 * w1))) with (- (D - (m1 - 2 * w1))) by (unfold D; ring).
  eapply wl_ext; [|apply wl_scal, (gamma_outer c1 (Sg T w2) (fun x => Pge T w2 w1 (- x)) (fun x => Pgg T w2 w1 (- x)) D); [exact W1| | |apply Sg_cont; assumption|apply neg_bdd, Pgg_bdd; assumption|apply neg_bdd, Pge_bdd; assumption]].
  - intros a. cbv beta. rewrite (gauss_exact log_erfc HL T T0 w2 W2). replace (t2 - (t1 - a) - m2) with (- (D - a)) by (unfold D; ring). rewrite Sg_even. ring.
  - apply (neg_ode w1 W1 (Pgg T w2 w1) (Pge T w2 w1)). apply Pgg_ode; assumption.
  - intros x. eapply der_eq; [apply (neg_ode w1 W1 (Pge T w2 w1) (Sg T w2)); apply Pge_ode; assumption|]. rewrite Sg_even. reflexivity.
Qed.
Lemma p_Gt : apart T w1 -> whole_line (fun a => gamma2 c1 a * inner 1 c2 (t2 - (t1 - a))) (mix_gam_top T f1 m1 w1 f2 m2 w2 (t1 - t2)).
Proof.
  intros A. rewrite (gam_top_exact T T0) by assumption. cbn [inner]. set (D := t1 - t2).
  assert (S : forall s, whole_line (fun a => gamma2 c1 a * E1 T (D - a + s)) (f1 * Ct T w1 (D + s - (m1 - 2 * w1)))).
  { intros s. eapply wl_ext; [|apply (gamma_outer c1 (E1 T) (Bt T w1) (Ct T w1) (D + s)); [exact W1|apply Ct_ode; assumption|apply Bt_ode; assumption|apply E1_continuous; assumption|apply Ct_bound; assumption|apply Bt_bound; assumption]].
    intros a. cbv beta. f_equal. f_equal. ring. }
  pose proof (wl_plus _ _ _ _ (wl_scal (f2 / (2 * w2)) _ _ (S (m2 + w2))) (wl_scal (- (f2 / (2 * w2))) _ _ (S (m2 - w2)))) as G.
  eapply eq_rect.
  - eapply wl_ext; [|exact G]. intros a. cbv beta. replace (t2 - (t1 - a)) with (- (D - a)) by (unfold D; ring). rewrite top_inner.
    replace (D - a + m2 + w2) with (D - a + (m2 + w2)) by ring. replace (D - a + m2 - w2) with (D - a + (m2 - w2)) by ring. ring.
  - replace (D + (m2 + w2) - (m1 - 2 * w1)) with (D - (m1 - 2 * w1 - m2) + w2) by ring. replace (D + (m2 - w2) - (m1 - 2 * w1)) with (D - (m1 - 2 * w1 - m2) - w2) by ring. field. lra.
Qed.
Lemma p_Ge : apart T w1 -> apart T w2 -> whole_line (fun a => gamma2 c1 a * inner 3 c2 (t2 - (t1 - a))) (mix_exp_gam T f2 m2 w2 f1 m1 w1 (t2 - t1)).
Proof.
  intros A1 A2. rewrite (exp_gam_exact T T0) by assumption. cbn [inner]. set (D := t1 - t2 + (m2 - w2)).
  replace (t2 - t1 - (m2 - w2 - (m1 - 2 * w1))) with (- (D - (m1 - 2 * w1))) by (unfold D; ring).
  rewrite Peg_flip by assumption.
  eapply wl_ext; [|apply wl_scal, (gamma_outer c1 (fun y => cE T w2 (- y)) (lE T w1 w2) (glue (Qeg_l T w2 w1) (Qeg_r T w2 w1)) D);
    [exact W1|apply Qeg_ode; assumption| |apply cont_neg; intros; apply cE_continuous; assumption|apply Qeg_bound; assumption|apply lE_bound; assumption]].
  - intros a. cbv beta. replace (t2 - (t1 - a) - (m2 - w2)) with (- (D - a)) by (unfold D; ring). ring.
  - intros x. eapply der_eq; [apply lE_ode; assumption|]. rewrite <- gE_flip by assumption. reflexivity.
Qed.
(** first component top-hat *)
Lemma p_tg : whole_line (fun a => tophat c1 a * inner 0 c2 (t2 - (t1 - a))) (mix_gau_top log_erfc erfc T f2 m2 w2 f1 m1 w1 (t2 - t1)).
Proof.
  rewrite (gau_top_exact log_erfc erfc HL HE T T0 w2 W2) by assumption. cbn [inner]. set (D := t1 - t2 + m2).
  eapply eq_rect.
  - eapply wl_ext; [|apply wl_scal, (tophat_conv (Ag T w2) (Sg T w2) c1 D); [exact W1|apply Ag_derive; assumption|apply Sg_cont; assumption]].
    intros a. cbv beta. rewrite (gauss_exact log_erfc HL T T0 w2 W2). replace (t2 - (t1 - a) - m2) with (- (D - a)) by (unfold D; ring). rewrite Sg_even.
    rewrite <- (Rmult_assoc f2), (Rmult_comm f2), Rmult_assoc. reflexivity.
  - replace (t2 - t1 - (m2 - m1) + w1) with (- (D - m1 - w1)) by (unfold D; ring). replace (t2 - t1 - (m2 - m1) - w1) with (- (D - m1 + w1)) by (unfold D; ring).
    rewrite !Ag_odd. field. lra.
Qed.
Lemma p_te : apart T w2 -> whole_line (fun a => tophat c1 a * inner 3 c2 (t2 - (t1 - a))) (mix_exp_top T f2 m2 w2 f1 m1 w1 (t2 - t1)).
Proof.
  intros A. rewrite (exp_top_exact T T0) by assumption. cbn [inner]. set (D := t1 - t2 + (m2 - w2)).
  eapply eq_rect.
  - eapply wl_ext; [|apply wl_scal, (tophat_conv (fun y => - Bt T w2 (- y)) (fun y => cE T w2 (- y)) c1 D);
      [exact W1|apply neg_derive; intros; apply Bt_derive; assumption|apply cont_neg; intros; apply cE_continuous; assumption]].
    intros a. cbv beta. replace (t2 - (t1 - a) - (m2 - w2)) with (- (D - a)) by (unfold D; ring).
    rewrite <- (Rmult_assoc f2), (Rmult_comm f2), Rmult_assoc. reflexivity.
  - cbv beta. replace (t2 - t1 - (m2 - w2 - m1) + w1) with (- (D - m1 - w1)) by (unfold D; ring). replace (t2 - t1 - (m2 - w2 - m1) - w1) with (- (D - m1 + w1)) by (unfold D; ring).
    field. lra.
Qed.
Lemma p_tG : apart T w2 -> whole_line (fun a => tophat c1 a * inner 2 c2 (t2 - (t1 - a))) (mix_gam_top T f2 m2 w2 f1 m1 w1 (t2 - t1)).
Proof.
  intros A. rewrite (gam_top_exact T T0) by assumption. cbn [inner]. set (D := t1 - t2 + (m2 - 2 * w2)).
  eapply eq_rect.
  - eapply wl_ext; [|apply wl_scal, (tophat_conv (fun y => - Ct T w2 (- y)) (fun y => cG T w2 (- y)) c1 D);
      [exact W1|apply neg_derive; intros; apply Ct_derive; assumption|apply cont_neg; intros; apply cG_continuous; assumption]].
    intros a. cbv beta. replace (t2 - (t1 - a) - (m2 - 2 * w2)) with (- (D - a)) by (unfold D; ring).
    rewrite <- (Rmult_assoc f2), (Rmult_comm f2), Rmult_assoc. reflexivity.
  - cbv beta. replace (t2 - t1 - (m2 - 2 * w2 - m1) + w1) with (- (D - m1 - w1)) by (unfold D; ring). replace (t2 - t1 - (m2 - 2 * w2 - m1) - w1) with (- (D - m1 + w1)) by (unfold D; ring).
    field. lra.
Qed.

Lemma pair_ll k1 k2 : (k1 < 4)%nat -> (k2 < 4)%nat -> fine k1 w1 -> fine k2 w2 ->
  whole_line (fun a => shape_of k1 c1 a * inner k2 c2 (t2 - (t1 - a)))
    (nth (k1 * 4 + k2) (FP_Sll log_erfc erfc) no_pair T f1 m1 w1 f2 m2 w2 t1 t2).
Proof.
  intros K1 K2 F1 F2.
  destruct k1 as [|[|[|[|k1]]]]; [| | | |lia]; (destruct k2 as [|[|[|[|k2]]]]; [| | | |lia]);
    cbn [Nat.mul Nat.add nth FP_Sll shape_of]; unfold direct, swapped.
  - apply gauss_ll; assumption.
  - apply p_gt.
  - apply p_gg. eapply fine_apart; [|exact F2]; lia.
  - apply p_ge. eapply fine_apart; [|exact F2]; lia.
  - apply p_tg.
  - apply tophat_ll; assumption.
  - apply p_tG. eapply fine_apart; [|exact F2]; lia.
  - apply p_te. eapply fine_apart; [|exact F2]; lia.
  - apply p_Gg. eapply fine_apart; [|exact F1]; lia.
  - apply p_Gt. eapply fine_apart; [|exact F1]; lia.
  - rewrite (sll1_gamma_exact T w1 w2 T0 W1 W2) by (eapply fine_clear; [|eassumption]; lia). apply gamma_ll; assumption.
  - apply p_Ge; (eapply fine_apart; [|eassumption]; lia).
  - apply p_eg. eapply fine_apart; [|exact F1]; lia.
  - apply p_et. eapply fine_apart; [|exact F1]; lia.
  - apply p_eG; (eapply fine_apart; [|eassumption]; lia).
  - rewrite (sll1_exp_exact T w1 w2 T0 W1 W2) by (eapply fine_clear; [|eassumption]; lia). apply exp_ll; assumption.
Qed.
End Pairs.
