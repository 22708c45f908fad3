(** Top-hat responses: the closed forms are first and second differences of
    antiderivatives of exp(-|x|/taud). *)
From Coq Require Import Reals Lra Lia.
From Coquelicot Require Import Coquelicot.
From Verif Require Import SemisepModel SemisepProofs KernelCalc KernelSpec KernelModel.
Open Scope R_scope.

Section Tophat.
Variable T : R.
Hypothesis T0 : 0 < T.

Definition e0 (x : R) : R := exp (- Rabs x / T).
Definition E1 : R -> R := glue (fun x => T * (exp (x / T) - 1)) (fun x => T * (1 - exp (- x / T))).
Definition E2 : R -> R := glue (fun x => - (T * x) + T * T * exp (x / T)) (fun x => T * x + T * T * exp (- x / T)).

Lemma e0_glue x : e0 x = glue (fun x => exp (x / T)) (fun x => exp (- x / T)) x.
Proof.
  unfold e0, glue. destruct (Rle_dec x 0).
  - rewrite Rabs_left1 by lra. do 2 f_equal. ring.
  - rewrite Rabs_right by lra. reflexivity.
Qed.
Lemma E1_derive x : is_derive E1 x (e0 x).
Proof.
  rewrite e0_glue. unfold E1. apply glue_derive.
  - intros y. auto_derive; [exact I|]. unfold Rdiv. field. lra.
  - intros y. auto_derive; [exact I|]. unfold Rdiv. field. lra.
  - unfold Rdiv. rewrite Ropp_0, Rmult_0_l, exp_0. ring.
  - unfold Rdiv. rewrite Ropp_0, Rmult_0_l, exp_0. ring.
Qed.
Lemma E2_derive x : is_derive E2 x (E1 x).
Proof.
  unfold E1, E2. apply glue_derive.
  - intros y. auto_derive; [exact I|]. unfold Rdiv. field. lra.
  - intros y. auto_derive; [exact I|]. unfold Rdiv. field. lra.
  - unfold Rdiv. rewrite Ropp_0, Rmult_0_l, exp_0. ring.
  - unfold Rdiv. rewrite Ropp_0, Rmult_0_l, exp_0. ring.
Qed.
Lemma e0_continuous x : continuous e0 x.
Proof.
  apply continuous_ext with (glue (fun x => exp (x / T)) (fun x => exp (- x / T))); [intros; symmetry; apply e0_glue|].
  apply glue_continuous.
  - intros y. apply ex_derive_cont. auto_derive. exact I.
  - intros y. apply ex_derive_cont. auto_derive. exact I.
  - unfold Rdiv. rewrite Ropp_0, Rmult_0_l, exp_0. ring.
Qed.
Lemma E1_continuous x : continuous E1 x.
Proof. apply ex_derive_cont. eexists. apply E1_derive. Qed.
Lemma E1_neg x : x <= 0 -> E1 x = T * (exp (x / T) - 1).
Proof. intros. unfold E1. rewrite glue_l; auto. Qed.
Lemma E1_pos x : 0 <= x -> E1 x = T * (1 - exp (- x / T)).
Proof. intros. unfold E1. rewrite glue_r; auto. unfold Rdiv. rewrite Ropp_0, Rmult_0_l, exp_0. ring. Qed.
Lemma E2_neg x : x <= 0 -> E2 x = - (T * x) + T * T * exp (x / T).
Proof. intros. unfold E2. rewrite glue_l; auto. Qed.
Lemma E2_pos x : 0 <= x -> E2 x = T * x + T * T * exp (- x / T).
Proof. intros. unfold E2. rewrite glue_r; auto. unfold Rdiv. rewrite Ropp_0, Rmult_0_l, exp_0. ring. Qed.

Ltac exps :=
  repeat match goal with |- context[exp ?u] => lazymatch u with
    | _ => let y := fresh "y" in set (y := exp u) in * end end.

(** the continuum-line formula is a difference of E1 *)
Lemma slc1_tophat_diff f c w D : 0 < w ->
  slc1_tophat T f c w D = f / (2 * w) * (E1 (w - (D - c)) - E1 (- w - (D - c))).
Proof.
  intros W. unfold slc1_tophat. cbv zeta. set (x := D - c).
  destruct (Rlt_dec x (- w)) as [L|L]; [|destruct (Rlt_dec x w) as [L'|L']].
  - rewrite !E1_pos by lra.
    replace (- (w - x) / T) with ((x - w) / T) by (field; lra).
    replace (- (- w - x) / T) with ((x + w) / T) by (field; lra). field. lra.
  - rewrite E1_pos, E1_neg by lra.
    replace (- (w - x) / T) with ((x - w) / T) by (field; lra).
    replace ((- w - x) / T) with (- (x + w) / T) by (field; lra). field. lra.
  - rewrite !E1_neg by lra.
    replace ((w - x) / T) with (- (x - w) / T) by (field; lra).
    replace ((- w - x) / T) with (- (x + w) / T) by (field; lra). field. lra.
Qed.
(** the line-line formula is a second difference of E2 *)
Lemma sll1_tophat_diff f1 c1 w1 f2 c2 w2 D : 0 < w1 -> 0 < w2 ->
  let x := D - (c1 - c2) in
  sll1_tophat T f1 c1 w1 f2 c2 w2 D
  = f1 / (2 * w1) * (f2 / (2 * w2)) * (E2 (x + w1 + w2) - E2 (x + w1 - w2) - E2 (x - w1 + w2) + E2 (x - w1 - w2)).
Proof.
  intros W1 W2 x. unfold sll1_tophat. cbv zeta. fold x.
  assert (G : forall wh wl, 0 < wl <= wh ->
    (if Rlt_dec x (- wh - wl)
     then exp ((x + wh + wl) / T) + exp ((x - wh - wl) / T) - exp ((x + wh - wl) / T) - exp ((x - wh + wl) / T)
     else if Rlt_dec x (- wh + wl)
     then exp ((x - wh - wl) / T) + exp (- (x + wh + wl) / T) - exp ((x + wh - wl) / T) - exp ((x - wh + wl) / T) + 2 * (x + wh + wl) / T
     else if Rlt_dec x (wh - wl)
     then exp ((x - wh - wl) / T) + exp (- (x + wh + wl) / T) - exp ((x - wh + wl) / T) - exp (- (x + wh - wl) / T) + 4 * wl / T
     else if Rlt_dec x (wh + wl)
     then exp (- (x + wh + wl) / T) + exp ((x - wh - wl) / T) - exp (- (x - wh + wl) / T) - exp (- (x + wh - wl) / T) - 2 * (x - wh - wl) / T
     else exp (- (x - wh - wl) / T) + exp (- (x + wh + wl) / T) - exp (- (x - wh + wl) / T) - exp (- (x + wh - wl) / T))
    = (E2 (x + wh + wl) - E2 (x + wh - wl) - E2 (x - wh + wl) + E2 (x - wh - wl)) / (T * T)).
  { intros wh wl [L1 L2].
    destruct (Rlt_dec x (- wh - wl)) as [A|A]; [|destruct (Rlt_dec x (- wh + wl)) as [B|B]; [|destruct (Rlt_dec x (wh - wl)) as [C|C]; [|destruct (Rlt_dec x (wh + wl)) as [E|E]]]].
    - rewrite !E2_neg by lra. field. lra.
    - rewrite (E2_pos (x + wh + wl)), (E2_neg (x + wh - wl)), (E2_neg (x - wh + wl)), (E2_neg (x - wh - wl)) by lra. field. lra.
    - rewrite (E2_pos (x + wh + wl)), (E2_pos (x + wh - wl)), (E2_neg (x - wh + wl)), (E2_neg (x - wh - wl)) by lra. field. lra.
    - rewrite (E2_pos (x + wh + wl)), (E2_pos (x + wh - wl)), (E2_pos (x - wh + wl)), (E2_neg (x - wh - wl)) by lra. field. lra.
    - rewrite !E2_pos by lra. field. lra. }
  destruct (Rge_dec w1 w2) as [Hw|Hw].
  - rewrite G by lra. field. lra.
  - rewrite G by lra.
    replace (x + w2 + w1) with (x + w1 + w2) by ring. replace (x + w2 - w1) with (x - w1 + w2) by ring.
    replace (x - w2 + w1) with (x + w1 - w2) by ring. replace (x - w2 - w1) with (x - w1 - w2) by ring. field. lra.
Qed.

Lemma tophat_window c a : 0 < width c ->
  ((a < centre c - width c \/ centre c + width c < a) -> tophat c a = 0) /\
  (centre c - width c < a < centre c + width c -> tophat c a = area c / (2 * width c)).
Proof.
  intros W. unfold tophat. split; intros H; destruct (Rle_dec _ _) as [L|L]; auto.
  - apply Rabs_le_between in L. lra.
  - exfalso. apply L. apply Rabs_le_between. lra.
Qed.

Lemma tophat_cl c tc tl : 0 < width c ->
  cov_cl (tophat c) T tc tl (slc1_tophat T (area c) (centre c) (width c) (tl - tc)).
Proof.
  intros W. rewrite slc1_tophat_diff by exact W. unfold cov_cl.
  pose proof (wl_window (fun a => tophat c a * exp (- Rabs (tc - (tl - a)) / T))
    (fun a => area c / (2 * width c) * e0 (a + - (tl - tc))) (fun a => area c / (2 * width c) * E1 (a + - (tl - tc)))
    (centre c - width c) (centre c + width c)) as G.
  replace (area c / (2 * width c) * (E1 (width c - (tl - tc - centre c)) - E1 (- width c - (tl - tc - centre c))))
    with (area c / (2 * width c) * E1 (centre c + width c + - (tl - tc)) - area c / (2 * width c) * E1 (centre c - width c + - (tl - tc))).
  2:{ rewrite <- Rmult_minus_distr_l. do 2 f_equal; f_equal; ring. }
  apply G.
  - lra.
  - intros x Hx. rewrite (proj1 (tophat_window c x W) Hx). ring.
  - intros x Hx. rewrite (proj2 (tophat_window c x W) Hx). unfold e0. replace (tc - (tl - x)) with (x + - (tl - tc)) by ring. reflexivity.
  - intros x _. apply der_scal. eapply der_eq.
    + apply (der_comp E1 (fun a => a + - (tl - tc)) x (e0 (x + - (tl - tc))) 1); [apply E1_derive|]. auto_derive; [exact I|ring].
    + ring.
  - intros x _. apply cont_scal.
    apply (cont_comp e0 (fun a => a + - (tl - tc)) x); [|apply e0_continuous].
    apply ex_derive_cont. auto_derive. exact I.
Qed.

Lemma tophat_ll c1 c2 t1 t2 : 0 < width c1 -> 0 < width c2 ->
  whole_line (fun a => tophat c1 a * slc1_tophat T (area c2) (centre c2) (width c2) (t2 - (t1 - a)))
    (sll1_tophat T (area c1) (centre c1) (width c1) (area c2) (centre c2) (width c2) (t1 - t2)).
Proof.
  intros W1 W2. rewrite sll1_tophat_diff by assumption.
  set (k1 := area c1 / (2 * width c1)). set (k2 := area c2 / (2 * width c2)).
  set (s1 := t1 - t2 + centre c2 + width c2). set (s2 := t1 - t2 + centre c2 - width c2).
  pose proof (wl_window (fun a => tophat c1 a * slc1_tophat T (area c2) (centre c2) (width c2) (t2 - (t1 - a)))
    (fun a => k1 * (k2 * (E1 (s1 + - a) - E1 (s2 + - a))))
    (fun a => k1 * (k2 * (- E2 (s1 + - a) + E2 (s2 + - a))))
    (centre c1 - width c1) (centre c1 + width c1)) as G.
  match goal with |- whole_line _ ?v => replace v with
    (k1 * (k2 * (- E2 (s1 + - (centre c1 + width c1)) + E2 (s2 + - (centre c1 + width c1))))
     - k1 * (k2 * (- E2 (s1 + - (centre c1 - width c1)) + E2 (s2 + - (centre c1 - width c1))))) end.
  2:{ unfold s1, s2. set (x := t1 - t2 - (centre c1 - centre c2)).
      replace (t1 - t2 + centre c2 + width c2 + - (centre c1 + width c1)) with (x - width c1 + width c2) by (unfold x; ring).
      replace (t1 - t2 + centre c2 + width c2 + - (centre c1 - width c1)) with (x + width c1 + width c2) by (unfold x; ring).
      replace (t1 - t2 + centre c2 - width c2 + - (centre c1 + width c1)) with (x - width c1 - width c2) by (unfold x; ring).
      replace (t1 - t2 + centre c2 - width c2 + - (centre c1 - width c1)) with (x + width c1 - width c2) by (unfold x; ring).
      ring. }
  apply G.
  - lra.
  - intros x Hx. rewrite (proj1 (tophat_window c1 x W1) Hx). ring.
  - intros x Hx. rewrite (proj2 (tophat_window c1 x W1) Hx). rewrite slc1_tophat_diff by exact W2. fold k1 k2.
    unfold s1, s2. do 3 f_equal; f_equal; ring.
  - intros x _.
    assert (D : forall s, is_derive (fun a => E2 (s + - a)) x (- E1 (s + - x))).
    { intros s. eapply der_eq.
      - apply (der_comp E2 (fun a => s + - a) x (E1 (s + - x)) (-1)); [apply E2_derive|]. auto_derive; [exact I|ring].
      - ring. }
    apply der_scal, der_scal. eapply der_eq; [apply der_plus; [apply der_opp, D | apply D] | ring].
  - intros x _.
    assert (C : forall s, continuous (fun a => E1 (s + - a)) x).
    { intros s. apply (cont_comp E1 (fun a => s + - a) x); [|apply E1_continuous].
      apply ex_derive_cont. auto_derive. exact I. }
    apply cont_scal, cont_scal, cont_minus; apply C.
Qed.
End Tophat.
