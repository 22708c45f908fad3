(** Mean delay and peak of the four response shapes. *)
From Coq Require Import Reals Arith Lia Lra.
From Coquelicot Require Import Coquelicot.
From Verif Require Import SemisepModel SemisepProofs KernelCalc KernelSpec KernelExp KernelGauss KernelGauss2 KernelLift MixSpec PsdKernel.
Open Scope R_scope.

Definition about (t : nat) (c : comp) (a : R) : R := (a - centre c) * shape_of t c a.

Lemma tophat_about c : 0 < width c -> whole_line (about 1 c) 0.
Proof.
  intros W.
  pose proof (wl_window (about 1 c) (fun a => (a - centre c) * (area c / (2 * width c))) (fun a => area c / (2 * width c) * ((a - centre c) * (a - centre c) / 2)) (centre c - width c) (centre c + width c)) as H.
  cbv beta in H.
  match type of H with _ -> _ -> _ -> _ -> _ -> whole_line _ ?v => replace v with 0 in H by (field; lra) end. apply H.
  - lra.
  - intros x X. unfold about. cbn [shape_of]. unfold tophat. destruct (Rle_dec _ _) as [L|]; [|ring]. apply Rabs_le_between' in L. lra.
  - intros x X. unfold about. cbn [shape_of]. unfold tophat. destruct (Rle_dec _ _) as [L|L]; [reflexivity|]. exfalso. apply L. apply Rabs_le_between'. lra.
  - intros x _. auto_derive; [exact I|field; lra].
  - intros x _. apply ex_derive_cont. auto_derive. exact I.
Qed.
Lemma exponential_about c : 0 < width c -> whole_line (about 3 c) 0.
Proof.
  intros W. set (t0 := centre c - width c). set (A := area c). set (w := width c).
  pose proof (wl_half (about 3 c) (fun a => (a - centre c) * (A / w * exp (- (a - t0) / w))) (fun a => - (A * (a - t0) * exp (- (a - t0) / w))) t0) as H.
  cbv beta in H. replace (- - (A * (t0 - t0) * exp (- (t0 - t0) / w))) with 0 in H by ring. apply H.
  - intros x X. unfold about. cbn [shape_of]. unfold exponential. cbv zeta. fold t0. destruct (Rle_dec t0 x); [lra|ring].
  - intros x X. unfold about. cbn [shape_of]. unfold exponential. cbv zeta. fold t0. destruct (Rle_dec t0 x); [reflexivity|lra].
  - intros x _. auto_derive; [exact I|]. change (width c) with w in W. replace (centre c) with (t0 + w) by (unfold t0, w; ring). clearbody t0. unfold Rdiv. match goal with |- context [exp ?e] => set (E := exp e) end. replace (exp (- (x - t0) * / w)) with E by (unfold E; f_equal; ring). clearbody E. field. lra.
  - intros x _. apply ex_derive_cont. auto_derive. exact I.
  - apply (lim_decay _ t0 w (Rabs A * w) t0); [exact W|apply Rmult_le_pos; [apply Rabs_pos|left; exact W]|].
    intros a Ha. rewrite Rabs_Ropp, !Rabs_mult, (Rabs_pos_eq (exp _)) by (left; apply exp_pos). rewrite (Rabs_pos_eq (a - t0)) by lra.
    apply Rmult_le_compat_r; [left; apply exp_pos|]. replace (Rabs A * w * (1 + (a - t0) / w)) with (Rabs A * (w + (a - t0))) by (field; change (width c) with w in W; lra).
    apply Rmult_le_compat_l; [apply Rabs_pos|]. change (width c) with w in W. lra.
Qed.
Lemma gamma_about c : 0 < width c -> whole_line (about 2 c) 0.
Proof.
  intros W. set (t0 := centre c - 2 * width c). set (A := area c). set (w := width c). change (width c) with w in W.
  pose proof (wl_half (about 2 c) (fun a => (a - centre c) * (A * (a - t0) / (w * w) * exp (- (a - t0) / w))) (fun a => - (A / w * ((a - t0) * (a - t0)) * exp (- (a - t0) / w))) t0) as H.
  cbv beta in H. replace (- - (A / w * ((t0 - t0) * (t0 - t0)) * exp (- (t0 - t0) / w))) with 0 in H by (unfold Rdiv; ring). apply H.
  - intros x X. unfold about. cbn [shape_of]. unfold gamma2. cbv zeta. fold t0. destruct (Rle_dec t0 x); [lra|ring].
  - intros x X. unfold about. cbn [shape_of]. unfold gamma2. cbv zeta. fold t0. destruct (Rle_dec t0 x); [reflexivity|lra].
  - intros x _. auto_derive; [exact I|]. replace (centre c) with (t0 + 2 * w) by (unfold t0, w; ring). clearbody t0. unfold Rdiv. match goal with |- context [exp ?e] => set (E := exp e) end. replace (exp (- (x - t0) * / w)) with E by (unfold E; f_equal; ring). clearbody E. field. lra.
  - intros x _. apply ex_derive_cont. auto_derive. exact I.
  - apply (lim_decay _ t0 (2 * w) (4 * Rabs A * w) t0); [lra|pose proof (Rabs_pos A); nra|].
    intros a Ha. rewrite Rabs_Ropp, !Rabs_mult, (Rabs_pos_eq (exp _)) by (left; apply exp_pos). rewrite (Rabs_pos_eq (a - t0)) by lra.
    unfold Rdiv at 1. rewrite Rabs_mult, (Rabs_pos_eq (/ w)) by (left; apply Rinv_0_lt_compat; exact W).
    set (v := (a - t0) / (2 * w)). assert (V : a - t0 = 2 * w * v) by (unfold v; field; lra).
    assert (V0 : 0 <= v) by (unfold v; apply Rmult_le_pos; [lra|left; apply Rinv_0_lt_compat; lra]).
    replace (- (a - t0) / w) with (- v + - v) by (unfold v; field; lra). replace (- (a - t0) / (2 * w)) with (- v) by (unfold v; field; lra).
    rewrite exp_plus, V. pose proof (exp_decay1 v V0) as D. pose proof (exp_pos (- v)) as P. pose proof (Rabs_pos A) as QA.
    replace (Rabs A * / w * (2 * w * v * (2 * w * v)) * (exp (- v) * exp (- v))) with (4 * Rabs A * w * (v * exp (- v)) * (v * exp (- v))) by (field; lra).
    replace (4 * Rabs A * w * (1 + v) * exp (- v)) with (4 * Rabs A * w * ((1 + v) * exp (- v))) by ring.
    rewrite Rmult_assoc. apply Rmult_le_compat_l; [nra|]. apply Rle_trans with (1 * (v * exp (- v))).
    + apply Rmult_le_compat_r; [apply Rmult_le_pos; lra|exact D].
    + lra.
Qed.
Lemma gaussian_lim c C : 0 < width c -> is_lim (fun a => C * gaussian c a) p_infty 0.
Proof.
  intros W. set (K := Rabs (C * (area c / (sqrt (2 * PI) * width c))) * exp (1 / 2)).
  apply (lim_decay _ (centre c) (width c) K (centre c)); [exact W|unfold K; apply Rmult_le_pos; [apply Rabs_pos|left; apply exp_pos]|].
  intros a Ha. unfold gaussian. rewrite <- Rmult_assoc, Rabs_mult, (Rabs_pos_eq (exp _)) by (left; apply exp_pos).
  unfold K. rewrite !Rmult_assoc. apply Rmult_le_compat_l; [apply Rabs_pos|].
  set (z := (a - centre c) / width c). assert (Z0 : 0 <= z) by (unfold z; apply Rmult_le_pos; [lra|left; apply Rinv_0_lt_compat; exact W]).
  replace (- ((a - centre c) * (a - centre c)) / (2 * (width c * width c))) with (- (z * z) / 2) by (unfold z; field; lra).
  replace (- (a - centre c) / width c) with (- z) by (unfold z; field; lra).
  apply Rle_trans with (exp (1 / 2) * exp (- z)).
  - rewrite <- exp_plus. destruct (Req_dec (- (z * z) / 2) (1 / 2 + - z)) as [->|N]; [lra|]. left. apply exp_increasing. assert (0 <= (z - 1) * (z - 1)) by apply Rle_0_sqr. lra.
  - apply Rmult_le_compat_l; [left; apply exp_pos|]. pose proof (exp_pos (- z)). nra.
Qed.
Lemma gaussian_lim_m c C : 0 < width c -> is_lim (fun a => C * gaussian c a) m_infty 0.
Proof.
  intros W. set (d := Comp (area c) (- centre c) (width c)).
  apply (is_lim_ext (fun a => C * gaussian d (- a))).
  { intros a. f_equal. unfold gaussian, d. cbn [area centre width]. do 2 f_equal. unfold Rdiv. f_equal. ring. }
  apply (is_lim_comp (fun a => C * gaussian d a) Ropp m_infty 0 p_infty).
  - apply gaussian_lim. exact W.
  - apply (is_lim_opp (fun y => y) m_infty m_infty). apply is_lim_id.
  - exists 0. discriminate.
Qed.
Lemma gaussian_about c : 0 < width c -> whole_line (about 0 c) 0.
Proof.
  intros W. set (F := fun a => (- (width c * width c)) * gaussian c a).
  assert (D : forall x, is_derive F x ((x - centre c) * gaussian c x)).
  { intros x. unfold F, gaussian. auto_derive; [exact I|]. assert (0 < sqrt (2 * PI)) by (apply sqrt_lt_R0; pose proof PI_RGT_0; lra).
    match goal with |- context [exp ?e] => set (E := exp e) end.
    replace (exp (- ((x - centre c) * (x - centre c)) / (2 * (width c * width c)))) with E by (unfold E; f_equal; unfold Rdiv; ring). clearbody E. field. lra. }
  assert (K : forall x, continuous (fun x => (x - centre c) * gaussian c x) x).
  { intros x. apply cont_mult; [|apply gaussian_cont, W]. apply ex_derive_cont. auto_derive. exact I. }
  pose proof (wl_two (about 0 c) (fun x => (x - centre c) * gaussian c x) (fun x => (x - centre c) * gaussian c x) F F 0 0 0
    (fun x _ => eq_refl) (fun x _ => eq_refl) D K D K (gaussian_lim_m c _ W) (gaussian_lim c _ W)) as H.
  replace (F 0 - 0 + (0 - F 0)) with 0 in H by ring. exact H.
Qed.
(** the mean delay of a component is its centre *)
Lemma shape_moment t c : (t < 4)%nat -> 0 < width c -> whole_line (fun a => a * shape_of t c a) (area c * centre c).
Proof.
  intros T W. assert (Z : whole_line (about t c) 0).
  { destruct t as [|[|[|[|t]]]]; [apply gaussian_about|apply tophat_about|apply gamma_about|apply exponential_about|lia]; exact W. }
  pose proof (wl_plus _ _ _ _ Z (wl_scal (centre c) _ _ (shape_area t c T W))) as H.
  replace (0 + centre c * area c) with (area c * centre c) in H by ring. eapply wl_ext; [|exact H]. intros x. unfold about. cbv beta. ring.
Qed.
