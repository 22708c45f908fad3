(** The Gaussian covariance functions: continuum against line by completing the
    square, line against line by exchanging the integrals. *)
From Coq Require Import Reals Lra Lia.
From Coquelicot Require Import Coquelicot.
From Verif Require Import SemisepModel SemisepProofs KernelModel KernelCalc KernelSpec KernelTophat KernelFubini KernelGauss.
Open Scope R_scope.

(** what the GNU Scientific Library documents for gsl_sf_log_erfc: the logarithm
    of the complementary error function, 2/sqrt(pi) times the integral of
    exp(-t^2) from x to infinity *)
Definition log_erfc_correct (log_erfc : R -> R) : Prop :=
  forall x, is_RInt_gen (fun t => 2 / sqrt PI * exp (- (t * t))) (at_point x) (Rbar_locally p_infty) (exp (log_erfc x)).

Lemma sqrtPI : sqrt PI = 2 * L.
Proof. unfold L. field. Qed.
Lemma erfc_integral x : is_RInt_gen (fun t => 2 / sqrt PI * exp (- (t * t))) (at_point x) (Rbar_locally p_infty) ((L - Phi x) / L).
Proof.
  pose proof L_pos.
  assert (E : forall b, is_RInt (fun t => 2 / sqrt PI * exp (- (t * t))) x b (Phi b / L - Phi x / L)).
  { intros b. apply (is_RInt_derive (V := R_CompleteNormedModule) (fun t => Phi t / L)).
    - intros t _. eapply der_eq.
      + assert (X : forall t : R, / L * Phi t = Phi t / L) by (intros; unfold Rdiv; ring).
        apply (is_derive_ext (fun t => / L * Phi t) (fun t => Phi t / L) t _ X). apply der_scal, Phi_derive.
      + unfold gk. rewrite sqrtPI. field. lra.
    - intros t _. apply ex_derive_cont. auto_derive. exact I. }
  intros P [e He].
  assert (H0 : is_lim (fun b => Phi b / L - Phi x / L) p_infty ((L - Phi x) / L)).
  { replace ((L - Phi x) / L) with (/ L * L + - (Phi x / L)) by (field; lra).
    apply (is_lim_ext (fun b => / L * Phi b + - (Phi x / L))); [intros; unfold Rdiv; ring|].
    apply (is_lim_plus' (fun b => / L * Phi b) (fun _ => - (Phi x / L))); [apply (is_lim_scal_l Phi (/ L) p_infty L), Phi_lim|apply is_lim_const]. }
  assert (H1 : filterlim (fun b => Phi b / L - Phi x / L) (Rbar_locally p_infty) (locally ((L - Phi x) / L))) by exact H0.
  destruct (H1 (ball ((L - Phi x) / L) e) (locally_ball _ e)) as [M HM].
  exists (fun a => a = x) (fun b => M < b); [reflexivity|exists M; auto|].
  intros a b -> Hb. exists (Phi b / L - Phi x / L). split; [apply E|]. apply He, HM, Hb.
Qed.

Lemma erfc_value log_erfc x : log_erfc_correct log_erfc -> exp (log_erfc x) = (L - Phi x) / L.
Proof.
  intros H.
  pose proof (is_RInt_gen_unique (V := R_CompleteNormedModule) _ _ (H x)) as E1.
  pose proof (is_RInt_gen_unique (V := R_CompleteNormedModule) _ _ (erfc_integral x)) as E2. congruence.
Qed.
(** such a function exists *)
Lemma log_erfc_exists : log_erfc_correct (fun x => ln ((L - Phi x) / L)).
Proof.
  intros x. rewrite exp_ln; [apply erfc_integral|]. pose proof L_pos. pose proof (Phi_lt x). apply Rdiv_lt_0_compat; lra.
Qed.

(** an integrand with different antiderivatives left and right of t0 *)
Lemma wl_two (f hl hr Fl Fr : R -> R) (t0 ll lr : R) :
  (forall x, x < t0 -> f x = hl x) -> (forall x, t0 < x -> f x = hr x) ->
  (forall x, is_derive Fl x (hl x)) -> (forall x, continuous hl x) ->
  (forall x, is_derive Fr x (hr x)) -> (forall x, continuous hr x) ->
  is_lim Fl m_infty ll -> is_lim Fr p_infty lr ->
  whole_line f ((Fl t0 - ll) + (lr - Fr t0)).
Proof.
  intros Hl Hr Dl Cl Dr Cr Ll Lr.
  set (f1 := fun x => if Rlt_dec t0 x then 0 else f x). set (f2 := fun x => if Rlt_dec t0 x then f x else 0).
  apply (wl_ext (fun x => f1 x + f2 x)). { intros x. unfold f1, f2. destruct (Rlt_dec t0 x); ring. }
  apply wl_plus.
  - apply (wl_ext (fun x => f1 (- - x))). { intros. f_equal. ring. }
    apply (wl_flip (fun x => f1 (- x))).
    replace (Fl t0 - ll) with (- (ll - Fl (- - t0))) by (rewrite Ropp_involutive; ring).
    apply (wl_half (fun x => f1 (- x)) (fun x => hl (- x)) (fun x => ll - Fl (- x)) (- t0)).
    + intros x Hx. unfold f1. destruct (Rlt_dec t0 (- x)); lra.
    + intros x Hx. unfold f1. destruct (Rlt_dec t0 (- x)); [lra|]. apply Hl. lra.
    + intros x _. eapply der_eq.
      * apply (der_minus (fun _ => ll) (fun x => Fl (- x)) x 0 (-1 * hl (- x))).
        -- apply (is_derive_const ll x).
        -- eapply der_eq; [apply (der_comp Fl Ropp x (hl (- x)) (-1)); [apply Dl|auto_derive; [exact I|ring]]|ring].
      * ring.
    + intros x _. apply (cont_comp hl Ropp x); [apply ex_derive_cont; auto_derive; exact I|apply Cl].
    + replace (Finite 0) with (Finite (ll - ll)) by (f_equal; ring).
      apply is_lim_minus'; [apply is_lim_const|].
      apply (is_lim_comp Fl Ropp p_infty ll m_infty Ll); [|exists 0; discriminate].
      apply (is_lim_opp (fun y => y) p_infty p_infty). apply is_lim_id.
  - replace (lr - Fr t0) with (- (Fr t0 - lr)) by ring.
    apply (wl_half f2 hr (fun x => Fr x - lr) t0).
    + intros x Hx. unfold f2. destruct (Rlt_dec t0 x); lra.
    + intros x Hx. unfold f2. destruct (Rlt_dec t0 x); [|lra]. apply Hr. lra.
    + intros x _. eapply der_eq; [apply (der_minus Fr (fun _ => lr) x (hr x) 0); [apply Dr|apply (is_derive_const lr x)]|ring].
    + intros x _. apply Cr.
    + replace (Finite 0) with (Finite (lr - lr)) by (f_equal; ring).
      apply is_lim_minus'; [exact Lr|apply is_lim_const].
Qed.

Lemma lim_Phi_p C k b : 0 < k -> is_lim (fun a => C * Phi (k * a + b)) p_infty (C * L).
Proof.
  intros K. apply (is_lim_scal_l (fun a => Phi (k * a + b)) C p_infty L).
  apply (is_lim_comp Phi (fun a => k * a + b) p_infty L p_infty Phi_lim); [|exists 0; discriminate].
  apply is_lim_spec. intros M. exists ((M - b) / k). intros x Hx.
  apply Rmult_lt_compat_r with (r := k) in Hx; [|exact K]. unfold Rdiv in Hx. rewrite Rmult_assoc, Rinv_l in Hx by lra. lra.
Qed.
Lemma lim_Phi_m C k b : 0 < k -> is_lim (fun a => C * Phi (k * a + b)) m_infty (- (C * L)).
Proof.
  intros K. apply (is_lim_ext (fun a => (- C) * Phi (k * (- a) + - b))).
  { intros a. replace (k * - a + - b) with (- (k * a + b)) by ring. rewrite Phi_odd. ring. }
  replace (- (C * L)) with ((- C) * L) by ring.
  apply (is_lim_comp (fun a => - C * Phi (k * a + - b)) Ropp m_infty (- C * L) p_infty).
  - apply lim_Phi_p, K.
  - apply (is_lim_opp (fun y => y) m_infty m_infty). apply is_lim_id.
  - exists 0. discriminate.
Qed.
Lemma Phi_affine_derive C k b x : is_derive (fun a => C * Phi (k * a + b)) x (C * (k * gk (k * x + b))).
Proof.
  apply der_scal. eapply der_eq; [apply (der_comp Phi (fun a => k * a + b) x (gk (k * x + b)) k); [apply Phi_derive|]|ring].
  auto_derive; [exact I|]. ring.
Qed.
Lemma gk_affine_cont C k b x : continuous (fun a => C * (k * gk (k * a + b))) x.
Proof. apply ex_derive_cont. unfold gk. auto_derive. exact I. Qed.

Lemma sqrt2_pos : 0 < sqrt 2.
Proof. apply sqrt_lt_R0. lra. Qed.
Lemma sqrt2_sq : sqrt 2 * sqrt 2 = 2.
Proof. apply sqrt_sqrt. lra. Qed.
Lemma two_sq x : 2 * (x * x) = sqrt 2 * x * (sqrt 2 * x).
Proof. transitivity (sqrt 2 * sqrt 2 * (x * x)); [rewrite sqrt2_sq; reflexivity|ring]. Qed.
Lemma sqrt2PI : sqrt (2 * PI) = sqrt 2 * (2 * L).
Proof. rewrite sqrt_mult by (pose proof PI_RGT_0; lra). rewrite sqrtPI. reflexivity. Qed.

(** a Gaussian integrates to its area *)
Lemma gaussian_area c : 0 < width c -> whole_line (gaussian c) (area c).
Proof.
  intros W. pose proof L_pos. pose proof sqrt2_pos as S. pose proof sqrt2_sq as SS.
  set (k := / (sqrt 2 * width c)). assert (K : 0 < k) by (apply Rinv_0_lt_compat, Rmult_lt_0_compat; lra).
  set (b := - (centre c * k)). set (C := area c / (2 * L)).
  assert (E : forall a, C * (k * gk (k * a + b)) = gaussian c a).
  { intros a. unfold gaussian, gk. rewrite sqrt2PI. replace (- ((a - centre c) * (a - centre c)) / (2 * (width c * width c))) with (- ((k * a + b) * (k * a + b))).
    - unfold C, k. field. lra.
    - unfold b, k. rewrite two_sq. field. lra. }
  replace (area c) with ((C * Phi (k * 0 + b) - - (C * L)) + (C * L - C * Phi (k * 0 + b))) by (unfold C; field; lra).
  apply (wl_two (gaussian c) (fun a => C * (k * gk (k * a + b))) (fun a => C * (k * gk (k * a + b)))
    (fun a => C * Phi (k * a + b)) (fun a => C * Phi (k * a + b)) 0).
  - intros; symmetry; apply E.
  - intros; symmetry; apply E.
  - intros; apply Phi_affine_derive.
  - intros; apply gk_affine_cont.
  - intros; apply Phi_affine_derive.
  - intros; apply gk_affine_cont.
  - apply lim_Phi_m, K.
  - apply lim_Phi_p, K.
Qed.
Lemma gaussian_cont c x : 0 < width c -> continuous (gaussian c) x.
Proof. intros W. apply ex_derive_cont. unfold gaussian. auto_derive. nra. Qed.

Section Log.
Variable log_erfc : R -> R.
Hypothesis HL : log_erfc_correct log_erfc.

(** the formula in terms of Phi *)
Lemma slc1_gauss_Phi T f c w D : 0 < T -> 0 < w ->
  slc1_gauss log_erfc T f c w D
  = f / (2 * L) * (exp (w * w / (2 * (T * T)) - (D - c) / T) * (L + Phi (((D - c) / w - w / T) / sqrt 2))
                   + exp (w * w / (2 * (T * T)) + (D - c) / T) * (L - Phi (((D - c) / w + w / T) / sqrt 2))).
Proof.
  intros T0 W. unfold slc1_gauss. cbv zeta. rewrite !exp_plus, !(erfc_value log_erfc) by exact HL.
  replace (- ((D - c) / w - w / T) / sqrt 2) with (- (((D - c) / w - w / T) / sqrt 2)) by (unfold Rdiv; ring).
  rewrite Phi_odd.
  replace (w * w / 2 / T / T) with (w * w / (2 * (T * T))) by (field; lra).
  replace (exp (w * w / (2 * (T * T)) - (D - c) / T)) with (exp (w * w / (2 * (T * T))) * exp (- (D - c) / T))
    by (rewrite <- exp_plus; f_equal; unfold Rdiv; ring).
  pose proof L_pos. field. lra.
Qed.
Lemma slc1_gauss_cont T f c w x : 0 < T -> 0 < w -> continuous (fun D => slc1_gauss log_erfc T f c w D) x.
Proof.
  intros T0 W.
  apply (continuous_ext (fun D => f / (2 * L) * (exp (w * w / (2 * (T * T)) - (D - c) / T) * (L + Phi (((D - c) / w - w / T) / sqrt 2))
                   + exp (w * w / (2 * (T * T)) + (D - c) / T) * (L - Phi (((D - c) / w + w / T) / sqrt 2))))).
  { intros D. symmetry. apply slc1_gauss_Phi; assumption. }
  apply cont_scal. apply cont_plus; apply cont_mult.
  - apply ex_derive_cont. auto_derive. exact I.
  - apply (cont_plus (fun _ => L)); [apply continuous_const|].
    apply (cont_comp Phi (fun D => ((D - c) / w - w / T) / sqrt 2)); [apply ex_derive_cont; auto_derive; exact I|apply Phi_continuous].
  - apply ex_derive_cont. auto_derive. exact I.
  - apply (cont_minus (fun _ => L)); [apply continuous_const|].
    apply (cont_comp Phi (fun D => ((D - c) / w + w / T) / sqrt 2)); [apply ex_derive_cont; auto_derive; exact I|apply Phi_continuous].
Qed.

Lemma gauss_conv T c D : 0 < T -> 0 < width c ->
  whole_line (fun a => gaussian c a * exp (- Rabs (D - a) / T)) (slc1_gauss log_erfc T (area c) (centre c) (width c) D).
Proof.
  intros T0 W. rewrite slc1_gauss_Phi by assumption. set (w := width c) in *. set (m := centre c).
  pose proof L_pos. pose proof sqrt2_pos as S. pose proof sqrt2_sq as SS.
  set (k := / (sqrt 2 * w)). assert (K : 0 < k) by (apply Rinv_0_lt_compat, Rmult_lt_0_compat; lra).
  set (q := w / (sqrt 2 * T)).
  set (bl := - (m * k) - q). set (br := - (m * k) + q).
  set (X := w * w / (2 * (T * T))).
  assert (HX : X = q * q) by (unfold X, q; rewrite two_sq; field; lra).
  assert (Hk : forall y, - (y * y) / (2 * (w * w)) = - (k * y * (k * y))) by (intros; unfold k; rewrite two_sq; field; lra).
  assert (HT : forall y, y / T = y * (2 * k * q)).
  { intros y. transitivity (y * (2 / (sqrt 2 * sqrt 2)) / T); [rewrite SS; field; lra|unfold k, q; field; lra]. }
  set (Cl := area c / (2 * L) * exp (X - (D - m) / T)). set (Cr := area c / (2 * L) * exp (X + (D - m) / T)).
  assert (G : forall a s, gaussian c a * exp s = area c / (2 * L) * (k * exp (- ((a - m) * (a - m)) / (2 * (w * w)) + s))).
  { intros a s. unfold gaussian. fold w m. rewrite sqrt2PI, exp_plus. unfold k. field. lra. }
  assert (El : forall a, a < D -> gaussian c a * exp (- Rabs (D - a) / T) = Cl * (k * gk (k * a + bl))).
  { intros a Ha. rewrite G, Rabs_pos_eq by lra. unfold Cl, gk.
    replace (- ((a - m) * (a - m)) / (2 * (w * w)) + - (D - a) / T) with (X - (D - m) / T + - ((k * a + bl) * (k * a + bl))).
    - rewrite exp_plus. ring.
    - rewrite !HT, HX, Hk. unfold bl. ring. }
  assert (Er : forall a, D < a -> gaussian c a * exp (- Rabs (D - a) / T) = Cr * (k * gk (k * a + br))).
  { intros a Ha. rewrite G, Rabs_minus_sym, Rabs_pos_eq by lra. unfold Cr, gk.
    replace (- ((a - m) * (a - m)) / (2 * (w * w)) + - (a - D) / T) with (X + (D - m) / T + - ((k * a + br) * (k * a + br))).
    - rewrite exp_plus. ring.
    - rewrite !HT, HX, Hk. unfold br. ring. }
  match goal with |- whole_line _ ?v => replace v with ((Cl * Phi (k * D + bl) - - (Cl * L)) + (Cr * L - Cr * Phi (k * D + br))) end.
  - apply (wl_two _ (fun a => Cl * (k * gk (k * a + bl))) (fun a => Cr * (k * gk (k * a + br)))
      (fun a => Cl * Phi (k * a + bl)) (fun a => Cr * Phi (k * a + br)) D).
    + exact El.
    + exact Er.
    + intros; apply Phi_affine_derive.
    + intros; apply gk_affine_cont.
    + intros; apply Phi_affine_derive.
    + intros; apply gk_affine_cont.
    + apply lim_Phi_m, K.
    + apply lim_Phi_p, K.
  - replace (((D - m) / w - w / T) / sqrt 2) with (k * D + bl) by (unfold bl, k, q; field; lra).
    replace (((D - m) / w + w / T) / sqrt 2) with (k * D + br) by (unfold br, k, q; field; lra).
    unfold Cl, Cr. ring.
Qed.

Lemma gauss_cl T c tc tl : 0 < T -> 0 < width c ->
  cov_cl (gaussian c) T tc tl (slc1_gauss log_erfc T (area c) (centre c) (width c) (tl - tc)).
Proof.
  intros T0 W. unfold cov_cl. eapply wl_ext; [|apply gauss_conv; assumption]. intros a. cbv beta.
  replace (tc - (tl - a)) with (- (tl - tc - a)) by ring. rewrite Rabs_Ropp. reflexivity.
Qed.

(** the convolution of two Gaussians *)
Definition conv2 (c1 c2 : comp) : comp :=
  Comp (area c1 * area c2) (centre c1 - centre c2) (sqrt (width c1 * width c1 + width c2 * width c2)).
Lemma conv2_width c1 c2 : 0 < width c1 -> 0 < width c2 ->
  0 < width (conv2 c1 c2) /\ width (conv2 c1 c2) * width (conv2 c1 c2) = width c1 * width c1 + width c2 * width c2.
Proof.
  intros W1 W2. cbn [conv2 width]. split; [apply sqrt_lt_R0; nra|apply sqrt_sqrt; nra].
Qed.
Lemma gaussian_conv2 c1 c2 z : 0 < width c1 -> 0 < width c2 ->
  whole_line (fun a => gaussian c1 a * gaussian c2 (a - z)) (gaussian (conv2 c1 c2) z).
Proof.
  intros W1 W2. destruct (conv2_width c1 c2 W1 W2) as [A0 AA].
  set (A := width (conv2 c1 c2)) in *. set (w1 := width c1) in *. set (w2 := width c2) in *.
  pose proof L_pos. pose proof sqrt2_pos as S.
  set (mu := (centre c1 * (w2 * w2) + (z + centre c2) * (w1 * w1)) / (A * A)).
  set (d := Comp (gaussian (conv2 c1 c2) z) mu (w1 * w2 / A)).
  eapply wl_ext; [|apply (gaussian_area d)].
  - intros a. unfold d, gaussian at 1. cbn [area centre width]. unfold gaussian. fold A w1 w2. rewrite sqrt2PI.
    change (area (conv2 c1 c2)) with (area c1 * area c2). change (centre (conv2 c1 c2)) with (centre c1 - centre c2).
    set (e1 := - ((a - centre c1) * (a - centre c1)) / (2 * (w1 * w1))).
    set (e2 := - ((a - z - centre c2) * (a - z - centre c2)) / (2 * (w2 * w2))).
    set (e3 := - ((z - (centre c1 - centre c2)) * (z - (centre c1 - centre c2))) / (2 * (A * A))).
    set (e4 := - ((a - mu) * (a - mu)) / (2 * (w1 * w2 / A * (w1 * w2 / A)))).
    assert (E : e1 + e2 = e3 + e4).
    { unfold e1, e2, e3, e4, mu.
      replace (2 * (w1 * w2 / A * (w1 * w2 / A))) with (2 * (w1 * w1 * (w2 * w2)) / (A * A)) by (field; lra).
      rewrite AA. field. repeat split; nra. }
    assert (P : exp e1 * exp e2 = exp e3 * exp e4) by (rewrite <- !exp_plus, E; reflexivity).
    transitivity (area c1 * area c2 / (sqrt 2 * (2 * L) * (sqrt 2 * (2 * L)) * w1 * w2) * (exp e3 * exp e4)).
    + field. repeat split; lra.
    + rewrite <- P. field. repeat split; lra.
  - unfold d. cbn [width]. apply Rdiv_lt_0_compat; [apply Rmult_lt_0_compat|]; lra.
Qed.

Lemma laplace_area T D : 0 < T -> whole_line (fun z => exp (- Rabs (D - z) / T)) (2 * T).
Proof.
  intros T0.
  replace (2 * T) with ((T * exp ((D - D) / T) - 0) + (0 - - T * exp (- (D - D) / T))).
  2:{ replace ((D - D) / T) with 0 by (field; lra). replace (- (D - D) / T) with 0 by (field; lra). rewrite exp_0. ring. }
  apply (wl_two _ (fun z => exp ((z - D) / T)) (fun z => exp (- (z - D) / T)) (fun z => T * exp ((z - D) / T)) (fun z => - T * exp (- (z - D) / T)) D).
  - intros x Hx. rewrite Rabs_pos_eq by lra. f_equal. field. lra.
  - intros x Hx. rewrite Rabs_minus_sym, Rabs_pos_eq by lra. f_equal.
  - intros x. auto_derive; [exact I|]. unfold Rdiv, Rminus. field. lra.
  - intros x. apply ex_derive_cont. auto_derive. exact I.
  - intros x. auto_derive; [exact I|]. unfold Rdiv, Rminus. field. lra.
  - intros x. apply ex_derive_cont. auto_derive. exact I.
  - replace (Finite 0) with (Rbar_mult T (Finite 0)) by (simpl; f_equal; ring). apply is_lim_scal_l.
    apply (is_lim_comp exp (fun z => (z - D) / T) m_infty 0 m_infty is_lim_exp_m); [|exists 0; discriminate].
    apply is_lim_spec. intros M. exists (M * T + D). intros x Hx. apply Rmult_lt_reg_r with T; [exact T0|].
    unfold Rdiv. rewrite Rmult_assoc, Rinv_l by lra. lra.
  - replace (Finite 0) with (Rbar_mult (- T) (Finite 0)) by (simpl; f_equal; ring). apply is_lim_scal_l.
    apply (is_lim_comp exp (fun z => - (z - D) / T) p_infty 0 m_infty is_lim_exp_m); [|exists 0; discriminate].
    apply is_lim_spec. intros M. exists (- M * T + D). intros x Hx. apply Rmult_lt_reg_r with T; [exact T0|].
    unfold Rdiv. rewrite Rmult_assoc, Rinv_l by lra. lra.
Qed.

Lemma gaussian_top c a : 0 < width c -> Rabs (gaussian c a) <= Rabs (area c) / (sqrt (2 * PI) * width c).
Proof.
  intros W. assert (S : 0 < sqrt (2 * PI) * width c). { apply Rmult_lt_0_compat; [|exact W]. apply sqrt_lt_R0. pose proof PI_RGT_0. lra. }
  unfold gaussian. set (e := - ((a - centre c) * (a - centre c)) / (2 * (width c * width c))).
  rewrite Rabs_mult, (Rabs_pos_eq (exp e)) by (apply Rlt_le, exp_pos).
  unfold Rdiv. rewrite Rabs_mult, (Rabs_pos_eq (/ _)) by (apply Rlt_le, Rinv_0_lt_compat, S).
  rewrite <- (Rmult_1_r (Rabs (area c) * / (sqrt (2 * PI) * width c))) at 2. apply Rmult_le_compat_l.
  - apply Rmult_le_pos; [apply Rabs_pos|apply Rlt_le, Rinv_0_lt_compat, S].
  - assert (e <= 0). { unfold e, Rdiv. assert (Q : 0 < / (2 * (width c * width c))) by (apply Rinv_0_lt_compat; nra).
      pose proof (Rle_0_sqr (a - centre c)) as Y. unfold Rsqr in Y. rewrite Ropp_mult_distr_l_reverse. pose proof (Rmult_le_pos _ _ Y (Rlt_le _ _ Q)). lra. }
    destruct (Rle_lt_or_eq_dec _ _ H) as [H'| ->]; [|rewrite exp_0; lra]. rewrite <- exp_0. left. apply exp_increasing, H'.
Qed.
Lemma gaussian_abs c a : 0 < width c -> Rabs (gaussian c a) = gaussian (Comp (Rabs (area c)) (centre c) (width c)) a.
Proof.
  intros W. assert (S : 0 < sqrt (2 * PI) * width c). { apply Rmult_lt_0_compat; [|exact W]. apply sqrt_lt_R0. pose proof PI_RGT_0. lra. }
  unfold gaussian. cbn [area centre width]. rewrite Rabs_mult, (Rabs_pos_eq (exp _)) by (apply Rlt_le, exp_pos).
  unfold Rdiv. rewrite Rabs_mult, (Rabs_pos_eq (/ _)) by (apply Rlt_le, Rinv_0_lt_compat, S). reflexivity.
Qed.

Lemma sll1_gauss_conv T f1 c1 w1 f2 c2 w2 D :
  sll1_gauss log_erfc T f1 c1 w1 f2 c2 w2 D = slc1_gauss log_erfc T (f1 * f2) (c1 - c2) (sqrt (w1 * w1 + w2 * w2)) D.
Proof. unfold sll1_gauss, slc1_gauss. cbv zeta. ring. Qed.

Lemma gauss_ll T c1 c2 t1 t2 : 0 < T -> 0 < width c1 -> 0 < width c2 ->
  whole_line (fun a => gaussian c1 a * slc1_gauss log_erfc T (area c2) (centre c2) (width c2) (t2 - (t1 - a)))
    (sll1_gauss log_erfc T (area c1) (centre c1) (width c1) (area c2) (centre c2) (width c2) (t1 - t2)).
Proof.
  intros T0 W1 W2. destruct (conv2_width c1 c2 W1 W2) as [A0 AA]. rewrite sll1_gauss_conv.
  set (D := t1 - t2). set (lap := fun z => exp (- Rabs (D - z) / T)).
  assert (Clap : forall z, continuous lap z).
  { intros z. apply (continuous_ext (fun z => e0 T (D - z))); [reflexivity|].
    apply (cont_comp (e0 T) (fun z => D - z) z); [|apply e0_continuous]. apply ex_derive_cont. auto_derive. exact I. }
  set (M := Rabs (area c2) / (sqrt (2 * PI) * width c2)).
  assert (M0 : 0 <= M). { eapply Rle_trans; [apply Rabs_pos|apply (gaussian_top c2 0 W2)]. }
  apply (fubini_plane (fun a z => gaussian c1 a * (gaussian c2 (a - z) * lap z))
    (fun a => gaussian c1 a * slc1_gauss log_erfc T (area c2) (centre c2) (width c2) (t2 - (t1 - a)))
    (fun z => gaussian (conv2 c1 c2) z * lap z)
    (fun a => Rabs (gaussian c1 a)) (fun z => M * lap z) (Rabs (area c1)) (M * (2 * T))).
  - intros x y. apply continuity_2d_pt_mult; [apply (c2d_fst (gaussian c1)), gaussian_cont, W1|].
    apply continuity_2d_pt_mult; [|apply (c2d_snd lap), Clap].
    apply (c2d_comp1 (gaussian c2) (fun a z => a - z)); [|apply gaussian_cont, W2].
    apply continuity_2d_pt_minus; [apply continuity_2d_pt_id1|apply continuity_2d_pt_id2].
  - intros x. apply cont_mult; [apply gaussian_cont, W1|].
    apply (cont_comp (slc1_gauss log_erfc T (area c2) (centre c2) (width c2)) (fun a => t2 - (t1 - a)) x).
    + apply ex_derive_cont. auto_derive. exact I.
    + apply (slc1_gauss_cont T (area c2) (centre c2) (width c2)); assumption.
  - intros x. apply cont_mult; [apply gaussian_cont, A0|apply Clap].
  - intros x. apply (cont_comp Rabs (gaussian c1) x); [apply gaussian_cont, W1|apply (continuous_Rabs (gaussian c1 x))].
  - intros x. apply cont_scal, Clap.
  - intros x. apply Rabs_pos.
  - intros x. apply Rmult_le_pos; [exact M0|apply Rlt_le, exp_pos].
  - intros x y. rewrite !Rabs_mult. rewrite (Rabs_pos_eq (lap y)) by (apply Rlt_le, exp_pos).
    apply Rmult_le_compat_l; [apply Rabs_pos|]. apply Rmult_le_compat_r; [apply Rlt_le, exp_pos|]. apply gaussian_top, W2.
  - apply (wl_ext (gaussian (Comp (Rabs (area c1)) (centre c1) (width c1)))).
    + intros x. symmetry. apply gaussian_abs, W1.
    + apply (gaussian_area (Comp (Rabs (area c1)) (centre c1) (width c1))). exact W1.
  - apply wl_scal, laplace_area, T0.
  - intros a. apply wl_scal.
    pose proof (gauss_conv T c2 (t2 - (t1 - a)) T0 W2) as G. apply wl_flip in G. apply (wl_shift _ (- a)) in G.
    eapply wl_ext; [|exact G]. intros z. cbv beta. unfold lap. f_equal; [f_equal; ring|]. f_equal. f_equal. f_equal.
    unfold D. replace (t2 - (t1 - a) - - (z + - a)) with (- (t1 - t2 - z)) by ring. rewrite Rabs_Ropp. reflexivity.
  - intros z. apply (wl_ext (fun a => lap z * (gaussian c1 a * gaussian c2 (a - z)))); [intros; ring|].
    rewrite Rmult_comm. apply wl_scal. apply gaussian_conv2; assumption.
  - apply (gauss_conv T (conv2 c1 c2) D T0 A0).
Qed.

Lemma slc1_array_gauss_eq T f c w D : slc1_array_gauss log_erfc T f c w D = slc1_gauss log_erfc T f c w D.
Proof.
  unfold slc1_array_gauss, slc1_gauss. cbv zeta.
  replace (w * w / 2 / T / T) with (w / T * (w / T) / 2) by (unfold Rdiv; ring). reflexivity.
Qed.
Lemma sll1_array_gauss_eq T f1 c1 w1 f2 c2 w2 D : sll1_array_gauss log_erfc T f1 c1 w1 f2 c2 w2 D = sll1_gauss log_erfc T f1 c1 w1 f2 c2 w2 D.
Proof.
  unfold sll1_array_gauss, sll1_gauss. cbv zeta. set (A := sqrt (w1 * w1 + w2 * w2)).
  replace (A * A / 2 / T / T) with (A / T * (A / T) / 2) by (unfold Rdiv; ring). unfold Rdiv. ring.
Qed.
End Log.
