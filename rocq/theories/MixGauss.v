(** Moments of a Gaussian over a half line, weighted with an exponential. *)
From Coq Require Import Reals Lra Lia.
From Coquelicot Require Import Coquelicot.
From Verif Require Import SemisepModel SemisepProofs KernelModel KernelCalc KernelSpec KernelTophat KernelExp KernelGauss KernelGauss2.
Open Scope R_scope.

Lemma der_ext (f g : R -> R) x l : (forall t, f t = g t) -> is_derive f x l -> is_derive g x l.
Proof. intros E D. eapply is_derive_ext; [|exact D]. exact E. Qed.

(** changing an integrand in one point *)
Lemma wl_change (f g : R -> R) p v : (forall x, x <> p -> f x = g x) -> whole_line g v -> whole_line f v.
Proof.
  intros E H. replace v with ((v + 0)) by ring.
  apply (wl_ext (fun x => g x + (f x - g x))). { intros x. ring. }
  apply wl_plus; [exact H|]. replace 0 with (- 0) at 1 by ring.
  replace (- 0) with (- (fun _ => 0) p) by reflexivity.
  apply (wl_half (fun x => f x - g x) (fun _ => 0) (fun _ => 0) p).
  - intros x Hx. rewrite E by lra. ring.
  - intros x Hx. rewrite E by lra. ring.
  - intros x _. apply (is_derive_const 0 x).
  - intros x _. apply continuous_const.
  - apply is_lim_const.
Qed.
Section Moments.
Variable w : R.
Hypothesis W : 0 < w.

(** the density of a centred normal variable of width w *)
Definition nd (x : R) : R := exp (- (x * x) / (2 * (w * w))) / (sqrt 2 * (2 * L) * w).
Lemma nd_const : 0 < sqrt 2 * (2 * L) * w.
Proof. pose proof L_pos. pose proof sqrt2_pos. apply Rmult_lt_0_compat; [apply Rmult_lt_0_compat|]; lra. Qed.
Lemma nd_even x : nd (- x) = nd x.
Proof. unfold nd. do 3 f_equal. ring. Qed.
Lemma nd_derive x : is_derive nd x (- x / (w * w) * nd x).
Proof.
  pose proof L_pos. pose proof sqrt2_pos.
  assert (D : is_derive (fun x => exp (- (x * x) / (2 * (w * w)))) x (- x / (w * w) * exp (- (x * x) / (2 * (w * w))))).
  { auto_derive; [exact I|]. unfold Rdiv. field. lra. }
  unfold nd. apply (der_ext (fun x => / (sqrt 2 * (2 * L) * w) * exp (- (x * x) / (2 * (w * w))))); [intros; unfold Rdiv; ring|].
  eapply der_eq; [apply der_scal, D|]. unfold Rdiv. ring.
Qed.
Lemma nd_cont x : continuous nd x.
Proof. apply ex_derive_cont. eexists. apply nd_derive. Qed.

(** integral of nd(y-x) exp(ka y) y^k over y <= 0, for k = 0, 1, 2 *)
Definition M0 (ka x : R) : R := exp (ka * x + ka * ka * (w * w) / 2) * (L - Phi ((x / w + ka * w) / sqrt 2)) / (2 * L).
Definition M1 (ka x : R) : R := (x + ka * (w * w)) * M0 ka x - w * w * nd x.
Definition M2 (ka x : R) : R := ((x + ka * (w * w)) * (x + ka * (w * w)) + w * w) * M0 ka x - w * w * (x + ka * (w * w)) * nd x.

Lemma gk_nd ka x : exp (ka * x + ka * ka * (w * w) / 2) * gk ((x / w + ka * w) / sqrt 2) = sqrt 2 * (2 * L) * w * nd x.
Proof.
  pose proof L_pos. pose proof sqrt2_pos as S. unfold nd, gk. rewrite <- exp_plus.
  replace (ka * x + ka * ka * (w * w) / 2 + - ((x / w + ka * w) / sqrt 2 * ((x / w + ka * w) / sqrt 2))) with (- (x * x) / (2 * (w * w))).
  - field. repeat split; lra.
  - replace ((x / w + ka * w) / sqrt 2 * ((x / w + ka * w) / sqrt 2)) with ((x / w + ka * w) * (x / w + ka * w) / 2).
    + field. lra.
    + rewrite <- (sqrt2_sq) at 1. field. repeat split; lra.
Qed.
Lemma M0_derive ka x : is_derive (M0 ka) x (ka * M0 ka x - nd x).
Proof.
  pose proof L_pos as L0. pose proof sqrt2_pos as S.
  assert (D1 : is_derive (fun x => exp (ka * x + ka * ka * (w * w) / 2)) x (ka * exp (ka * x + ka * ka * (w * w) / 2))).
  { auto_derive; [exact I|]. ring. }
  assert (D2 : is_derive (fun x => L - Phi ((x / w + ka * w) / sqrt 2)) x (0 - gk ((x / w + ka * w) / sqrt 2) * (/ w / sqrt 2))).
  { apply der_minus; [apply (is_derive_const L x)|].
    apply (der_comp Phi (fun x => (x / w + ka * w) / sqrt 2) x); [apply Phi_derive|]. auto_derive; [exact I|]. field. split; lra. }
  unfold M0. apply (der_ext (fun x => / (2 * L) * (exp (ka * x + ka * ka * (w * w) / 2) * (L - Phi ((x / w + ka * w) / sqrt 2))))).
  { intros t. unfold Rdiv. ring. }
  eapply der_eq; [apply der_scal, der_mult; [exact D1|exact D2]|]. cbv beta.
  pose proof (gk_nd ka x) as G.
  replace (nd x) with (exp (ka * x + ka * ka * (w * w) / 2) * gk ((x / w + ka * w) / sqrt 2) / (sqrt 2 * (2 * L) * w)).
  - field. repeat split; lra.
  - rewrite G. field. repeat split; lra.
Qed.
Lemma M1_derive ka x : is_derive (M1 ka) x (ka * M1 ka x + M0 ka x).
Proof.
  unfold M1. eapply der_eq.
  - apply der_minus.
    + apply (der_mult (fun x => x + ka * (w * w)) (M0 ka) x 1); [auto_derive; [exact I|ring]|apply M0_derive].
    + apply der_scal, nd_derive.
  - cbv beta. field. lra.
Qed.
Lemma M2_derive ka x : is_derive (M2 ka) x (ka * M2 ka x + 2 * M1 ka x).
Proof.
  unfold M2. eapply der_eq.
  - apply der_minus.
    + apply (der_mult (fun x => (x + ka * (w * w)) * (x + ka * (w * w)) + w * w) (M0 ka) x (2 * (x + ka * (w * w)))); [auto_derive; [exact I|ring]|apply M0_derive].
    + apply (der_mult (fun x => w * w * (x + ka * (w * w))) nd x (w * w)); [auto_derive; [exact I|ring]|apply nd_derive].
  - cbv beta. unfold M1. field. lra.
Qed.

(** decay *)
Lemma nd_decay x : nd x <= exp (1 / 2) / (sqrt 2 * (2 * L) * w) * exp (- (x / w)).
Proof.
  pose proof L_pos. pose proof sqrt2_pos.
  assert (Q : 0 < / (sqrt 2 * (2 * L) * w)) by (apply Rinv_0_lt_compat, nd_const).
  unfold nd. replace (exp (1 / 2) / (sqrt 2 * (2 * L) * w) * exp (- (x / w))) with (exp (1 / 2 + - (x / w)) / (sqrt 2 * (2 * L) * w)) by (rewrite exp_plus; unfold Rdiv; ring).
  unfold Rdiv at 1 3. apply Rmult_le_compat_r; [lra|].
  assert (E : - (x * x) / (2 * (w * w)) <= 1 / 2 + - (x / w)).
  { replace (- (x * x) / (2 * (w * w))) with (- (x / w * (x / w)) / 2) by (field; lra). pose proof (Rle_0_sqr (x / w - 1)) as Y. unfold Rsqr in Y. generalize dependent (x / w). intros t Y. lra. }
  destruct (Rle_lt_or_eq_dec _ _ E) as [E'| ->]; [left; apply exp_increasing, E'|right; reflexivity].
Qed.
Lemma nd_pos x : 0 < nd x.
Proof.
  pose proof L_pos. pose proof sqrt2_pos. unfold nd. apply Rdiv_lt_0_compat; [apply exp_pos|apply nd_const].
Qed.

(** the tail of M0 *)
Definition G0 (ka x z : R) : R := exp (ka * x + ka * ka * (w * w) / 2) * (L - Phi (((x + z) / w + ka * w) / sqrt 2)) / (2 * L).
Lemma G0_M0 ka x z : G0 ka x z = exp (- ka * z) * M0 ka (x + z).
Proof.
  unfold G0, M0. replace (exp (ka * x + ka * ka * (w * w) / 2)) with (exp (- ka * z) * exp (ka * (x + z) + ka * ka * (w * w) / 2)).
  - unfold Rdiv. ring.
  - rewrite <- exp_plus. f_equal. field.
Qed.
Lemma G0_lim ka x : is_lim (G0 ka x) p_infty 0.
Proof.
  pose proof L_pos. pose proof sqrt2_pos.
  set (C := exp (ka * x + ka * ka * (w * w) / 2) / (2 * L)).
  apply (is_lim_ext (fun z => C * L + - C * Phi (/ (w * sqrt 2) * z + (x / w + ka * w) / sqrt 2))).
  { intros z. unfold G0. fold C. replace (((x + z) / w + ka * w) / sqrt 2) with (/ (w * sqrt 2) * z + (x / w + ka * w) / sqrt 2) by (field; split; lra).
    unfold C. field. lra. }
  replace (Finite 0) with (Finite (C * L + - C * L)) by (f_equal; ring).
  apply (is_lim_plus' (fun _ => C * L)); [apply is_lim_const|]. apply lim_Phi_p. apply Rinv_0_lt_compat, Rmult_lt_0_compat; lra.
Qed.
Lemma tail_lim ka x a b : 0 <= ka -> is_lim (fun z => (a + b * z) * (nd (x + z) * exp (- ka * z))) p_infty 0.
Proof.
  intros K. pose proof L_pos. pose proof sqrt2_pos.
  set (Q := exp (1 / 2) / (sqrt 2 * (2 * L) * w)).
  assert (Q0 : 0 < Q). { unfold Q. apply Rdiv_lt_0_compat; [apply exp_pos|apply nd_const]. }
  set (A := Rabs (a - b * x) + Rabs b * w).
  assert (A0 : 0 <= A). { unfold A. pose proof (Rabs_pos (a - b * x)). pose proof (Rmult_le_pos _ _ (Rabs_pos b) (Rlt_le _ _ W)). lra. }
  apply (lim_decay _ (- x) w (A * Q) (Rmax 0 (- x)) W).
  - apply Rmult_le_pos; lra.
  - intros z Hz. assert (0 <= Rmax 0 (- x)) by apply Rmax_l. assert (- x <= Rmax 0 (- x)) by apply Rmax_r.
    assert (E1 : exp (- ka * z) <= 1).
    { rewrite <- exp_0. assert (N : - ka * z <= 0) by nra. destruct (Rle_lt_or_eq_dec _ _ N) as [N'| ->]; [left; apply exp_increasing, N'|right; reflexivity]. }
    pose proof (exp_pos (- ka * z)) as E0. pose proof (nd_pos (x + z)) as N0. pose proof (nd_decay (x + z)) as ND. fold Q in ND.
    set (u := (z - - x) / w). assert (U : 0 <= u) by (apply Rmult_le_pos; [lra|left; apply Rinv_0_lt_compat; lra]).
    replace (- (z - - x) / w) with (- u) by (unfold u; field; lra).
    replace (exp (- ((x + z) / w))) with (exp (- u)) in ND by (f_equal; unfold u; field; lra).
    rewrite Rabs_mult, (Rabs_pos_eq (nd (x + z) * _)) by (apply Rmult_le_pos; lra).
    assert (B1 : Rabs (a + b * z) <= A * (1 + u)).
    { replace (a + b * z) with ((a - b * x) + b * (w * u)) by (unfold u; field; lra).
      eapply Rle_trans; [apply Rabs_triang|]. rewrite (Rabs_mult b), (Rabs_pos_eq (w * u)) by (apply Rmult_le_pos; lra).
      unfold A. pose proof (Rabs_pos (a - b * x)). pose proof (Rmult_le_pos _ _ (Rabs_pos b) (Rlt_le _ _ W)).
      assert (0 <= Rabs (a - b * x) * u) by (apply Rmult_le_pos; lra).
      replace (Rabs b * (w * u)) with (Rabs b * w * u) by ring. nra. }
    assert (B2 : nd (x + z) * exp (- ka * z) <= Q * exp (- u)).
    { apply Rle_trans with (nd (x + z) * 1); [apply Rmult_le_compat_l; lra|lra]. }
    apply Rle_trans with (A * (1 + u) * (Q * exp (- u))).
    + apply Rmult_le_compat; try apply Rabs_pos; try assumption. apply Rmult_le_pos; lra.
    + right. ring.
Qed.

(** the integral over the half line *)
Lemma half_left ka a0 a1 a2 x : 0 <= ka ->
  whole_line (fun y => if Rle_dec y 0 then nd (y - x) * (exp (ka * y) * (a0 + a1 * y + a2 * (y * y))) else 0)
    (a0 * M0 ka x + a1 * M1 ka x + a2 * M2 ka x).
Proof.
  intros K. set (f := fun y => if Rle_dec y 0 then nd (y - x) * (exp (ka * y) * (a0 + a1 * y + a2 * (y * y))) else 0).
  apply (wl_ext (fun y => f (- - y))). { intros y. f_equal. ring. }
  apply (wl_flip (fun z => f (- z))).
  set (mu := x + ka * (w * w)).
  set (e := fun z => nd (x + z) * exp (- ka * z)).
  set (G := fun z => (a0 - a1 * - mu + a2 * (mu * mu + w * w)) * G0 ka x z + (w * w * (- a1 - a2 * mu) + w * w * a2 * z) * e z).
  assert (De : forall z, is_derive e z (- ((x + z) / (w * w) + ka) * e z)).
  { intros z. unfold e. eapply der_eq.
    - apply der_mult.
      + apply (der_comp nd (fun z => x + z) z (- (x + z) / (w * w) * nd (x + z)) 1); [apply nd_derive|auto_derive; [exact I|ring]].
      + instantiate (1 := - ka * exp (- ka * z)). auto_derive; [exact I|ring].
    - cbv beta. field. lra. }
  assert (DG0 : forall z, is_derive (G0 ka x) z (- e z)).
  { intros z. apply (der_ext (fun z => exp (- ka * z) * M0 ka (x + z))); [intros; symmetry; apply G0_M0|]. eapply der_eq.
    - apply der_mult.
      + instantiate (1 := - ka * exp (- ka * z)). auto_derive; [exact I|ring].
      + apply (der_comp (M0 ka) (fun z => x + z) z (ka * M0 ka (x + z) - nd (x + z)) 1); [apply M0_derive|auto_derive; [exact I|ring]].
    - cbv beta. unfold e. ring. }
  replace (a0 * M0 ka x + a1 * M1 ka x + a2 * M2 ka x) with (- - G 0).
  2:{ unfold G, e. rewrite G0_M0. replace (- ka * 0) with 0 by ring. rewrite exp_0, Rplus_0_r. unfold M1, M2, mu. ring. }
  apply (wl_half (fun z => f (- z)) (fun z => (a0 - a1 * z + a2 * (z * z)) * e z) (fun z => - G z) 0).
  - intros z Hz. unfold f. destruct (Rle_dec (- z) 0); lra.
  - intros z Hz. unfold f. destruct (Rle_dec (- z) 0); [|lra]. unfold e.
    replace (- z - x) with (- (x + z)) by ring. rewrite nd_even. replace (ka * - z) with (- ka * z) by ring. ring.
  - intros z _. unfold G. eapply der_eq.
    + apply der_opp, der_plus; [apply der_scal, DG0|].
      apply (der_mult (fun z => w * w * (- a1 - a2 * mu) + w * w * a2 * z) e z (w * w * a2)); [auto_derive; [exact I|ring]|apply De].
    + cbv beta. unfold mu. field. lra.
  - intros z _. apply cont_mult; [apply ex_derive_cont; auto_derive; exact I|]. apply ex_derive_cont. eexists. apply De.
  - replace (Finite 0) with (Finite (- 0)) by (f_equal; ring). apply (is_lim_opp G p_infty 0).
    unfold G. replace (Finite 0) with (Finite ((a0 - a1 * - mu + a2 * (mu * mu + w * w)) * 0 + 0)) by (f_equal; ring).
    apply (is_lim_plus' (fun z => (a0 - a1 * - mu + a2 * (mu * mu + w * w)) * G0 ka x z)).
    + apply (is_lim_scal_l (G0 ka x) _ p_infty 0). apply G0_lim.
    + unfold e. apply tail_lim, K.
Qed.
Lemma half_right ka a0 a1 a2 x : 0 <= ka ->
  whole_line (fun y => if Rle_dec y 0 then 0 else nd (y - x) * (exp (- ka * y) * (a0 + a1 * y + a2 * (y * y))))
    (a0 * M0 ka (- x) - a1 * M1 ka (- x) + a2 * M2 ka (- x)).
Proof.
  intros K. pose proof (wl_flip _ _ (half_left ka a0 (- a1) a2 (- x) K)) as G.
  replace (a0 * M0 ka (- x) - a1 * M1 ka (- x) + a2 * M2 ka (- x)) with (a0 * M0 ka (- x) + - a1 * M1 ka (- x) + a2 * M2 ka (- x)) by ring.
  apply (wl_change _ _ 0 _ ) with (2 := G).
  intros y Y. cbv beta. replace (- y - - x) with (- (y - x)) by ring. rewrite nd_even.
  replace (ka * - y) with (- ka * y) by ring.
  destruct (Rle_dec (- y) 0), (Rle_dec y 0); lra.
Qed.

(** functions given left and right of 0 *)
Lemma gauss_glue (gl gr : R -> R) x vl vr :
  whole_line (fun y => if Rle_dec y 0 then nd (y - x) * gl y else 0) vl ->
  whole_line (fun y => if Rle_dec y 0 then 0 else nd (y - x) * gr y) vr ->
  whole_line (fun y => nd (y - x) * glue gl gr y) (vl + vr).
Proof.
  intros A B. eapply wl_ext; [|apply (wl_plus _ _ _ _ A B)]. intros y. cbv beta. unfold glue. destruct (Rle_dec y 0); ring.
Qed.
Lemma left_ep2 s a0 a1 a2 r b0 b1 b2 x : 0 < s -> 0 < r ->
  whole_line (fun y => if Rle_dec y 0 then nd (y - x) * ep2 s a0 a1 a2 r b0 b1 b2 y else 0)
    (a0 * M0 (/ s) x + a1 * M1 (/ s) x + a2 * M2 (/ s) x + (b0 * M0 (/ r) x + b1 * M1 (/ r) x + b2 * M2 (/ r) x)).
Proof.
  intros S0 R0. eapply wl_ext; [|apply wl_plus; [apply (half_left (/ s) a0 a1 a2 x)|apply (half_left (/ r) b0 b1 b2 x)]; left; apply Rinv_0_lt_compat; assumption].
  intros y. cbv beta. destruct (Rle_dec y 0); [|ring]. unfold ep2, ep.
  replace (y / s) with (/ s * y) by (unfold Rdiv; ring). replace (y / r) with (/ r * y) by (unfold Rdiv; ring). ring.
Qed.
Lemma right_ep2 s a0 a1 a2 r b0 b1 b2 x : 0 < s -> 0 < r ->
  whole_line (fun y => if Rle_dec y 0 then 0 else nd (y - x) * ep2 (- s) a0 a1 a2 (- r) b0 b1 b2 y)
    (a0 * M0 (/ s) (- x) - a1 * M1 (/ s) (- x) + a2 * M2 (/ s) (- x) + (b0 * M0 (/ r) (- x) - b1 * M1 (/ r) (- x) + b2 * M2 (/ r) (- x))).
Proof.
  intros S0 R0. eapply wl_ext; [|apply wl_plus; [apply (half_right (/ s) a0 a1 a2 x)|apply (half_right (/ r) b0 b1 b2 x)]; left; apply Rinv_0_lt_compat; assumption].
  intros y. cbv beta. destruct (Rle_dec y 0); [ring|]. unfold ep2, ep.
  replace (y / - s) with (- / s * y) by (field; lra). replace (y / - r) with (- / r * y) by (field; lra). ring.
Qed.

(** bounds *)
Lemma M0_tail ka x : 0 <= ka -> 0 <= x -> 0 <= M0 ka x <= sqrt 2 * w / L * nd x.
Proof.
  intros K X. pose proof L_pos as L0. pose proof sqrt2_pos.
  set (u := (x / w + ka * w) / sqrt 2).
  assert (U : 0 <= u).
  { apply Rmult_le_pos; [|left; apply Rinv_0_lt_compat; lra]. apply Rplus_le_le_0_compat.
    - apply Rmult_le_pos; [lra|left; apply Rinv_0_lt_compat; lra].
    - apply Rmult_le_pos; lra. }
  pose proof (Phi_near u U) as [P1 P2]. pose proof (gk_nd ka x) as G. fold u in G. unfold M0. fold u.
  pose proof (exp_pos (ka * x + ka * ka * (w * w) / 2)) as E. set (e := exp _) in *.
  assert (Q : 0 < / (2 * L)) by (apply Rinv_0_lt_compat; lra).
  split.
  - apply Rmult_le_pos; [apply Rmult_le_pos; lra|lra].
  - replace (sqrt 2 * w / L * nd x) with (sqrt 2 * (2 * L) * w * nd x / L / (2 * L)) by (field; lra). rewrite <- G.
    apply Rmult_le_compat_r; [lra|]. unfold Rdiv. rewrite Rmult_assoc. apply Rmult_le_compat_l; [lra|exact P2].
Qed.
Lemma nd_le x : nd x <= / (sqrt 2 * (2 * L) * w).
Proof.
  pose proof nd_const as C. unfold nd, Rdiv. rewrite <- (Rmult_1_l (/ (sqrt 2 * (2 * L) * w))) at 2.
  apply Rmult_le_compat_r; [left; apply Rinv_0_lt_compat, C|]. rewrite <- exp_0.
  assert (N : - (x * x) * / (2 * (w * w)) <= 0).
  { pose proof (Rle_0_sqr x) as Y. unfold Rsqr in Y.
    assert (Z : 0 < / (2 * (w * w))) by (apply Rinv_0_lt_compat; nra). pose proof (Rmult_le_pos _ _ Y (Rlt_le _ _ Z)).
    rewrite Ropp_mult_distr_l_reverse. lra. }
  destruct (Rle_lt_or_eq_dec _ _ N) as [N'| ->]; [left; apply exp_increasing, N'|right; reflexivity].
Qed.
Lemma M0_bound ka x : 0 <= ka -> Rabs (M0 ka x) <= 1.
Proof.
  intros K. pose proof L_pos as L0. pose proof sqrt2_pos as S.
  destruct (Rle_dec 0 (x + ka * (w * w))) as [C|C].
  - set (u := (x / w + ka * w) / sqrt 2).
    assert (U : 0 <= u).
    { unfold u. replace ((x / w + ka * w) / sqrt 2) with ((x + ka * (w * w)) / (w * sqrt 2)) by (field; split; lra).
      apply Rmult_le_pos; [exact C|]. left. apply Rinv_0_lt_compat, Rmult_lt_0_compat; lra. }
    pose proof (Phi_near u U) as [P1 P2]. pose proof (gk_nd ka x) as G. fold u in G. unfold M0. fold u.
    pose proof (exp_pos (ka * x + ka * ka * (w * w) / 2)) as E. set (e := exp _) in *.
    assert (Q : 0 < / (2 * L)) by (apply Rinv_0_lt_compat; lra).
    rewrite Rabs_pos_eq by (apply Rmult_le_pos; [apply Rmult_le_pos; lra|lra]).
    assert (B : e * (L - Phi u) <= e * gk u / L) by (unfold Rdiv; rewrite Rmult_assoc; apply Rmult_le_compat_l; [lra|exact P2]).
    pose proof (nd_le x) as N. pose proof nd_const as NC. rewrite G in B.
    assert (B2 : sqrt 2 * (2 * L) * w * nd x <= 1).
    { apply Rmult_le_compat_l with (r := sqrt 2 * (2 * L) * w) in N; [|lra]. rewrite Rinv_r in N; lra. }
    assert (LH : 1 <= 2 * (L * L)) by (pose proof L_sq as LS; pose proof PI2_1; lra).
    assert (B3 : sqrt 2 * (2 * L) * w * nd x / L <= 1 / L) by (apply Rmult_le_compat_r; [left; apply Rinv_0_lt_compat; lra|lra]).
    apply Rle_trans with (1 / L / (2 * L)); [apply Rmult_le_compat_r; lra|].
    apply Rmult_le_reg_r with (2 * (L * L)); [nra|]. replace (1 / L / (2 * L) * (2 * (L * L))) with 1 by (field; lra). nra.
  - unfold M0. set (u := (x / w + ka * w) / sqrt 2). pose proof (Phi_lt u). pose proof (Phi_gt u).
    assert (N : ka * x + ka * ka * (w * w) / 2 <= 0).
    { assert (ka * (x + ka * (w * w)) <= 0) by (assert (0 <= ka * - (x + ka * (w * w))) by (apply Rmult_le_pos; lra); lra).
      pose proof (Rle_0_sqr (ka * w)) as Y. unfold Rsqr in Y. lra. }
    assert (E1 : exp (ka * x + ka * ka * (w * w) / 2) <= 1).
    { rewrite <- exp_0. destruct (Rle_lt_or_eq_dec _ _ N) as [N'| ->]; [left; apply exp_increasing, N'|right; reflexivity]. }
    pose proof (exp_pos (ka * x + ka * ka * (w * w) / 2)) as E. set (e := exp _) in *.
    rewrite Rabs_pos_eq by (apply Rmult_le_pos; [apply Rmult_le_pos; lra|left; apply Rinv_0_lt_compat; lra]).
    apply Rmult_le_reg_r with (2 * L); [lra|]. unfold Rdiv. rewrite Rmult_assoc, Rinv_l by lra. rewrite Rmult_1_r.
    apply Rmult_le_compat; lra.
Qed.
Lemma nd_poly_bound : exists C, 0 <= C /\ forall x, 0 <= x -> nd x <= C /\ x * nd x <= C /\ x * x * nd x <= C.
Proof.
  pose proof nd_const as NC. set (Q := exp (1 / 2) / (sqrt 2 * (2 * L) * w)).
  assert (Q0 : 0 < Q) by (apply Rdiv_lt_0_compat; [apply exp_pos|exact NC]).
  exists (Q * (1 + w + 4 * (w * w))). assert (0 < Q * w) by (apply Rmult_lt_0_compat; lra). assert (0 < Q * (w * w)) by (apply Rmult_lt_0_compat; nra).
  split; [lra|]. intros x X. pose proof (nd_decay x) as D. fold Q in D. pose proof (nd_pos x).
  set (u := x / w) in *. assert (U : 0 <= u) by (apply Rmult_le_pos; [lra|left; apply Rinv_0_lt_compat; lra]).
  assert (Ex : x = w * u) by (unfold u; field; lra).
  pose proof (exp_decay1 u U) as D1. pose proof (exp_decay2 u U) as D2. pose proof (exp_pos (- u)).
  assert (D0 : exp (- u) <= 1). { rewrite <- exp_0. destruct (Req_dec u 0) as [->|]; [rewrite Ropp_0; lra|]. left. apply exp_increasing. lra. }
  assert (A0 : nd x <= Q) by (eapply Rle_trans; [exact D|]; rewrite <- (Rmult_1_r Q) at 2; apply Rmult_le_compat_l; lra).
  assert (A1 : x * nd x <= Q * w).
  { apply Rle_trans with (x * (Q * exp (- u))); [apply Rmult_le_compat_l; lra|]. rewrite Ex.
    replace (w * u * (Q * exp (- u))) with (Q * w * (u * exp (- u))) by ring. rewrite <- (Rmult_1_r (Q * w)) at 2. apply Rmult_le_compat_l; lra. }
  assert (A2 : x * x * nd x <= Q * (w * w) * 4).
  { apply Rle_trans with (x * x * (Q * exp (- u))); [apply Rmult_le_compat_l; [nra|lra]|]. rewrite Ex.
    replace (w * u * (w * u) * (Q * exp (- u))) with (Q * (w * w) * (u * u * exp (- u))) by ring. apply Rmult_le_compat_l; lra. }
  split; [lra|]. split; lra.
Qed.
Lemma M1_bound ka : 0 <= ka -> exists C, forall x, 0 <= x -> Rabs (M1 ka x) <= C.
Proof.
  intros K. destruct nd_poly_bound as (C & C0 & H). pose proof L_pos. pose proof sqrt2_pos.
  set (k := sqrt 2 * w / L). assert (K0 : 0 < k) by (apply Rdiv_lt_0_compat; [apply Rmult_lt_0_compat|]; lra).
  set (m := ka * (w * w)). assert (M : 0 <= m) by (apply Rmult_le_pos; nra).
  exists (k * C + m * (k * C) + w * w * C). intros x X. destruct (H x X) as (A0 & A1 & A2). destruct (M0_tail ka x K X) as [T0 T1]. fold k in T1.
  pose proof (nd_pos x). unfold M1. fold m.
  assert (x * M0 ka x <= k * C).
  { apply Rle_trans with (x * (k * nd x)); [apply Rmult_le_compat_l; lra|]. replace (x * (k * nd x)) with (k * (x * nd x)) by ring. apply Rmult_le_compat_l; lra. }
  assert (m * M0 ka x <= m * (k * C)).
  { apply Rmult_le_compat_l; [lra|]. eapply Rle_trans; [exact T1|]. apply Rmult_le_compat_l; lra. }
  assert (w * w * nd x <= w * w * C) by (apply Rmult_le_compat_l; nra).
  assert (0 <= x * M0 ka x) by (apply Rmult_le_pos; lra). assert (0 <= m * M0 ka x) by (apply Rmult_le_pos; lra).
  assert (0 <= w * w * nd x) by (apply Rmult_le_pos; nra).
  apply Rabs_le. rewrite Rmult_plus_distr_r. lra.
Qed.
Lemma M2_bound ka : 0 <= ka -> exists C, forall x, 0 <= x -> Rabs (M2 ka x) <= C.
Proof.
  intros K. destruct (M1_bound ka K) as (C1 & H1). destruct nd_poly_bound as (C & C0 & H). pose proof L_pos. pose proof sqrt2_pos.
  set (k := sqrt 2 * w / L). assert (K0 : 0 < k) by (apply Rdiv_lt_0_compat; [apply Rmult_lt_0_compat|]; lra).
  set (m := ka * (w * w)). assert (M : 0 <= m) by (apply Rmult_le_pos; nra).
  exists (k * C + 2 * m * (k * C) + m * m * (k * C) + w * w * (k * C) + w * w * C + w * w * (m * C)).
  intros x X. destruct (H x X) as (A0 & A1 & A2). destruct (M0_tail ka x K X) as [T0 T1]. fold k in T1.
  pose proof (nd_pos x). unfold M2. fold m.
  assert (B0 : M0 ka x <= k * C) by (eapply Rle_trans; [exact T1|]; apply Rmult_le_compat_l; lra).
  assert (B1 : x * M0 ka x <= k * C).
  { apply Rle_trans with (x * (k * nd x)); [apply Rmult_le_compat_l; lra|]. replace (x * (k * nd x)) with (k * (x * nd x)) by ring. apply Rmult_le_compat_l; lra. }
  assert (B2 : x * x * M0 ka x <= k * C).
  { apply Rle_trans with (x * x * (k * nd x)); [apply Rmult_le_compat_l; [nra|lra]|]. replace (x * x * (k * nd x)) with (k * (x * x * nd x)) by ring. apply Rmult_le_compat_l; lra. }
  assert (P1 : 0 <= x * M0 ka x) by (apply Rmult_le_pos; lra). assert (P2 : 0 <= x * x * M0 ka x) by (apply Rmult_le_pos; nra).
  assert (Q1 : m * (x * M0 ka x) <= m * (k * C)) by (apply Rmult_le_compat_l; lra).
  assert (Q2 : m * m * M0 ka x <= m * m * (k * C)) by (apply Rmult_le_compat_l; nra).
  assert (Q3 : w * w * M0 ka x <= w * w * (k * C)) by (apply Rmult_le_compat_l; nra).
  assert (Q4 : w * w * (x * nd x) <= w * w * C) by (apply Rmult_le_compat_l; nra).
  assert (Q5 : w * w * (m * nd x) <= w * w * (m * C)) by (apply Rmult_le_compat_l; [nra|]; apply Rmult_le_compat_l; lra).
  assert (0 <= m * (x * M0 ka x)) by (apply Rmult_le_pos; lra).
  assert (0 <= m * m * M0 ka x) by (apply Rmult_le_pos; nra).
  assert (0 <= w * w * M0 ka x) by (apply Rmult_le_pos; nra).
  assert (0 <= x * nd x) by (apply Rmult_le_pos; lra).
  assert (0 <= w * w * (x * nd x)) by (apply Rmult_le_pos; nra).
  assert (0 <= m * nd x) by (apply Rmult_le_pos; lra).
  assert (0 <= w * w * (m * nd x)) by (apply Rmult_le_pos; nra).
  replace (((x + m) * (x + m) + w * w) * M0 ka x - w * w * (x + m) * nd x)
    with (x * x * M0 ka x + 2 * (m * (x * M0 ka x)) + m * m * M0 ka x + w * w * M0 ka x - w * w * (x * nd x) - w * w * (m * nd x)) by ring.
  apply Rabs_le. lra.
Qed.
End Moments.
