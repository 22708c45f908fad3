(** Exponential and gamma responses.  Convolving with (1/s) exp(-x/s) on x >= 0
    inverts the operator H -> H + s H'; the closed forms are checked against
    that differential equation, branch by branch, and the branches fit together
    at 0. *)
From Coq Require Import Reals Lra Lia.
From Coquelicot Require Import Coquelicot.
From Verif Require Import SemisepModel SemisepProofs KernelCalc KernelSpec KernelModel KernelTophat.
Open Scope R_scope.

(** ** Decay *)
Lemma exp_decay1 u : 0 <= u -> u * exp (- u) <= 1.
Proof.
  intros U. assert (P := exp_pos u). rewrite exp_Ropp.
  apply Rmult_le_reg_r with (exp u); [exact P|]. rewrite Rmult_assoc, Rinv_l by lra.
  destruct (Req_dec u 0) as [->|N]; [lra|]. pose proof (exp_ineq1 u N). lra.
Qed.
Lemma exp_decay2 u : 0 <= u -> u * u * exp (- u) <= 4.
Proof.
  intros U. replace (- u) with (- (u / 2) + - (u / 2)) by field. rewrite exp_plus.
  pose proof (exp_decay1 (u / 2) ltac:(lra)) as H. pose proof (exp_pos (- (u / 2))) as P.
  assert (0 <= u / 2 * exp (- (u / 2))) by (apply Rmult_le_pos; lra).
  replace (u * u * (exp (- (u / 2)) * exp (- (u / 2)))) with (4 * ((u / 2 * exp (- (u / 2))) * (u / 2 * exp (- (u / 2))))) by field.
  assert ((u / 2 * exp (- (u / 2))) * (u / 2 * exp (- (u / 2))) <= 1 * 1) by (apply Rmult_le_compat; lra). lra.
Qed.
Lemma lim_decay (F : R -> R) t0 s C M : 0 < s -> 0 <= C ->
  (forall a, M <= a -> Rabs (F a) <= C * (1 + (a - t0) / s) * exp (- (a - t0) / s)) ->
  is_lim F p_infty 0.
Proof.
  intros S0 C0 H P [e He].
  set (K := Rmax (Rmax M (t0 + s)) (t0 + s * (8 * C / e + 1))).
  exists K. intros a Ha.
  assert (Rmax M (t0 + s) <= K) by apply Rmax_l. assert (t0 + s * (8 * C / e + 1) <= K) by apply Rmax_r.
  assert (M <= Rmax M (t0 + s)) by apply Rmax_l. assert (t0 + s <= Rmax M (t0 + s)) by apply Rmax_r.
  apply He. unfold ball; simpl; unfold AbsRing_ball, abs, minus, plus, opp; simpl. rewrite Ropp_0, Rplus_0_r.
  specialize (H a ltac:(lra)). eapply Rle_lt_trans; [exact H|].
  set (u := (a - t0) / s) in *. replace (- (a - t0) / s) with (- u) in * by (unfold u; field; lra).
  assert (Ha' : a = t0 + s * u) by (unfold u; field; lra).
  assert (U1 : 1 < u). { apply Rmult_lt_reg_l with s; [lra|]. lra. }
  assert (U2 : 8 * C / e + 1 < u). { apply Rmult_lt_reg_l with s; [lra|]. lra. }
  pose proof (exp_decay2 u ltac:(lra)) as D2. pose proof (exp_pos (- u)) as P0. pose proof (cond_pos e) as E0.
  assert (B : u * exp (- u) <= 4 / u).
  { apply Rmult_le_reg_l with u; [lra|]. replace (u * (4 / u)) with 4 by (field; lra). lra. }
  assert (B2 : (1 + u) * exp (- u) <= 8 / u).
  { apply Rle_trans with (2 * (u * exp (- u))); [nra|]. replace (8 / u) with (2 * (4 / u)) by (field; lra). lra. }
  apply Rle_lt_trans with (C * (8 / u)).
  - rewrite Rmult_assoc. apply Rmult_le_compat_l; lra.
  - apply Rmult_lt_reg_r with u; [lra|]. replace (C * (8 / u) * u) with (8 * C) by (field; lra).
    assert (8 * C = e * (8 * C / e)) by (field; lra). nra.
Qed.

(** ** Convolution with one-sided responses *)
Lemma exp_conv (H g : R -> R) f0 t0 s D C : 0 < s ->
  (forall x, is_derive H x ((g x - H x) / s)) -> (forall x, continuous g x) ->
  (forall x, x <= 0 -> Rabs (H x) <= C) ->
  whole_line (fun a => (if Rle_dec t0 a then f0 / s * exp (- (a - t0) / s) else 0) * g (D - a)) (f0 * H (D - t0)).
Proof.
  intros S0 HD HC HB.
  assert (C0 : 0 <= C) by (eapply Rle_trans; [apply Rabs_pos | apply (HB 0); lra]).
  pose proof (wl_half (fun a => (if Rle_dec t0 a then f0 / s * exp (- (a - t0) / s) else 0) * g (D - a))
    (fun a => f0 / s * exp (- (a - t0) / s) * g (D - a))
    (fun a => - f0 * (exp (- (a - t0) / s) * H (D - a))) t0) as G.
  match goal with |- whole_line _ ?v => replace v with (- (- f0 * (exp (- (t0 - t0) / s) * H (D - t0)))) end.
  2:{ rewrite Rminus_diag_eq by reflexivity. unfold Rdiv. rewrite Ropp_0, Rmult_0_l, exp_0. ring. }
  assert (DE : forall x, is_derive (fun a => exp (- (a - t0) / s)) x (- / s * exp (- (x - t0) / s))).
  { intros x. auto_derive; [exact I|]. unfold Rminus. unfold Rdiv. ring. }
  assert (DH : forall x, is_derive (fun a => H (D - a)) x (- ((g (D - x) - H (D - x)) / s))).
  { intros x. eapply der_eq; [apply (der_comp H (fun a => D - a) x ((g (D - x) - H (D - x)) / s) (-1)); [apply HD|auto_derive; [exact I|ring]]|ring]. }
  apply G.
  - intros x Hx. destruct (Rle_dec t0 x); [lra|ring].
  - intros x Hx. destruct (Rle_dec t0 x); [ring|lra].
  - intros x _. eapply der_eq; [apply der_scal, der_mult; [apply DE | apply DH]|]. cbv beta. field. lra.
  - intros x _. apply cont_mult.
    + apply cont_scal. apply ex_derive_cont. eexists. apply DE.
    + apply (cont_comp g (fun a => D - a) x); [|apply HC]. apply ex_derive_cont. auto_derive. exact I.
  - apply (lim_decay _ t0 s (Rabs f0 * C) (Rmax D t0) S0).
    + apply Rmult_le_pos; [apply Rabs_pos|exact C0].
    + intros a Ha. assert (D <= Rmax D t0) by apply Rmax_l. assert (t0 <= Rmax D t0) by apply Rmax_r.
      rewrite !Rabs_mult, Rabs_Ropp. pose proof (exp_pos (- (a - t0) / s)) as P. rewrite (Rabs_pos_eq (exp _)) by lra.
      assert (0 <= (a - t0) / s) by (apply Rmult_le_pos; [lra | left; apply Rinv_0_lt_compat; lra]).
      specialize (HB (D - a) ltac:(lra)). pose proof (Rabs_pos f0). pose proof (Rabs_pos (H (D - a))).
      assert (Q : Rabs f0 * Rabs (H (D - a)) <= Rabs f0 * C) by (apply Rmult_le_compat_l; lra).
      assert (0 <= Rabs f0 * C) by (apply Rmult_le_pos; lra).
      assert (Rabs f0 * C * 1 <= Rabs f0 * C * (1 + (a - t0) / s)) by (apply Rmult_le_compat_l; lra).
      replace (Rabs f0 * (exp (- (a - t0) / s) * Rabs (H (D - a)))) with (Rabs f0 * Rabs (H (D - a)) * exp (- (a - t0) / s)) by ring.
      apply Rmult_le_compat_r; lra.
Qed.
Lemma gamma_conv (H H1 g : R -> R) f0 t0 s D C : 0 < s ->
  (forall x, is_derive H x ((H1 x - H x) / s)) -> (forall x, is_derive H1 x ((g x - H1 x) / s)) -> (forall x, continuous g x) ->
  (forall x, x <= 0 -> Rabs (H x) <= C) -> (forall x, x <= 0 -> Rabs (H1 x) <= C) ->
  whole_line (fun a => (if Rle_dec t0 a then f0 * (a - t0) / (s * s) * exp (- (a - t0) / s) else 0) * g (D - a)) (f0 * H (D - t0)).
Proof.
  intros S0 HD HD1 HC HB HB1.
  assert (C0 : 0 <= C) by (eapply Rle_trans; [apply Rabs_pos | apply (HB 0); lra]).
  pose proof (wl_half (fun a => (if Rle_dec t0 a then f0 * (a - t0) / (s * s) * exp (- (a - t0) / s) else 0) * g (D - a))
    (fun a => f0 / (s * s) * (a - t0) * exp (- (a - t0) / s) * g (D - a))
    (fun a => - f0 * ((a - t0) / s * exp (- (a - t0) / s) * H1 (D - a) + exp (- (a - t0) / s) * H (D - a))) t0) as G.
  match goal with |- whole_line _ ?v => replace v with
    (- (- f0 * ((t0 - t0) / s * exp (- (t0 - t0) / s) * H1 (D - t0) + exp (- (t0 - t0) / s) * H (D - t0)))) end.
  2:{ rewrite Rminus_diag_eq by reflexivity. unfold Rdiv. rewrite Ropp_0, Rmult_0_l, exp_0. ring. }
  assert (DE : forall x, is_derive (fun a => exp (- (a - t0) / s)) x (- / s * exp (- (x - t0) / s))).
  { intros x. auto_derive; [exact I|]. unfold Rminus. unfold Rdiv. ring. }
  assert (DL : forall x, is_derive (fun a => (a - t0) / s) x (/ s)).
  { intros x. auto_derive; [exact I|]. unfold Rdiv. ring. }
  assert (DH : forall x, is_derive (fun a => H (D - a)) x (- ((H1 (D - x) - H (D - x)) / s))).
  { intros x. eapply der_eq; [apply (der_comp H (fun a => D - a) x ((H1 (D - x) - H (D - x)) / s) (-1)); [apply HD|auto_derive; [exact I|ring]]|ring]. }
  assert (DH1 : forall x, is_derive (fun a => H1 (D - a)) x (- ((g (D - x) - H1 (D - x)) / s))).
  { intros x. eapply der_eq; [apply (der_comp H1 (fun a => D - a) x ((g (D - x) - H1 (D - x)) / s) (-1)); [apply HD1|auto_derive; [exact I|ring]]|ring]. }
  apply G.
  - intros x Hx. destruct (Rle_dec t0 x); [lra|ring].
  - intros x Hx. destruct (Rle_dec t0 x); [field; lra|lra].
  - intros x _. eapply der_eq.
    { apply der_scal, der_plus.
      - apply der_mult; [apply der_mult; [apply DL|apply DE]|apply DH1].
      - apply der_mult; [apply DE | apply DH]. }
    cbv beta. field. lra.
  - intros x _. apply cont_mult; [apply cont_mult|].
    + apply ex_derive_cont. auto_derive. exact I.
    + apply ex_derive_cont. eexists. apply DE.
    + apply (cont_comp g (fun a => D - a) x); [|apply HC]. apply ex_derive_cont. auto_derive. exact I.
  - apply (lim_decay _ t0 s (Rabs f0 * C) (Rmax D t0) S0).
    + apply Rmult_le_pos; [apply Rabs_pos|exact C0].
    + intros a Ha. assert (D <= Rmax D t0) by apply Rmax_l. assert (t0 <= Rmax D t0) by apply Rmax_r.
      pose proof (exp_pos (- (a - t0) / s)) as P. set (E := exp (- (a - t0) / s)) in *.
      assert (U : 0 <= (a - t0) / s) by (apply Rmult_le_pos; [lra | left; apply Rinv_0_lt_compat; lra]). set (u := (a - t0) / s) in *.
      rewrite Rabs_mult, Rabs_Ropp. replace (Rabs f0 * C * (1 + u) * E) with (Rabs f0 * (C * (1 + u) * E)) by ring. apply Rmult_le_compat_l; [apply Rabs_pos|].
      eapply Rle_trans; [apply Rabs_triang|]. rewrite !Rabs_mult, (Rabs_pos_eq u), (Rabs_pos_eq E) by lra.
      specialize (HB (D - a) ltac:(lra)). specialize (HB1 (D - a) ltac:(lra)).
      assert (u * E * Rabs (H1 (D - a)) <= u * E * C) by (apply Rmult_le_compat_l; [apply Rmult_le_pos; lra|lra]).
      assert (E * Rabs (H (D - a)) <= E * C) by (apply Rmult_le_compat_l; lra). lra.
Qed.

(** ** Exponential polynomials *)
Definition ep (s a0 a1 a2 x : R) : R := exp (x / s) * (a0 + a1 * x + a2 * (x * x)).
Lemma ep_derive s a0 a1 a2 x : s <> 0 -> is_derive (ep s a0 a1 a2) x (ep s (a0 / s + a1) (a1 / s + 2 * a2) (a2 / s) x).
Proof. intros S0. unfold ep. auto_derive; [exact I|]. unfold Rdiv. field. exact S0. Qed.
(** a + tau a' *)
Lemma ep_ode tau s a0 a1 a2 b0 b1 b2 x : s <> 0 -> tau <> 0 ->
  b0 = a0 * (1 + tau / s) + tau * a1 -> b1 = a1 * (1 + tau / s) + 2 * tau * a2 -> b2 = a2 * (1 + tau / s) ->
  is_derive (ep s a0 a1 a2) x ((ep s b0 b1 b2 x - ep s a0 a1 a2 x) / tau).
Proof.
  intros S0 T0 -> -> ->. eapply der_eq; [apply ep_derive; exact S0|]. unfold ep. field. split; assumption.
Qed.
Lemma ep_continuous s a0 a1 a2 x : s <> 0 -> continuous (ep s a0 a1 a2) x.
Proof. intros S0. apply ex_derive_cont. eexists. apply ep_derive. exact S0. Qed.
Lemma ep_bound s a0 a1 a2 : 0 < s -> forall x, x <= 0 -> Rabs (ep s a0 a1 a2 x) <= Rabs a0 + Rabs a1 * s + 4 * Rabs a2 * (s * s).
Proof.
  intros S0 x X0. unfold ep. set (u := - x / s). assert (Ex : x = - (s * u)) by (unfold u; field; lra).
  assert (U : 0 <= u) by (apply Rmult_le_pos; [lra | left; apply Rinv_0_lt_compat; lra]).
  replace (x / s) with (- u) by (unfold u; field; lra). rewrite Ex.
  pose proof (exp_decay1 u U). pose proof (exp_decay2 u U). pose proof (exp_pos (- u)) as P.
  assert (E1 : exp (- u) <= 1). { rewrite <- exp_0. destruct (Req_dec u 0) as [->|]; [rewrite Ropp_0; lra|]. left. apply exp_increasing. lra. }
  set (E := exp (- u)) in *.
  replace (E * (a0 + a1 * - (s * u) + a2 * (- (s * u) * - (s * u)))) with (E * a0 + (- (u * E * s)) * a1 + (u * u * E * (s * s)) * a2) by ring.
  eapply Rle_trans; [apply Rabs_triang|]. eapply Rle_trans; [apply Rplus_le_compat_r, Rabs_triang|].
  rewrite !Rabs_mult, Rabs_Ropp. pose proof (Rabs_pos a0). pose proof (Rabs_pos a1). pose proof (Rabs_pos a2).
  assert (0 <= u * E) by (apply Rmult_le_pos; lra). assert (0 <= u * u * E) by (apply Rmult_le_pos; nra).
  rewrite !Rabs_mult. rewrite (Rabs_pos_eq E), (Rabs_pos_eq u), (Rabs_pos_eq s) by lra.
  assert (E * Rabs a0 <= 1 * Rabs a0) by (apply Rmult_le_compat_r; lra).
  assert (u * E * (s * Rabs a1) <= 1 * (s * Rabs a1)) by (apply Rmult_le_compat_r; [apply Rmult_le_pos; lra|lra]).
  assert (u * u * E * (s * s * Rabs a2) <= 4 * (s * s * Rabs a2)) by (apply Rmult_le_compat_r; [apply Rmult_le_pos; nra|lra]).
  nra.
Qed.

(** sums of two, with equal or different scales *)
Definition ep2 s a0 a1 a2 r b0 b1 b2 (x : R) : R := ep s a0 a1 a2 x + ep r b0 b1 b2 x.
Lemma ep2_ode tau s a0 a1 a2 r b0 b1 b2 c0 c1 c2 d0 d1 d2 x : s <> 0 -> r <> 0 -> tau <> 0 ->
  c0 = a0 * (1 + tau / s) + tau * a1 -> c1 = a1 * (1 + tau / s) + 2 * tau * a2 -> c2 = a2 * (1 + tau / s) ->
  d0 = b0 * (1 + tau / r) + tau * b1 -> d1 = b1 * (1 + tau / r) + 2 * tau * b2 -> d2 = b2 * (1 + tau / r) ->
  is_derive (ep2 s a0 a1 a2 r b0 b1 b2) x ((ep2 s c0 c1 c2 r d0 d1 d2 x - ep2 s a0 a1 a2 r b0 b1 b2 x) / tau).
Proof.
  intros S0 R0 T0 C0 C1 C2 D0 D1 D2. unfold ep2. eapply der_eq.
  - apply der_plus; [apply (ep_ode tau s a0 a1 a2 c0 c1 c2) | apply (ep_ode tau r b0 b1 b2 d0 d1 d2)]; assumption.
  - field. exact T0.
Qed.
Lemma ep2_continuous s a0 a1 a2 r b0 b1 b2 x : s <> 0 -> r <> 0 -> continuous (ep2 s a0 a1 a2 r b0 b1 b2) x.
Proof. intros. unfold ep2. apply cont_plus; apply ep_continuous; assumption. Qed.
Lemma ep2_bound s a0 a1 a2 r b0 b1 b2 : 0 < s -> 0 < r -> exists C, forall x, x <= 0 -> Rabs (ep2 s a0 a1 a2 r b0 b1 b2 x) <= C.
Proof.
  intros S0 R0. eexists. intros x X. unfold ep2. eapply Rle_trans; [apply Rabs_triang|].
  apply Rplus_le_compat; apply ep_bound; assumption.
Qed.
Lemma ep2_0 s a0 a1 a2 r b0 b1 b2 : ep2 s a0 a1 a2 r b0 b1 b2 0 = a0 + b0.
Proof. unfold ep2, ep, Rdiv. rewrite !Rmult_0_l, exp_0. ring. Qed.

Lemma glue_ode (HA HB gA gB : R -> R) tau : tau <> 0 ->
  (forall x, is_derive HA x ((gA x - HA x) / tau)) -> (forall x, is_derive HB x ((gB x - HB x) / tau)) ->
  HA 0 = HB 0 -> gA 0 = gB 0 ->
  forall x, is_derive (glue HA HB) x ((glue gA gB x - glue HA HB x) / tau).
Proof.
  intros T0 DA DB E0 E1 x. eapply der_eq.
  - apply (glue_derive HA HB (fun x => (gA x - HA x) / tau) (fun x => (gB x - HB x) / tau)); auto.
    rewrite E0, E1. reflexivity.
  - unfold glue. destruct (Rle_dec x 0); reflexivity.
Qed.
Lemma glue_bound (HA HB : R -> R) C : (forall x, x <= 0 -> Rabs (HA x) <= C) -> forall x, x <= 0 -> Rabs (glue HA HB x) <= C.
Proof. intros H x X. rewrite glue_l by exact X. apply H, X. Qed.
