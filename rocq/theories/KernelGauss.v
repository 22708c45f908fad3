(** The integral of exp(-t^2), and the complementary error function. *)
From Coq Require Import Reals Lra.
From Coquelicot Require Import Coquelicot.
From Verif Require Import KernelCalc KernelFubini.
Open Scope R_scope.

Definition gk (t : R) : R := exp (- (t * t)).
Definition Phi (x : R) : R := RInt gk 0 x.

Lemma gk_derive t : is_derive gk t (- (2 * t) * gk t).
Proof. unfold gk. auto_derive; [exact I|]. ring. Qed.
Lemma gk_continuous t : continuous gk t.
Proof. apply ex_derive_cont. eexists. apply gk_derive. Qed.
Lemma gk_pos t : 0 < gk t.
Proof. apply exp_pos. Qed.
Lemma Phi_derive x : is_derive Phi x (gk x).
Proof.
  apply (is_derive_RInt gk Phi 0 x).
  - apply filter_forall. intros b. apply (RInt_correct (V := R_CompleteNormedModule)). apply cont_ex_RInt, gk_continuous.
  - apply gk_continuous.
Qed.
Lemma Phi_0 : Phi 0 = 0.
Proof. apply (RInt_point (V := R_CompleteNormedModule)). Qed.
Lemma Phi_continuous x : continuous Phi x.
Proof. apply ex_derive_cont. eexists. apply Phi_derive. Qed.

(** the auxiliary function of the classical proof *)
Definition aux (x t : R) : R := exp (- (x * x) * (1 + t * t)) / (1 + t * t).
Definition aux' (x t : R) : R := - (2 * x) * exp (- (x * x) * (1 + t * t)).
Lemma aux_derive x t : is_derive (fun x => aux x t) x (aux' x t).
Proof. unfold aux, aux'. assert (0 < 1 + t * t) by nra. auto_derive; [lra|]. field. lra. Qed.

Lemma aux_cont_t x t : continuous (fun t => aux x t) t.
Proof. apply ex_derive_cont. unfold aux. assert (0 < 1 + t * t) by nra. auto_derive. lra. Qed.

(** a function of two variables with a continuous outside is continuous *)
Lemma c2d_of_filterlim (f : R -> R -> R) x y :
  filterlim (fun z : R * R => f (fst z) (snd z)) (locally (x, y)) (locally (f x y)) -> continuity_2d_pt f x y.
Proof. intros H. apply continuity_2d_pt_filterlim. exact H. Qed.
Lemma c2d_comp1 (g : R -> R) (f : R -> R -> R) x y : continuity_2d_pt f x y -> continuous g (f x y) ->
  continuity_2d_pt (fun x y => g (f x y)) x y.
Proof.
  intros Hf Hg e.
  destruct (Hg (fun z => Rabs (z - g (f x y)) < e)) as [d Hd].
  { exists e. intros z Hz. exact Hz. }
  destruct (Hf d) as [d' H']. exists d'. intros u v Hu Hv. apply Hd. apply H'; assumption.
Qed.
Lemma c2d_fst (g : R -> R) x y : continuous g x -> continuity_2d_pt (fun x _ => g x) x y.
Proof. intros H. apply (c2d_comp1 g (fun x _ => x)); [apply continuity_2d_pt_id1|exact H]. Qed.
Lemma c2d_snd (g : R -> R) x y : continuous g y -> continuity_2d_pt (fun _ y => g y) x y.
Proof. intros H. apply (c2d_comp1 g (fun _ y => y)); [apply continuity_2d_pt_id2|exact H]. Qed.
Lemma cont_exp x : continuous exp x.
Proof. apply ex_derive_cont. auto_derive. exact I. Qed.

Lemma aux'_c2d x t : continuity_2d_pt aux' x t.
Proof.
  unfold aux'. apply continuity_2d_pt_mult.
  - apply (c2d_fst (fun x => - (2 * x))). apply ex_derive_cont. auto_derive. exact I.
  - apply (c2d_comp1 exp (fun x t => - (x * x) * (1 + t * t))); [|apply cont_exp].
    apply continuity_2d_pt_mult.
    + apply (c2d_fst (fun x => - (x * x))). apply ex_derive_cont. auto_derive. exact I.
    + apply (c2d_snd (fun t => 1 + t * t)). apply ex_derive_cont. auto_derive. exact I.
Qed.

Definition J (x : R) : R := RInt (fun t => aux x t) 0 1.
Lemma J_derive x : is_derive J x (RInt (fun t => aux' x t) 0 1).
Proof.
  eapply der_eq.
  - apply (is_derive_RInt_param aux 0 1 x).
    + apply filter_forall. intros y t _. eexists. apply aux_derive.
    + intros t _. apply continuity_2d_pt_ext with aux'; [|apply aux'_c2d].
      intros a b. symmetry. apply is_derive_unique, aux_derive.
    + apply filter_forall. intros y. apply cont_ex_RInt. intros t. apply aux_cont_t.
  - apply RInt_ext. intros t _. apply is_derive_unique, aux_derive.
Qed.
Lemma J_derive' x : RInt (fun t => aux' x t) 0 1 = - (2 * gk x * Phi x).
Proof.
  assert (E : is_RInt (fun t => aux' x t) 0 1 (minus (- (2 * gk x * Phi (x * 1))) (- (2 * gk x * Phi (x * 0))))).
  { apply (is_RInt_derive (V := R_CompleteNormedModule) (fun t => - (2 * gk x * Phi (x * t)))).
    - intros t _. eapply der_eq.
      + apply der_opp, der_scal. apply (der_comp Phi (fun t => x * t) t (gk (x * t)) x); [apply Phi_derive|].
        auto_derive; [exact I|]. ring.
      + unfold aux', gk. replace (- (x * x) * (1 + t * t)) with (- (x * x) + - (x * t * (x * t))) by ring. rewrite exp_plus. ring.
    - intros t _. apply (c2d_r aux' x t), aux'_c2d. }
  apply (is_RInt_unique (V := R_CompleteNormedModule)) in E. rewrite E.
  unfold minus, plus, opp; simpl. rewrite Rmult_1_r, Rmult_0_r, Phi_0. ring.
Qed.
Lemma J_0 : J 0 = PI / 4.
Proof.
  assert (E : is_RInt (fun t => aux 0 t) 0 1 (minus (atan 1) (atan 0))).
  { apply (is_RInt_derive (V := R_CompleteNormedModule) atan).
    - intros t _. eapply der_eq; [apply is_derive_atan|]. unfold aux.
      replace (- (0 * 0) * (1 + t * t)) with 0 by ring. rewrite exp_0. assert (0 < 1 + t * t) by nra. unfold Rsqr, Rdiv. field. lra.
    - intros t _. apply aux_cont_t. }
  apply (is_RInt_unique (V := R_CompleteNormedModule)) in E. unfold J. rewrite E.
  unfold minus, plus, opp; simpl. rewrite atan_1, atan_0. ring.
Qed.
Lemma Phi_sq x : Phi x * Phi x + J x = PI / 4.
Proof.
  assert (D : forall x, is_derive (fun x => Phi x * Phi x + J x) x 0).
  { intros y. eapply der_eq.
    - apply der_plus; [apply (der_mult Phi Phi y (gk y) (gk y)); apply Phi_derive|apply J_derive].
    - cbv beta. rewrite J_derive'. ring. }
  assert (E : is_RInt (fun _ => 0) 0 x (minus (Phi x * Phi x + J x) (Phi 0 * Phi 0 + J 0))).
  { apply (is_RInt_derive (V := R_CompleteNormedModule) (fun x => Phi x * Phi x + J x)).
    - intros; apply D.
    - intros. apply continuous_const. }
  apply (is_RInt_unique (V := R_CompleteNormedModule)) in E.
  rewrite (RInt_const (V := R_CompleteNormedModule)) in E. unfold scal, minus, plus, opp in E; simpl in E; unfold mult in E; simpl in E.
  rewrite Phi_0, J_0 in E. lra.
Qed.
Lemma J_bound x : 0 <= J x <= gk x.
Proof.
  assert (C : ex_RInt (fun t => aux x t) 0 1) by (apply cont_ex_RInt; intros; apply aux_cont_t).
  split.
  - apply RInt_ge_0; [lra|exact C|]. intros t _. unfold aux. apply Rlt_le, Rdiv_lt_0_compat; [apply exp_pos|nra].
  - replace (gk x) with (RInt (fun _ => gk x) 0 1).
    2:{ rewrite (RInt_const (V := R_CompleteNormedModule)). unfold scal; simpl; unfold mult; simpl. ring. }
    apply RInt_le; [lra|exact C|apply ex_RInt_const|]. intros t _. unfold aux, gk.
    assert (0 < 1 + t * t) by nra.
    apply Rle_trans with (exp (- (x * x) * (1 + t * t))).
    + apply Rmult_le_reg_r with (1 + t * t); [lra|]. unfold Rdiv. rewrite Rmult_assoc, Rinv_l, Rmult_1_r by lra.
      pose proof (exp_pos (- (x * x) * (1 + t * t))). nra.
    + destruct (Req_dec (- (x * x) * (1 + t * t)) (- (x * x))) as [->|N]; [lra|]. left. apply exp_increasing.
      assert (0 <= x * x * (t * t)) by (apply Rmult_le_pos; nra). nra.
Qed.

Definition L : R := sqrt PI / 2.
Lemma L_pos : 0 < L.
Proof. unfold L. pose proof (sqrt_lt_R0 PI PI_RGT_0). lra. Qed.
Lemma L_sq : L * L = PI / 4.
Proof. unfold L. pose proof (sqrt_sqrt PI (Rlt_le _ _ PI_RGT_0)). nra. Qed.
Lemma Phi_pos x : 0 <= x -> 0 <= Phi x.
Proof. intros H. apply RInt_ge_0; [exact H|apply cont_ex_RInt, gk_continuous|]. intros; apply Rlt_le, gk_pos. Qed.
Lemma Phi_odd x : Phi (- x) = - Phi x.
Proof.
  assert (E : is_RInt (fun _ => 0) 0 x (minus (Phi (- x) + Phi x) (Phi (- 0) + Phi 0))).
  { apply (is_RInt_derive (V := R_CompleteNormedModule) (fun x => Phi (- x) + Phi x)).
    - intros y _. eapply der_eq.
      + apply der_plus; [|apply Phi_derive]. apply (der_comp Phi Ropp y (gk (- y)) (- 1)); [apply Phi_derive|]. auto_derive; [exact I|]. ring.
      + unfold gk. replace (- y * - y) with (y * y) by ring. ring.
    - intros. apply continuous_const. }
  apply (is_RInt_unique (V := R_CompleteNormedModule)) in E.
  rewrite (RInt_const (V := R_CompleteNormedModule)) in E. unfold scal, minus, plus, opp in E; simpl in E; unfold mult in E; simpl in E.
  rewrite Ropp_0, Phi_0 in E. lra.
Qed.
(** the distance to the limit *)
Lemma Phi_near x : 0 <= x -> 0 <= L - Phi x <= gk x / L.
Proof.
  intros H. pose proof (Phi_pos x H) as P. pose proof L_pos. pose proof (Phi_sq x). pose proof L_sq. pose proof (J_bound x) as [J0 J1].
  assert (Phi x <= L) by (apply Rnot_lt_le; intros ?; nra). split; [lra|].
  apply Rmult_le_reg_r with L; [lra|]. unfold Rdiv. rewrite Rmult_assoc, Rinv_l, Rmult_1_r by lra. nra.
Qed.
Lemma Phi_lt x : Phi x < L.
Proof.
  destruct (Rle_dec 0 x) as [H|H].
  - pose proof (Phi_near x H) as [K _]. destruct (Rle_lt_or_eq_dec _ _ K) as [K'|K']; [lra|].
    pose proof (Phi_sq x). pose proof L_sq. replace (Phi x) with L in * by lra.
    assert (J x = 0) by lra. exfalso.
    (* J is positive *)
    assert (0 < J x); [|lra]. unfold J.
    apply RInt_gt_0; [lra| |].
    + intros t _. unfold aux. apply Rdiv_lt_0_compat; [apply exp_pos|nra].
    + intros t _. apply aux_cont_t.
  - pose proof (Phi_near (- x) ltac:(lra)). rewrite Phi_odd in *. pose proof (Phi_pos (- x) ltac:(lra)) as Q. rewrite Phi_odd in Q. pose proof L_pos. lra.
Qed.
Lemma Phi_gt x : - L < Phi x.
Proof. pose proof (Phi_lt (- x)). rewrite Phi_odd in *. lra. Qed.
Lemma gk_small x : 1 <= x -> gk x <= / x.
Proof.
  intros H. unfold gk. rewrite exp_Ropp. apply Rinv_le_contravar; [lra|].
  pose proof (exp_ineq1_le (x * x)). nra.
Qed.
Lemma Phi_lim : is_lim Phi p_infty L.
Proof.
  apply is_lim_spec. intros e. pose proof (cond_pos e) as E0. pose proof L_pos as L0.
  exists (Rmax 1 (/ (e * L))). intros x Hx.
  assert (1 < x) by (eapply Rle_lt_trans; [apply Rmax_l|exact Hx]).
  assert (/ (e * L) < x) by (eapply Rle_lt_trans; [apply Rmax_r|exact Hx]).
  pose proof (Phi_near x ltac:(lra)) as [P1 P2]. pose proof (gk_small x ltac:(lra)) as G.
  rewrite Rabs_minus_sym, Rabs_pos_eq by lra. eapply Rle_lt_trans; [exact P2|].
  apply Rmult_lt_reg_r with L; [lra|]. unfold Rdiv. rewrite Rmult_assoc, Rinv_l, Rmult_1_r by lra.
  eapply Rle_lt_trans; [exact G|]. rewrite <- (Rinv_inv (e * L)).
  apply Rinv_lt_contravar; [|lra]. apply Rmult_lt_0_compat; [|lra]. apply Rinv_0_lt_compat, Rmult_lt_0_compat; lra.
Qed.
