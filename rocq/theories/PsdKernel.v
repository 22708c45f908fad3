(** The covariances of points of the continuum and of lines, whatever their responses,
    form non-negative matrices. *)
From Coq Require Import Reals List Lra Lia Psatz Arith.
From Coquelicot Require Import Coquelicot.
From Verif Require Import SemisepModel SemisepProofs KernelCalc KernelSpec KernelTophat KernelExp KernelExp2 KernelGauss KernelGauss2 PropKernel KernelLift MixSpec MixCode MixLift MixPairs PredProofs PsdCore.
Import ListNotations.
Open Scope R_scope.

(** ** The kernel *)
Definition ker (taud p q : R) : R := exp (- Rabs (p - q) / taud).
Lemma ker_sym taud p q : ker taud p q = ker taud q p.
Proof. unfold ker. rewrite Rabs_minus_sym. reflexivity. Qed.
Lemma ker_bound taud p q : 0 < taud -> Rabs (ker taud p q) <= 1.
Proof.
  intros T. unfold ker. rewrite Rabs_pos_eq by (left; apply exp_pos). rewrite <- exp_0.
  assert (L : - Rabs (p - q) / taud <= 0).
  { unfold Rdiv. rewrite <- Ropp_mult_distr_l. pose proof (Rmult_le_pos _ _ (Rabs_pos (p - q)) (Rlt_le _ _ (Rinv_0_lt_compat _ T))). lra. }
  destruct L as [L| ->]; [left; apply exp_increasing, L|right; reflexivity].
Qed.
Lemma ev_lsum G c : ev G c = lsum (fun q => snd q * c (fst q)) G.
Proof. unfold lsum. induction G as [|[p w] G IH]; cbn [ev fold_right fst snd]; [reflexivity|rewrite IH; reflexivity]. Qed.
Lemma bil_QQ taud F : bil (ker taud) F F = QQ taud F.
Proof.
  unfold bil, QQ. rewrite ev_lsum. apply lsum_ext. intros [p w]. cbn [fst snd].
  rewrite <- (ev_scal F w), (ev_lsum F (fun q => w * ker taud p q)). apply lsum_ext. intros [q v]. cbn [fst snd].
  unfold ker, kk. replace (- Rabs (p - q) / taud) with (- (Rabs (p - q) / taud)) by (unfold Rdiv; ring). ring.
Qed.
Lemma ker_nonneg taud F : 0 < taud -> 0 <= bil (ker taud) F F.
Proof. intros T. rewrite bil_QQ. apply kernel_nonneg, T. Qed.

(** ** Points *)
(** a point of the continuum (None) or of a line with a response, and its time *)
Definition point := (option (R -> R) * R)%type.
Definition cov_of (taud : R) (p q : point) (v : R) : Prop :=
  match fst p, fst q with
  | None, None => v = exp (- Rabs (snd p - snd q) / taud)
  | None, Some g => cov_cl g taud (snd p) (snd q) v
  | Some f, None => cov_cl f taud (snd q) (snd p) v
  | Some f, Some g => cov_ll f g taud (snd p) (snd q) v
  end.
(** the response is absolutely integrable and its covariances with the continuum exist *)
Definition able (taud : R) (psi : R -> R) : Prop :=
  (exists Phi A, (forall a, Rabs (psi a) <= Phi a) /\ whole_line Phi A) /\
  exists g, forall s t, cov_cl psi taud s t (g s t).

Definition fun_T (p : point) : (R -> R) -> R -> Prop := match fst p with None => at_point_T (snd p) | Some psi => line_T psi (snd p) end.
Lemma fun_approx taud p : (forall psi, fst p = Some psi -> able taud psi) -> exists D, approx (fun_T p) D.
Proof.
  destruct p as [[psi|] t]; intros H; unfold fun_T; cbn [fst snd].
  - destruct (H psi eq_refl) as ((Phi & A & H1 & H2) & _). exists (A + 1). apply (approx_line psi Phi A t H1 H2).
  - exists 1. apply approx_point.
Qed.
(** its covariance with the continuum, as a function of the time of the continuum *)
Lemma fun_ker taud p : (forall psi, fst p = Some psi -> able taud psi) -> exists g, forall s, fun_T p (ker taud s) (g s).
Proof.
  destruct p as [[psi|] t]; intros H; unfold fun_T; cbn [fst snd].
  - destruct (H psi eq_refl) as (_ & g & G). exists (fun s => g s t). intros s. apply (G s t).
  - exists (fun s => ker taud s t). intros s. reflexivity.
Qed.
Lemma finite_choice {A} (Q : nat -> A -> Prop) (d : A) n : (forall i, (i < n)%nat -> exists a, Q i a) -> exists f, forall i, (i < n)%nat -> Q i (f i).
Proof.
  induction n as [|n IH]; intros H.
  - exists (fun _ => d). intros i I. lia.
  - destruct IH as [f F]; [intros; apply H; lia|]. destruct (H n (Nat.lt_succ_diag_r n)) as [a Ha].
    exists (fun i => if Nat.eqb i n then a else f i). intros i I. destruct (Nat.eqb_spec i n) as [->|N]; [exact Ha|apply F; lia].
Qed.
(** the covariance of p and q is the functional of p on that function of q *)
Lemma fun_cov taud p q v g : cov_of taud p q v -> (forall s, fun_T q (ker taud s) (g s)) -> fun_T p g v.
Proof.
  intros C G. destruct p as [[f|] t], q as [[h|] s]; unfold cov_of, fun_T in *; cbn [fst snd] in *.
  - destruct C as (inner & I1 & I2). unfold line_T. eapply wl_ext; [|exact I2]. intros a. cbv beta. f_equal.
    eapply wl_unique; [exact (I1 a)|exact (G (t - a))].
  - unfold line_T. eapply wl_ext; [|exact C]. intros a. cbv beta. rewrite G. rewrite ker_sym. reflexivity.
  - unfold at_point_T. eapply wl_unique; [exact C|exact (G t)].
  - unfold at_point_T. rewrite C, G. reflexivity.
Qed.
Lemma fun_linear p n x (g : nat -> R -> R) (v : nat -> R) : (forall j, (j < n)%nat -> fun_T p (g j) (v j)) ->
  fun_T p (fun s => sumn n (fun j => x j * g j s)) (sumn n (fun j => x j * v j)).
Proof.
  intros H. unfold fun_T in *. destruct p as [[f|] t]; cbn [fst snd] in *.
  - unfold line_T in *. eapply wl_ext; [|apply (wl_sum n (fun j a => x j * (f a * g j (t - a))) (fun j => x j * v j))].
    + intros a. cbv beta. rewrite <- sumn_scal. apply sumn_ext. intros j _. ring.
    + intros j J. apply wl_scal. apply H, J.
  - unfold at_point_T in *. apply sumn_ext. intros j J. rewrite (H j J). reflexivity.
Qed.

Theorem points_nonneg : forall taud n (P : nat -> point) (v : nat -> nat -> R), 0 < taud ->
  (forall i psi, (i < n)%nat -> fst (P i) = Some psi -> able taud psi) ->
  (forall i j, (i < n)%nat -> (j < n)%nat -> cov_of taud (P i) (P j) (v i j)) ->
  forall x, 0 <= sumn n (fun i => sumn n (fun j => x i * v i j * x j)).
Proof.
  intros taud n P v T AB CV x.
  destruct (approx_comb n x (fun i => fun_T (P i))) as [D AP].
  { intros i I. apply (fun_approx taud). intros psi E. apply (AB i psi I E). }
  destruct (finite_choice (fun j g => forall s, fun_T (P j) (ker taud s) (g s)) (fun _ => 0) n) as [g G].
  { intros j J. apply fun_ker. intros psi E. apply (AB j psi J E). }
  apply (core (ker taud) (comb_T n x (fun i => fun_T (P i))) D (fun s => sumn n (fun j => x j * g j s))).
  - apply ker_sym.
  - intros p q. apply ker_bound, T.
  - intros F. apply ker_nonneg, T.
  - exact AP.
  - intros s. exists (fun j => g j s). split; [reflexivity|]. intros j J. apply G, J.
  - exists (fun i => sumn n (fun j => x j * v i j)). split.
    + apply sumn_ext. intros i _. rewrite <- sumn_scal. apply sumn_ext. intros j _. ring.
    + intros i I. apply fun_linear. intros j J. apply (fun_cov taud (P i) (P j)); [apply CV; assumption|apply G, J].
Qed.

(** ** The responses of the code *)
Definition absc (c : comp) : comp := Comp (Rabs (area c)) (centre c) (width c).
Lemma shape_abs t c a : 0 < width c -> Rabs (shape_of t c a) <= shape_of t (absc c) a.
Proof.
  intros W. destruct t as [|[|[|[|t]]]]; cbn [shape_of]; [| | | |rewrite Rabs_R0; lra].
  - unfold gaussian, absc. cbn [area centre width]. rewrite Rabs_mult, (Rabs_pos_eq (exp _)) by (left; apply exp_pos).
    unfold Rdiv at 1. rewrite Rabs_mult, (Rabs_pos_eq (/ _)). { right. reflexivity. }
    left. apply Rinv_0_lt_compat, Rmult_lt_0_compat; [|exact W]. apply sqrt_lt_R0. pose proof PI_RGT_0. lra.
  - unfold tophat, absc. cbn [area centre width].
    repeat match goal with |- context [if ?d then _ else _] => destruct d end; try (rewrite Rabs_R0; lra).
    unfold Rdiv. rewrite Rabs_mult, (Rabs_pos_eq (/ _)); [right; reflexivity|]. left. apply Rinv_0_lt_compat. lra.
  - unfold gamma2, absc. cbn [area centre width]. destruct (Rle_dec _ a) as [L|]; [|rewrite Rabs_R0; lra].
    rewrite Rabs_mult, (Rabs_pos_eq (exp _)) by (left; apply exp_pos).
    unfold Rdiv at 1. rewrite Rabs_mult, (Rabs_pos_eq (/ _)) by (left; apply Rinv_0_lt_compat, Rmult_lt_0_compat; exact W).
    rewrite Rabs_mult, (Rabs_pos_eq (a - _)) by lra. right. reflexivity.
  - unfold exponential, absc. cbn [area centre width]. destruct (Rle_dec _ a) as [L|]; [|rewrite Rabs_R0; lra].
    rewrite Rabs_mult, (Rabs_pos_eq (exp _)) by (left; apply exp_pos).
    unfold Rdiv at 1. rewrite Rabs_mult, (Rabs_pos_eq (/ _)) by (left; apply Rinv_0_lt_compat; exact W). right. reflexivity.
Qed.

Lemma shape_area t c : (t < 4)%nat -> 0 < width c -> whole_line (shape_of t c) (area c).
Proof.
  intros T W. destruct t as [|[|[|[|t]]]]; [| | | |lia]; cbn [shape_of].
  - apply gaussian_area, W.
  - pose proof (wl_window (tophat c) (fun _ => area c / (2 * width c)) (fun a => area c / (2 * width c) * a) (centre c - width c) (centre c + width c)) as H.
    cbv beta in H. replace (area c / (2 * width c) * (centre c + width c) - area c / (2 * width c) * (centre c - width c)) with (area c) in H by (field; lra). apply H.
    + lra.
    + intros x X. unfold tophat. destruct (Rle_dec _ _) as [L|]; [|reflexivity]. apply Rabs_le_between' in L. lra.
    + intros x X. unfold tophat. destruct (Rle_dec _ _) as [L|L]; [reflexivity|]. exfalso. apply L. apply Rabs_le_between'. lra.
    + intros x _. auto_derive; [exact I|ring].
    + intros x _. apply continuous_const.
  - pose proof (gamma_conv (fun _ => 1) (fun _ => 1) (fun _ => 1) (area c) (centre c - 2 * width c) (width c) 0 1 W) as H.
    rewrite Rmult_1_r in H. eapply wl_ext; [|apply H].
    + intros a. cbv beta. unfold gamma2. cbv zeta. destruct (Rle_dec _ a); ring.
    + intros x. eapply der_eq; [apply (is_derive_const (1 : R))|]. unfold zero; simpl. field. lra.
    + intros x. eapply der_eq; [apply (is_derive_const (1 : R))|]. unfold zero; simpl. field. lra.
    + intros x. apply continuous_const.
    + intros x _. rewrite Rabs_R1. lra.
    + intros x _. rewrite Rabs_R1. lra.
  - pose proof (exp_conv (fun _ => 1) (fun _ => 1) (area c) (centre c - width c) (width c) 0 1 W) as H.
    rewrite Rmult_1_r in H. eapply wl_ext; [|apply H].
    + intros a. cbv beta. unfold exponential. cbv zeta. destruct (Rle_dec _ a); ring.
    + intros x. eapply der_eq; [apply (is_derive_const (1 : R))|]. unfold zero; simpl. field. lra.
    + intros x. apply continuous_const.
    + intros x _. rewrite Rabs_R1. lra.
Qed.
Lemma sumn_abs n f : Rabs (sumn n f) <= sumn n (fun k => Rabs (f k)).
Proof. induction n as [|n IH]; cbn [sumn]; [rewrite Rabs_R0; lra|]. eapply Rle_trans; [apply Rabs_triang|]. lra. Qed.
Lemma sumn_le n f g : (forall k, (k < n)%nat -> f k <= g k) -> sumn n f <= sumn n g.
Proof. induction n as [|n IH]; intros H; cbn [sumn]; [lra|]. pose proof (H n (Nat.lt_succ_diag_r n)). assert (sumn n f <= sumn n g) by (apply IH; intros; apply H; lia). lra. Qed.
Lemma mixed_able taud n ty c : 0 < taud -> (forall k, (k < n)%nat -> (ty k < 4)%nat /\ 0 < width (c k)) -> able taud (mixed_response n ty c).
Proof.
  intros T H. split.
  - exists (mixed_response n ty (fun k => absc (c k))), (sumn n (fun k => area (absc (c k)))). split.
    + intros a. unfold mixed_response. eapply Rle_trans; [apply sumn_abs|]. apply sumn_le. intros k K. apply shape_abs, H, K.
    + unfold mixed_response. apply wl_sum. intros k K. apply shape_area; [apply H, K|]. destruct (H k K). assumption.
  - exists (fun s t => sumn n (fun k => inner (fun x => ln ((L - Phi x) / L)) taud (ty k) (c k) (t - s))). intros s t.
    apply mixed_cl_sum. intros k K. destruct (H k K). apply inner_cl; auto. apply log_erfc_exists.
Qed.
