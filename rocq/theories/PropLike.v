(** C30: the likelihood is the Gaussian likelihood with the trends integrated
    out.  Real arithmetic, no rounding. *)
From Coq Require Import Reals List Arith Lia Lra Psatz ZArith Bool.
From Verif Require Import SemisepModel SemisepProofs SemisepProofs2 MatBridge MatBridge2 SemisepProofs3 PropSemisep
  PartModel PartProofs PartProofs2 PropPart PolyRoots GlsAlgebra LikeModel LikeProofs.
Import ListNotations.
Open Scope R_scope.

(** ** What the statements are about *)

(** Light curves 0, 1, ... (the continuum first) are stacked: point k of curve c
    has number [total size c + k].  A trend gives each curve its own polynomial
    in time with nq coefficients, those of curve c are v (c*nq), v (c*nq+1), ... *)
Definition trend_at (nq : nat) (v : nat -> R) (c : nat) (t : R) : R := sumn nq (fun i => v (c * nq + i)%nat * t ^ i).
(** L is the matrix of all trends: row of point k of curve c times v is the
    trend v at that point. *)
Definition trend_design (nq nc : nat) (size : nat -> nat) (ts : nat -> nat -> R) (L : nat -> nat -> R) : Prop :=
  forall c k v, (c < nc)%nat -> (k < size c)%nat ->
    sumn (nq * nc) (fun m => L (total size c + k)%nat m * v m) = trend_at nq v c (ts c k).
(** r^T Si r *)
Definition chi_square (n : nat) (Si : nat -> nat -> R) (r : nat -> R) : R :=
  sumn n (fun i => sumn n (fun j => r i * Si i j * r j)).
(** y - L q *)
Definition residual (m : nat) (L : nat -> nat -> R) (y q : nat -> R) (i : nat) : R := y i - sumn m (fun j => L i j * q j).
(** L^T Si L *)
Definition normal_matrix (n : nat) (Si L : nat -> nat -> R) (a b : nat) : R :=
  sumn n (fun i => sumn n (fun j => L i a * Si i j * L j b)).
(** p is the log-likelihood of the data y with trends integrated out, up to the
    constant: S covariance, Si its inverse, L the trends. *)
Definition marginal_loglike (n m : nat) (S Si L : nat -> nat -> R) (y : nat -> R) (p : R) : Prop :=
  exists q, (forall q', chi_square n Si (residual m L y q) <= chi_square n Si (residual m L y q')) /\
    p = - (1 / 2) * chi_square n Si (residual m L y q) - 1 / 2 * ln (detn n S) - 1 / 2 * ln (detn m (normal_matrix n Si L)).
(** at least nq different times *)
Definition enough_times (nq n : nat) (t : nat -> R) : Prop :=
  exists pick : nat -> nat, (forall i, (i < nq)%nat -> (pick i < n)%nat) /\
    (forall i j, (i < nq)%nat -> (j < nq)%nat -> t (pick i) = t (pick j) -> i = j).

(** ** Links to the proofs *)
Lemma chi_link : forall n Si r r', (forall i, (i < n)%nat -> r i = r' i) -> chi_square n Si r = chi2 n Si r'.
Proof.
  intros n Si r r' H. unfold chi2. rewrite <- quad_dot. unfold chi_square, quad. apply sumn_ext. intros i I.
  apply sumn_ext. intros j J. rewrite !H by auto. reflexivity.
Qed.
Lemma resid_link : forall m L y q i, residual m L y q i = resid m L y q i.
Proof. intros. unfold residual, resid, mv. ring. Qed.
Lemma gram_link : forall n Si L a b, normal_matrix n Si L a b = gram n Si L a b.
Proof. intros. unfold normal_matrix, gram. apply sumn_ext. intros i I. rewrite <- sumn_scal. apply sumn_ext. intros. ring. Qed.
Lemma marginal_link : forall n m SS Si L y q p, spd n Si ->
  (forall v, (forall i, (i < n)%nat -> mv m L v i = 0) -> forall j, (j < m)%nat -> v j = 0) ->
  normal n m Si L y q ->
  p = - (1 / 2) * chi2 n Si (resid m L y q) - 1 / 2 * ln (detn n SS) - 1 / 2 * ln (detn m (gram n Si L)) ->
  marginal_loglike n m SS Si L y p.
Proof.
  intros n m SS Si L y q p PD INJ NQ E. exists q. split.
  - intros q'. rewrite (chi_link n Si _ (resid m L y q)) by (intros; apply resid_link).
    rewrite (chi_link n Si _ (resid m L y q')) by (intros; apply resid_link).
    apply (normal_min n m Si L y PD INJ q q' NQ).
  - rewrite E. rewrite (chi_link n Si _ (resid m L y q)) by (intros; apply resid_link).
    rewrite (detn_ext (n := m) (f := normal_matrix n Si L) (g := gram n Si L)); [reflexivity|]. intros. apply gram_link.
Qed.

(** A design matrix has the entries the program writes. *)
Lemma design_entry : forall nq nc size ts L, trend_design nq nc size ts L ->
  forall c k m, (c < nc)%nat -> (k < size c)%nat -> (m < nq * nc)%nat -> L (total size c + k)%nat m = entry nq c (ts c k) m.
Proof.
  intros nq nc size ts L H c k m C K M.
  pose (v := fun j => if Nat.eqb j m then 1 else 0).
  pose proof (H c k v C K) as E.
  rewrite (sumn_single (nq * nc) m) in E; auto.
  2: { intros i I NE. unfold v. destruct (Nat.eqb_spec i m); [lia|ring]. }
  unfold v at 1 in E. rewrite Nat.eqb_refl, Rmult_1_r in E. rewrite E. unfold trend_at.
  rewrite <- (sumn_window c nq (nq * nc)) by nia.
  rewrite (sumn_single (nq * nc) m); auto.
  - unfold v. rewrite Nat.eqb_refl. ring.
  - intros i I NE. unfold v. destruct (Nat.eqb_spec i m); [lia|ring].
Qed.
Lemma entry_design : forall nq nc size ts L,
  (forall c k m, (c < nc)%nat -> (k < size c)%nat -> (m < nq * nc)%nat -> L (total size c + k)%nat m = entry nq c (ts c k) m) ->
  trend_design nq nc size ts L.
Proof.
  intros nq nc size ts L H c k v C K. unfold trend_at. rewrite <- (sumn_window c nq (nq * nc)) by nia.
  apply sumn_ext. intros m M. rewrite H by auto. reflexivity.
Qed.

Lemma line_start_total : forall ncon lnn nl, line_start ncon lnn nl = total (narr_of ncon lnn) (S nl).
Proof.
  intros. unfold line_start.
  assert (H : forall n, fold_left Nat.add (map lnn (seq 0 n)) 0%nat = (total (narr_of ncon lnn) (S n) - ncon)%nat /\ (ncon <= total (narr_of ncon lnn) (S n))%nat).
  { induction n. { simpl. lia. } destruct IHn as [E LE].
    rewrite seq_S, map_app, fold_left_app, E. cbn [map fold_left Nat.add]. change (total (narr_of ncon lnn) (S (S n))) with (total (narr_of ncon lnn) (S n) + lnn n)%nat. lia. }
  destruct (H nl). lia.
Qed.

(** ** The theorems *)

(** The matrix the program fills is the matrix of all trends. *)
Theorem C30_trend_matrix : forall nq nl ncon tc lnn tl L0, (1 <= nq)%nat ->
  trend_design nq (1 + nl) (narr_of ncon lnn) (times_of tc tl)
    (fun i j => trend_matrix nq nl ncon tc lnn tl L0 (i * (nq * (1 + nl)) + j)%nat).
Proof.
  intros nq nl ncon tc lnn tl L0 NQ. apply entry_design. intros c k m C K M. rewrite total_psum.
  apply trend_matrix_ok; auto. lia.
Qed.
Print Assumptions C30_trend_matrix.

(** sigma, tau and the systematic error as the program gets them from the
    parameters; S is the unscaled covariance of all points, PCmat (at address A)
    holds S / sigma^2. *)
Section Line.
  Context {IP : Type}.
  Variable dsytrf : nat -> (nat -> nat -> R) -> (nat -> nat -> R) * IP.
  Variable dsytri : nat -> (nat -> nat -> R) -> IP -> nat -> nat -> R.
  Variable dsytri_fails : nat -> (nat -> nat -> R) -> IP -> bool.
  Variables dtrtri dlauum : nat -> arr -> arr.

  Definition lapack_ok : Prop :=
    dsytr_spec dsytrf dsytri /\ dsytri_code dsytrf dsytri_fails /\ dtrtri_spec dtrtri /\ dlauum_spec dlauum.

  Lemma C30_line_main : forall nq nl ncon tc fe error_mean lnn tl fall p0 p1 p2 mem A wk L0 W0 D0 phi0 SS Si L,
    let sigma := exp p1 * sqrt (exp p2) in
    let syserr := (exp p0 - 1) * error_mean in
    let size := narr_of ncon lnn in
    let n := total size (1 + nl) in
    lapack_ok -> (1 <= nq)%nat -> (1 <= nl)%nat -> (1 <= ncon)%nat ->
    proper_times ncon syserr tc fe ->
    (forall c, (c < 1 + nl)%nat -> enough_times nq (size c) (times_of tc tl c)) ->
    symmetric n SS -> positive_definite n SS -> is_inverse n SS Si ->
    (forall i j, (i < ncon)%nat -> (j < ncon)%nat -> SS i j = covariance (sigma * sigma) (exp p2) syserr tc fe i j) ->
    stored mem A n (fun i j => SS i j / (sigma * sigma)) -> apart A (n * n) wk (2 * (n * n)) ->
    trend_design nq (1 + nl) size (times_of tc tl) L ->
    exists p, prob_line_set dsytrf dsytri dsytri_fails dtrtri dlauum nq nl ncon tc fe error_mean lnn tl fall p0 p1 p2 mem A wk L0 W0 D0 phi0 = Some p /\
      marginal_loglike n (nq * (1 + nl)) SS Si L fall p.
  Proof.
    intros nq nl ncon tc fe error_mean lnn tl fall p0 p1 p2 mem A wk L0 W0 D0 phi0 SS Si L sigma syserr size n
      (LP & LC & LT & LL) NQ NL NC PT ET SY PD IV CC ST AP TD.
    assert (TP : 0 < exp p2) by apply exp_pos.
    assert (SG : 0 < sigma) by (apply Rmult_lt_0_compat; [apply exp_pos|apply sqrt_lt_R0; auto]).
    assert (S2 : 0 < sigma * sigma) by nra.
    unfold prob_line_set. fold sigma. rewrite line_start_total. fold size. change (S nl) with (1 + nl)%nat. fold n.
    set (C := fun i j => / (sigma * sigma) * SS i j).
    assert (SPD : spd n SS) by (apply spd_of; auto).
    assert (SPC : spd n C) by (apply spd_scal; auto; apply Rinv_0_lt_compat; auto).
    assert (HI : inv_of n SS Si) by (intros i j I J; destruct (IV i j I J); auto).
    assert (PT' : proper_times ncon ((exp p0 - 1) * error_mean / sigma) tc (fun i => fe i / sigma)).
    { intros i I. destruct (PT i I) as [|[E H]]; [left; auto|right; split; auto].
      fold syserr. unfold Rdiv. pose proof (Rinv_neq_0_compat sigma). destruct H as [H|H]; [left|right]; apply Rmult_integral_contrapositive; split; auto; apply H0; lra. }
    pose proof (C29_semiseparable_iter IP dsytrf dsytri dtrtri dlauum mem A wk n size nl C 1 (exp p2)
       ((exp p0 - 1) * error_mean / sigma) tc (fun i => fe i / sigma) W0 D0 phi0 LP LT LL NC ltac:(lra) TP PT' NL eq_refl AP) as G.
    match type of G with ?h1 -> ?h2 -> ?h3 -> ?h4 -> ?w => assert (G' : w) end.
    { apply G.
      - exact (proj1 SPC).
      - intros k K. assert (LE : (total size k <= n)%nat).
        { unfold n. rewrite !total_psum. apply psum_le. lia. }
        replace n with (total size k + (n - total size k))%nat in SPC by lia.
        apply (C29_positive_definite_leading (total size k) (n - total size k) C); [exact (proj1 SPC)|].
        intros x X. exact (proj2 SPC x X).
      - intros i j I J. unfold C. rewrite CC by auto. unfold covariance. fold syserr. destruct (Nat.eqb i j); field; lra.
      - intros i j I J. rewrite ST by auto. unfold C. field. lra. }
    change (fun k : nat => match k with 0%nat => ncon | S q => lnn q end) with size.
    destruct (inverse_semiseparable_iter dsytrf dsytri dtrtri dlauum tc 1 (1 / exp p2) (fun i => fe i / sigma)
       ((exp p0 - 1) * error_mean / sigma) W0 D0 phi0 mem A n size nl wk) as [mem' ld].
    destruct G' as [GI GL]. specialize (GL (proj2 SPC)).
    assert (INJ : forall v, (forall i, (i < n)%nat -> mv (nq * (1 + nl)) L v i = 0) -> forall j, (j < nq * (1 + nl))%nat -> v j = 0).
    { intros v. unfold n. rewrite total_psum. apply (design_inj nq (1 + nl) size (times_of tc tl)); [|exact ET].
      intros c k m. rewrite <- total_psum. apply design_entry; auto. }
    assert (GI' : inv_of n C (fun i j => mem' (A + i * n + j)%nat)) by (intros i j I J; destruct (GI i j I J); auto).
    pose proof (inv_scal n (/ (sigma * sigma)) SS Si (Rinv_neq_0_compat _ (Rgt_not_eq _ _ S2)) HI) as HC.
    destruct (line_prob_end_ok dsytrf dsytri dsytri_fails LP LC n (nq * (1 + nl)) (fun x => mem' (A + x)%nat)
      (trend_matrix nq nl ncon tc lnn tl L0) fall ld sigma Si L SS SG SPD HI) as (q & NM & EQ); auto.
    - intros i j I J. replace (A + (i * n + j))%nat with (A + i * n + j)%nat by lia.
      rewrite (inv_unique GI' HC I J). field. lra.
    - intros i j I J. destruct (curve_at size (1 + nl) i) as (c & k & Hc & Hk & E); [unfold n in I; rewrite total_psum in I; auto|].
      rewrite E. unfold size. rewrite trend_matrix_ok by (auto; lia). fold size. rewrite <- total_psum.
      symmetry. apply (design_entry nq (1 + nl) size (times_of tc tl) L TD); auto.
    - eexists. split; [exact EQ|]. apply (marginal_link n (nq * (1 + nl)) SS Si L fall q); auto.
      exact (spd_inv _ _ _ SPD HI).
  Qed.
End Line.

Theorem C30_likelihood : forall IP (dsytrf : nat -> (nat -> nat -> R) -> (nat -> nat -> R) * IP) dsytri dsytri_fails dtrtri dlauum
    nq nl ncon tc fe error_mean lnn tl fall p0 p1 p2 mem A wk L0 W0 D0 phi0 S Si L,
  let sigma := exp p1 * sqrt (exp p2) in
  let syserr := (exp p0 - 1) * error_mean in
  let size := narr_of ncon lnn in
  let n := total size (1 + nl) in
  lapack_ok dsytrf dsytri dsytri_fails dtrtri dlauum -> (1 <= nq)%nat -> (1 <= nl)%nat -> (1 <= ncon)%nat ->
  proper_times ncon syserr tc fe ->
  (forall c, (c < 1 + nl)%nat -> enough_times nq (size c) (times_of tc tl c)) ->
  symmetric n S -> positive_definite n S -> is_inverse n S Si ->
  (forall i j, (i < ncon)%nat -> (j < ncon)%nat -> S i j = covariance (sigma * sigma) (exp p2) syserr tc fe i j) ->
  stored mem A n (fun i j => S i j / (sigma * sigma)) -> apart A (n * n) wk (2 * (n * n)) ->
  trend_design nq (1 + nl) size (times_of tc tl) L ->
  exists p, prob_line_set dsytrf dsytri dsytri_fails dtrtri dlauum nq nl ncon tc fe error_mean lnn tl fall p0 p1 p2 mem A wk L0 W0 D0 phi0 = Some p /\
    marginal_loglike n (nq * (1 + nl)) S Si L fall p.
Proof. intros IP. exact C30_line_main. Qed.
Print Assumptions C30_likelihood.

Lemma marginal_shift : forall n m SS Si L y y' v p p',
  (forall i, (i < n)%nat -> y' i = y i + sumn m (fun j => L i j * v j)) ->
  marginal_loglike n m SS Si L y p -> marginal_loglike n m SS Si L y' p' -> p = p'.
Proof.
  intros n m SS Si L y y' v p p' H (q & Q1 & ->) (q' & Q1' & ->).
  assert (E : chi_square n Si (residual m L y q) = chi_square n Si (residual m L y' q')); [|rewrite E; reflexivity].
  assert (A1 : forall a, chi_square n Si (residual m L y a) = chi_square n Si (residual m L y' (fun j => a j + v j))).
  { intros a. rewrite (chi_link n Si (residual m L y a) (residual m L y a)) by auto.
    symmetry. apply chi_link. intros i I. unfold residual. rewrite H by auto.
    rewrite (sumn_ext m (fun j => L i j * (a j + v j)) (fun j => L i j * a j + L i j * v j)) by (intros; ring).
    rewrite sumn_plus. ring. }
  apply Rle_antisym.
  - apply Rle_trans with (chi_square n Si (residual m L y (fun j => q' j - v j))); [apply Q1|].
    rewrite A1. right. rewrite (chi_link n Si _ (residual m L y' q')); [symmetry; apply chi_link; auto|].
    intros i I. unfold residual. f_equal. apply sumn_ext. intros. ring.
  - rewrite (A1 q). apply Q1'.
Qed.

(** The value does not change if any trend is added to the data. *)
Theorem C30_trend_invariant : forall IP (dsytrf : nat -> (nat -> nat -> R) -> (nat -> nat -> R) * IP) dsytri dsytri_fails dtrtri dlauum
    nq nl ncon tc fe error_mean lnn tl fall fall' v p0 p1 p2 mem A wk L0 W0 D0 phi0 S,
  let sigma := exp p1 * sqrt (exp p2) in
  let syserr := (exp p0 - 1) * error_mean in
  let size := narr_of ncon lnn in
  let n := total size (1 + nl) in
  lapack_ok dsytrf dsytri dsytri_fails dtrtri dlauum -> (1 <= nq)%nat -> (1 <= nl)%nat -> (1 <= ncon)%nat ->
  proper_times ncon syserr tc fe ->
  (forall c, (c < 1 + nl)%nat -> enough_times nq (size c) (times_of tc tl c)) ->
  symmetric n S -> positive_definite n S ->
  (forall i j, (i < ncon)%nat -> (j < ncon)%nat -> S i j = covariance (sigma * sigma) (exp p2) syserr tc fe i j) ->
  stored mem A n (fun i j => S i j / (sigma * sigma)) -> apart A (n * n) wk (2 * (n * n)) ->
  (forall c k, (c < 1 + nl)%nat -> (k < size c)%nat ->
     fall' (total size c + k)%nat = fall (total size c + k)%nat + trend_at nq v c (times_of tc tl c k)) ->
  prob_line_set dsytrf dsytri dsytri_fails dtrtri dlauum nq nl ncon tc fe error_mean lnn tl fall' p0 p1 p2 mem A wk L0 W0 D0 phi0 =
  prob_line_set dsytrf dsytri dsytri_fails dtrtri dlauum nq nl ncon tc fe error_mean lnn tl fall p0 p1 p2 mem A wk L0 W0 D0 phi0.
Proof.
  intros IP trf tri fl tr la nq nl ncon tc fe em lnn tl fall fall' v p0 p1 p2 mem A wk L0 W0 D0 phi0 SS sigma syserr size n
    LP NQ NL NC PT ET SY PD CC ST AP HF.
  destruct (proj1 (det_inv n SS)) as [Si HI]; [pose proof (spd_det n SS (spd_of _ _ SY PD)); lra|].
  pose proof (C30_trend_matrix nq nl ncon tc lnn tl L0 NQ) as TD.
  set (L := fun i j => trend_matrix nq nl ncon tc lnn tl L0 (i * (nq * (1 + nl)) + j)%nat) in TD.
  destruct (C30_line_main trf tri fl tr la nq nl ncon tc fe em lnn tl fall p0 p1 p2 mem A wk L0 W0 D0 phi0 SS Si L
    LP NQ NL NC PT ET SY PD (inverse_both _ _ _ HI) CC ST AP TD) as (p & -> & M1).
  destruct (C30_line_main trf tri fl tr la nq nl ncon tc fe em lnn tl fall' p0 p1 p2 mem A wk L0 W0 D0 phi0 SS Si L
    LP NQ NL NC PT ET SY PD (inverse_both _ _ _ HI) CC ST AP TD) as (p' & -> & M2).
  f_equal. symmetry. eapply (marginal_shift _ _ _ _ _ fall fall' v); [|exact M1|exact M2].
  intros i I. destruct (curve_at size (1 + nl) i) as (c & k & Hc & Hk & E); [unfold size; rewrite <- total_psum; auto|].
  rewrite <- total_psum in E. rewrite E. rewrite HF by auto. f_equal. symmetry. apply TD; auto.
Qed.
Print Assumptions C30_trend_invariant.

(** ** The continuum alone *)

Lemma con_trend_ok : forall nq ncon tc L0, (1 <= nq)%nat -> forall i j, (i < ncon)%nat -> (j < nq)%nat ->
  con_trend nq ncon tc L0 (i * nq + j)%nat = tc i ^ j.
Proof.
  intros nq ncon tc L0 NQ i j I J. unfold con_trend.
  destruct (for_rows ncon nq 0 (fun i L => for_ 1 (nq - 1) (fun j L => upd L (i * nq + j) (tc i ^ j)) (upd L (i * nq + 0) 1)) (fun i j => tc i ^ j) L0) as [R1 _].
  - intros i0 b I0. cbn [Nat.add].
    destruct (for_fill 1 (nq - 1) (fun j => (i0 * nq + j)%nat) (fun j => tc i0 ^ j) (upd b (i0 * nq + 0) 1)) as [F1 F2]; [intros; lia|].
    cbv beta in *. split.
    + intros j0 J0. destruct (Nat.eq_dec j0 0) as [->|]; [rewrite F2 by (intros; lia); apply upd_same|apply F1; lia].
    + intros x X. rewrite F2 by (intros; lia). apply upd_other. lia.
  - exact (R1 i j I J).
Qed.

Theorem C30_continuum : forall IP (dsytrf : nat -> (nat -> nat -> R) -> (nat -> nat -> R) * IP) dsytri
    nq n t f fe error_mean p0 p1 p2 L0 W0 D0 phi0 Z0 Si,
  let sigma := exp p1 * sqrt (exp p2) in
  let syserr := (exp p0 - 1) * error_mean in
  let S := covariance (sigma * sigma) (exp p2) syserr t fe in
  dsytr_spec dsytrf dsytri -> (1 <= nq)%nat -> (1 <= n)%nat -> proper_times n syserr t fe -> enough_times nq n t ->
  is_inverse n S Si ->
  marginal_loglike n nq S Si (fun i j => t i ^ j) f
    (prob_con_set dsytrf dsytri nq n t f fe error_mean p0 p1 p2 L0 W0 D0 phi0 Z0).
Proof.
  intros IP trf tri nq n t f fe em p0 p1 p2 L0 W0 D0 phi0 Z0 Si sigma syserr SS LP NQ N PT ET IV.
  assert (TP : 0 < exp p2) by apply exp_pos.
  assert (SG : 0 < sigma) by (apply Rmult_lt_0_compat; [apply exp_pos|apply sqrt_lt_R0; auto]).
  assert (S2 : 0 < sigma * sigma) by nra.
  set (L := fun i j => t i ^ j).
  assert (SPD : spd n SS).
  { split.
    - intros i j I J. unfold SS, covariance. rewrite Rabs_minus_sym. destruct (Nat.eqb_spec i j) as [->|NE]; [rewrite Nat.eqb_refl; reflexivity|].
      destruct (Nat.eqb_spec j i); [congruence|reflexivity].
    - intros x X. apply C28_positive_definite; auto. }
  assert (HI : inv_of n SS Si) by (intros i j I J; destruct (IV i j I J); auto).
  pose proof (spd_inv _ _ _ SPD HI) as PDi.
  assert (HL : forall i j, (i < n)%nat -> (j < nq)%nat -> con_trend nq n t L0 (i * nq + j)%nat = L i j) by (intros; apply con_trend_ok; auto).
  assert (INJ : forall v, (forall i, (i < n)%nat -> mv nq L v i = 0) -> forall j, (j < nq)%nat -> v j = 0).
  { intros v Z j J. destruct ET as (pick & P1 & P2).
    refine (@poly_zero nq v (fun i => t (pick i)) P2 _ j J).
    intros i I. etransitivity; [|apply (Z (pick i)); auto]. apply sumn_ext. intros k K. unfold L. ring. }
  pose proof (gram_spd _ _ _ _ PDi INJ) as PG. set (G := gram n Si L) in *.
  assert (EG : exists Gi, inv_of nq G Gi). { apply det_inv. pose proof (spd_det _ _ PG). lra. }
  destruct EG as [Gi HGi].
  unfold prob_con_set. fold sigma. fold syserr.
  pose proof (C26_matrix n nq (sigma * sigma) (exp p2) syserr t fe (con_trend nq n t L0) Z0 W0 D0 phi0 N S2 TP PT) as CM.
  pose proof (fun y z0 => C26_vector n (sigma * sigma) (exp p2) syserr t fe y z0 W0 D0 phi0 N S2 TP PT) as CV.
  pose proof (drw_loop t fe (sigma * sigma) (1 / exp p2) syserr n W0 D0 phi0 N) as DL.
  destruct (compute_semiseparable_drw t n (sigma * sigma) (1 / exp p2) fe syserr W0 D0 phi0) as [[W D] phi].
  destruct CM as [CM _].
  set (ybuf := multiply_mat_semiseparable_drw (con_trend nq n t L0) W D phi n nq (sigma * sigma) Z0) in *.
  assert (SOL : forall z y, solution n SS z y -> forall i, (i < n)%nat -> z i = mv n Si y i).
  { intros z y H i I. rewrite <- (mv_id n Si SS z i (inv_swap _ _ _ HI) I). apply mv_ext; auto. }
  assert (EY : forall i j, (i < n)%nat -> (j < nq)%nat -> ybuf (i * nq + j)%nat = sumn n (fun l => Si i l * L l j)).
  { intros i j I J. rewrite (SOL (fun i => ybuf (i * nq + j)%nat) _ (CM j J) i I). unfold mv. apply sumn_ext. intros l Hl. rewrite HL by auto. reflexivity. }
  set (Cq := mul_tA (con_trend nq n t L0) ybuf nq nq n).
  assert (ECq : forall i j, (i < nq)%nat -> (j < nq)%nat -> Cq (0 + i * nq + j)%nat = G i j).
  { intros i j I J. cbn [Nat.add]. unfold Cq, mul_tA. rewrite tab_val by auto. unfold G, gram. apply sumn_ext.
    intros l Hl. rewrite EY, HL by auto. reflexivity. }
  set (yq := matvec_tA ybuf n nq f).
  pose proof (inverse_symat_lndet_ok trf tri LP Cq 0 nq G Gi (fun i j IJ => ECq i j ltac:(lia) ltac:(lia)) (proj1 PG) HGi) as LS.
  destruct (inverse_symat_lndet trf tri Cq 0 nq) as [Cq' ldq]. destruct LS as (H1 & _ & H2). specialize (H2 PG).
  set (qa := mul_MN Cq' yq nq 1 nq).
  assert (Q : forall j, (j < nq)%nat -> qa j = mv nq Gi (mv n (tr L) (mv n Si f)) j).
  { intros j J. unfold qa, mul_MN. replace j with (j * 1 + 0)%nat at 1 by lia. rewrite tab_val by lia.
    unfold mv at 1. apply sumn_ext. intros l Hl. change (j * nq + l)%nat with (0 + j * nq + l)%nat. rewrite H1 by auto.
    replace (l * 1 + 0)%nat with l by lia. f_equal. unfold yq, matvec_tA. rewrite mv_mv. unfold mv, tr.
    apply sumn_ext. intros k K. rewrite EY by auto. f_equal. apply sumn_ext. intros b B. rewrite (proj1 PDi b k B K). ring. }
  assert (NM : normal n nq Si L f qa) by (exact (normal_gram n nq Si L f Gi qa HGi Q)).
  set (y := matvec_ab (con_trend nq n t L0) n nq qa f (-1) 1).
  assert (Y : forall i, (i < n)%nat -> y i = resid nq L f qa i).
  { intros i I. unfold y, matvec_ab, resid, mv. rewrite (sumn_ext nq _ (fun j => L i j * qa j)); [ring|].
    intros j J. rewrite HL by auto. reflexivity. }
  apply (marginal_link n nq SS Si L f qa); auto.
  rewrite (lnsum n D).
  assert (LD : sumn n (fun i => ln (D i)) = ln (detn n SS)).
  { destruct (lndet_ok t fe (sigma * sigma) (1 / exp p2) syserr n N S2 (pt_sorted n syserr t fe PT) (c1_pos' (exp p2) TP) (pt_noisy n syserr t fe PT)) as [L1 L2].
    rewrite (detn_ext (n := n) (f := SS) (g := SemisepProofs.Cq t fe (sigma * sigma) (1 / exp p2) syserr)) by (intros; apply cov_Cq).
    rewrite <- L2. apply sumn_ext. intros i I. destruct (DL i I) as (_ & -> & _). reflexivity. }
  rewrite LD, H2. fold G.
  assert (EC : ddot n y (multiply_matvec_semiseparable_drw y W D phi n (sigma * sigma) ybuf) = chi2 n Si (resid nq L f qa)).
  { unfold ddot, chi2, dot. apply sumn_ext. intros i I. rewrite (SOL _ _ (CV y ybuf) i I). rewrite Y by auto. f_equal.
    apply mv_ext; auto. }
  rewrite EC. ring.
Qed.
Print Assumptions C30_continuum.

(** The value of the whole data is the sum over the data sets, unless a set
    returns early. *)
Theorem C30_sum_of_sets : forall l p, prob_sets (map Some l) p = Some (fold_right Rplus p l) /\
  forall l1 l2, prob_sets (map Some l1 ++ None :: l2) p = None.
Proof.
  intros l p. split.
  - revert p. induction l; intros p; simpl; [reflexivity|]. rewrite IHl. f_equal.
    clear IHl. revert a p. induction l; intros x p; simpl; [ring|]. rewrite IHl. ring.
  - intros l1 l2. revert p. induction l1; intros p; simpl; auto.
Qed.
Print Assumptions C30_sum_of_sets.

(** ** A case meeting the hypotheses *)
Example lapack_exists : lapack_ok ref_dsytrf ref_dsytri (fun _ _ _ => false) ref_dtrtri ref_dlauum.
Proof. split; [exact C29_contract_met|]. split; [intros n U A V _ _ _; reflexivity|]. split; [exact dtrtri_exists|exact dlauum_exists]. Qed.

(** Linear trends (nq = 2), three continuum and three line points, correlated. *)
Definition exS := covariance 1 1 0 (fun i => INR i) (fun _ => 0).
Lemma exS_ok : forall n, symmetric n exS /\ positive_definite n exS.
Proof.
  intros n. assert (P : proper_times n 0 (fun i => INR i) (fun _ => 0)) by (intros i _; left; rewrite S_INR; lra).
  split.
  - intros i j _ _. unfold exS, covariance. rewrite Rabs_minus_sym. destruct (Nat.eqb_spec i j) as [->|NE]; [rewrite Nat.eqb_refl; reflexivity|].
    destruct (Nat.eqb_spec j i); [congruence|reflexivity].
  - intros x X. apply C28_positive_definite; auto; lra.
Qed.
Example C30_example : exists Si p,
  is_inverse 6 exS Si /\
  prob_line_set ref_dsytrf ref_dsytri (fun _ _ _ => false) ref_dtrtri ref_dlauum 2 1 3 (fun i => INR i) (fun _ => 0) 1 (fun _ => 3%nat)
    (fun _ k => INR (3 + k)) (fun i => INR (i * i)) 0 0 0 (store (fun _ => 0) 0 6 6 exS) 0 36 (fun _ => 0) (fun _ => 0) (fun _ => 0) (fun _ => 0) = Some p /\
  marginal_loglike 6 4 exS Si
    (fun i j => trend_matrix 2 1 3 (fun i => INR i) (fun _ => 3%nat) (fun _ k => INR (3 + k)) (fun _ => 0) (i * 4 + j)%nat) (fun i => INR (i * i)) p.
Proof.
  destruct (exS_ok 6) as [SY PD].
  destruct (proj1 (det_inv 6 exS)) as [Si HI]; [pose proof (spd_det 6 exS (spd_of _ _ SY PD)); lra|].
  exists Si.
  assert (SG : exp 0 * sqrt (exp 0) = 1) by (rewrite exp_0, sqrt_1; ring).
  destruct (C30_likelihood _ ref_dsytrf ref_dsytri (fun _ _ _ => false) ref_dtrtri ref_dlauum 2 1 3 (fun i => INR i) (fun _ => 0) 1 (fun _ => 3%nat)
    (fun _ k => INR (3 + k)) (fun i => INR (i * i)) 0 0 0 (store (fun _ => 0) 0 6 6 exS) 0 36 (fun _ => 0) (fun _ => 0) (fun _ => 0) (fun _ => 0) exS Si
    (fun i j => trend_matrix 2 1 3 (fun i => INR i) (fun _ => 3%nat) (fun _ k => INR (3 + k)) (fun _ => 0) (i * 4 + j)%nat)) as (p & P1 & P2); auto; try lia.
  - exact lapack_exists.
  - intros i _. left. rewrite S_INR. lra.
  - intros c C. exists (fun i => i). assert (c = 0 \/ c = 1)%nat as [-> | ->] by lia; split; simpl narr_of; try (intros; lia); intros i j I J E; cbn [times_of] in E; apply INR_eq in E; lia.
  - exact (inverse_both _ _ _ HI).
  - intros i j I J. rewrite SG, exp_0. unfold exS. f_equal; ring.
  - intros i j I J. rewrite SG. change (total (narr_of 3 (fun _ => 3%nat)) (1 + 1)) with 6%nat in *. rewrite (store_in (fun _ => 0) 0 6 6 exS) by auto. field.
  - left. simpl. lia.
  - exact (C30_trend_matrix 2 1 3 (fun i => INR i) (fun _ => 3%nat) (fun _ k => INR (3 + k)) (fun _ => 0) ltac:(lia)).
  - exists p. split; [exact (inverse_both _ _ _ HI)|]. split; [exact P1|exact P2].
Qed.
