(** C68 (matrices of the program), C69, C70: from the parameters and the data to the
    likelihood and to the reconstructed light curves, with nothing assumed about the
    matrices in between.  Real arithmetic, no rounding. *)
From Coq Require Import Reals List Arith Lia Lra Psatz.
From Coquelicot Require Import Coquelicot.
From Verif Require Import SemisepModel SemisepProofs SemisepProofs2 MatBridge MatBridge2 SemisepProofs3 PartProofs PartProofs2 KernelCalc KernelSpec KernelModel KernelGauss2 PartModel
  CovModel LikeModel PredModel PropPart PropSemisep GlsAlgebra LikeProofs PropLike PropPred.
From Verif Require Import PropCov MixSpec PropKernel MixModel PropMix PsdCore PsdKernel PropPsd EndModel.
From Verif Require EndProofs MixCode KernelGauss2.
Import ListNotations.
Open Scope R_scope.

(** ** What the statements are about *)
(** the squared error of point i of curve c: measured error and systematic error, the
    latter (exp of the curve's first parameter - 1) times the mean error *)
Definition total_error2 (fe_con : arr) (error_mean_con : R) (fe_line : nat -> arr) (error_mean_line : nat -> R) (pm : arr) (idx_con : nat) (idx_line : nat -> nat) (c i : nat) : R :=
  match c with
  | O => fe_con i ^ 2 + ((exp (pm idx_con) - 1) * error_mean_con) ^ 2
  | S j => fe_line j i ^ 2 + ((exp (pm (idx_line j)) - 1) * error_mean_line j) ^ 2
  end.
(** curve 0 is the continuum, curve j+1 the line with response psi j *)
Definition curve_of (psi : nat -> R -> R) (c : nat) : option (R -> R) := match c with O => None | S j => Some (psi j) end.

Section DataSet.
(** A data set with at least one line.  The continuum times are in order (they may
    repeat); the times of the lines need not be.  No total error is zero.  Every curve
    has at least as many different times as trend coefficients. *)
Variable ncon : nat.
Variables tcon fe_con : arr.
Variable error_mean_con : R.
Variable nl : nat.
Variable nline : nat -> nat.
Variables tline fe_line : nat -> arr.
Variable error_mean_line : nat -> R.
Variable fall : arr.
Variable nq : nat.
Variable pm : arr.
Variable icp : nat -> nat.
Variable ilp : nat -> nat -> nat.
Variable nds : nat.
Notation idx_con := (icp nds).
Notation idx_line := (ilp nds).
Notation taud := (exp (pm (idx_con + 2)%nat)).
Notation sigma := (exp (pm (idx_con + 1)%nat) * sqrt taud).
Notation sizes := (ncon :: map nline (seq 0 nl)).
Notation n := (list_sum sizes).
Notation m := (nq * (1 + nl))%nat.
Notation data_time := (time tcon tline).
Notation error2 := (total_error2 fe_con error_mean_con fe_line error_mean_line pm idx_con idx_line).
Notation curves := (narr_of ncon nline).
Definition data_ok : Prop :=
  (1 <= nq)%nat /\ (1 <= nl)%nat /\ (1 <= ncon)%nat
  /\ (forall i, (S i < ncon)%nat -> tcon i <= tcon (S i))
  /\ (forall c i, (c < 1 + nl)%nat -> (i < curves c)%nat -> 0 < error2 c i)
  /\ (forall c, (c < 1 + nl)%nat -> enough_times nq (curves c) (times_of tcon tline c)).
Lemma errors_at : data_ok -> forall c i, (c < length sizes)%nat -> (i < nth c sizes 0)%nat -> 0 < error2 c i.
Proof.
  intros (_ & _ & _ & _ & E & _) c i C I. rewrite EndProofs.len_sizes in C. apply E; [lia|]. rewrite EndProofs.sizes_seq in I.
  rewrite nth_indep with (d' := curves 0%nat) in I by (rewrite map_length, seq_length; lia). rewrite map_nth, seq_nth in I by lia. exact I.
Qed.

(** the covariance matrix of the data, its inverse and the trends *)
Definition described_by (psi : nat -> R -> R) (SS Si L : nat -> nat -> R) : Prop :=
  data_covariance psi taud sigma sizes data_time error2 SS /\ is_inverse n SS Si
  /\ trend_design nq (1 + nl) curves (times_of tcon tline) L.

(** what the routines find in memory *)
Variables Smat_lc Smat_ll PS mem : arr.
Variables A wk : nat.
Variables L0 W0 D0 phi0 : arr.
Variable nall : nat -> nat.
Variables tall US AS Lr0 f0 PE0 : arr.
Context {IP : Type}.
Variable dsytrf : nat -> (nat -> nat -> R) -> (nat -> nat -> R) * IP.
Variable dsytri : nat -> (nat -> nat -> R) -> IP -> nat -> nat -> R.
Variable dsytri_fails : nat -> (nat -> nat -> R) -> IP -> bool.
Variables dtrtri dlauum : nat -> arr -> arr.
(** the program with the routines K *)
Notation filled_scalar K := (scalar_matrix ncon tcon fe_con error_mean_con nl nline tline fe_line error_mean_line K pm idx_con idx_line PS mem A).
Notation filled_array K := (array_matrix ncon tcon fe_con error_mean_con nl nline tline fe_line error_mean_line K pm idx_con idx_line Smat_lc Smat_ll PS mem A).
Notation likelihood K := (prob_set dsytrf dsytri dsytri_fails dtrtri dlauum ncon tcon fe_con error_mean_con nl nline tline fe_line error_mean_line fall nq K pm idx_con idx_line
  Smat_lc Smat_ll PS mem A wk L0 W0 D0 phi0).
Notation reconstruction K := (rec_set dsytrf dsytri dtrtri dlauum ncon tcon fe_con error_mean_con nl nline tline fe_line error_mean_line fall nq K pm idx_con idx_line
  PS mem A wk L0 W0 D0 phi0 nall tall US AS Lr0 f0 PE0).
Notation reconstruction_mmap K := (rec_set_mmap dsytrf dsytri dtrtri dlauum ncon tcon fe_con error_mean_con nl nline tline fe_line error_mean_line fall nq K pm idx_con idx_line
  Smat_lc Smat_ll PS mem A wk L0 W0 D0 phi0 nall tall US AS Lr0 f0 PE0).
(** every reconstructed point is the best linear unbiased prediction of its curve, with
    its standard error, the trend coefficients are those of least squares *)
Definition best_curves (psi : nat -> R -> R) (SS Si L : nat -> nat -> R) (out : rec_out) : Prop :=
  least_squares n m Si L fall (rec_yq out) /\
  forall c k, (c < 1 + nl)%nat -> (k < nall c)%nat ->
    let t := tall (total nall c + k)%nat in
    exists u V, target_covariance (curve_of psi c) psi taud sigma sizes data_time t u /\ target_variance (curve_of psi c) taud sigma t V /\
      best_prediction n m SS L u V (fun v => trend_at nq v c t) fall (rec_f out (total nall c + k)%nat) (rec_fe out (total nall c + k)%nat).
(** a matrix stored by rows, times sigma^2 *)
Definition unscaled (M : arr) (a b : nat) : R := sigma * sigma * M (a * n + b)%nat.

(** ** Transfer functions of one shape *)
Section Plain.
Variable log_erfc : R -> R.
Variable type_tf : nat.
Variable flag : bool.
Variable ncomp : nat.
Notation K := (pointers log_erfc type_tf flag icp ilp ncomp pm nds).
Notation psi := (fun j => response (PropCov.shape_of type_tf) ncomp (KernelSpec.stored (decode flag) pm (idx_line j))).
(** parameters at which the closed forms are exact (C31-C34) *)
Hypothesis G : good log_erfc type_tf flag taud ncomp nl pm idx_line.

Lemma plain_shaped j : (j < nl)%nat -> of_shapes (psi j).
Proof. intros _. apply EndProofs.plain_shapes. Qed.

Theorem C68_program_matrix : data_ok ->
  data_covariance psi taud sigma sizes data_time error2 (unscaled (filled_scalar K)) /\ positive_definite n (fun a b => filled_scalar K (a * n + b)%nat) /\
  data_covariance psi taud sigma sizes data_time error2 (unscaled (filled_array K)) /\ positive_definite n (fun a b => filled_array K (a * n + b)%nat).
Proof.
  intros OK. pose proof (EndProofs.plain_exact log_erfc type_tf flag icp ilp ncomp pm nds nl G) as EK.
  assert (P : forall M, data_covariance psi taud sigma sizes data_time error2 (unscaled M) -> positive_definite n (fun a b => M (a * n + b)%nat)).
  { intros M D. destruct (EndProofs.pd ncon tcon fe_con error_mean_con nl nline tline fe_line error_mean_line pm idx_con idx_line psi plain_shaped (errors_at OK) _ D) as [_ PD].
    intros x X. specialize (PD x X). unfold unscaled in PD.
    rewrite (sumn_ext n _ (fun i => sigma * sigma * sumn n (fun j => x i * M (i * n + j)%nat * x j))) in PD by (intros; rewrite <- sumn_scal; apply sumn_ext; intros; ring).
    rewrite sumn_scal in PD. pose proof (EndProofs.sig_pos pm idx_con) as SP. assert (0 < sigma * sigma) by (apply Rmult_lt_0_compat; exact SP).
    apply Rmult_lt_reg_l with (sigma * sigma); [assumption|]. rewrite Rmult_0_r. exact PD. }
  pose proof (EndProofs.filled_cov ncon tcon fe_con error_mean_con nl nline tline fe_line error_mean_line pm idx_con idx_line psi _
    (EndProofs.scalar_filled ncon tcon fe_con error_mean_con nl nline tline fe_line error_mean_line pm idx_con idx_line psi K EK PS mem A)) as D1.
  pose proof (EndProofs.filled_cov ncon tcon fe_con error_mean_con nl nline tline fe_line error_mean_line pm idx_con idx_line psi _
    (EndProofs.array_filled ncon tcon fe_con error_mean_con nl nline tline fe_line error_mean_line pm idx_con idx_line psi K EK Smat_lc Smat_ll PS mem A)) as D2.
  split; [exact D1|]. split; [exact (P _ D1)|]. split; [exact D2|exact (P _ D2)].
Qed.

(** ** C69 *)
Theorem C69_described : data_ok -> exists SS Si L, described_by psi SS Si L.
Proof.
  intros OK. destruct (C68_program_matrix OK) as (D & _).
  destruct (EndProofs.inverse_exists ncon tcon fe_con error_mean_con nl nline tline fe_line error_mean_line pm idx_con idx_line psi plain_shaped (errors_at OK) _ D) as [Si IV].
  eexists. exists Si. eexists. split; [exact D|]. split; [exact IV|].
  exact (C30_trend_matrix nq nl ncon tcon nline tline L0 (proj1 OK)).
Qed.
(** The likelihood is the Gaussian likelihood of the data, trends integrated out; the
    early returns of -DBL_MAX are never taken. *)
Theorem C69_likelihood SS Si L : data_ok -> lapack_ok dsytrf dsytri dsytri_fails dtrtri dlauum -> apart A (n * n) wk (2 * (n * n)) ->
  described_by psi SS Si L ->
  exists p, likelihood K = Some p /\ marginal_loglike n m SS Si L fall p.
Proof.
  intros OK LP AP (D & IV & TD). pose proof OK as (NQ & NL & NC & ORD & _ & ET).
  apply (EndProofs.prob_generic ncon tcon fe_con error_mean_con nl nline tline fe_line error_mean_line pm idx_con idx_line psi K); auto.
  - exact (EndProofs.plain_exact log_erfc type_tf flag icp ilp ncomp pm nds nl G).
  - exact plain_shaped.
  - exact (errors_at OK).
Qed.

(** ** C70 *)
Theorem C70_light_curves SS Si L : data_ok -> dsytr_spec dsytrf dsytri -> dtrtri_spec dtrtri -> dlauum_spec dlauum -> apart A (n * n) wk (2 * (n * n)) ->
  described_by psi SS Si L -> best_curves psi SS Si L (reconstruction K).
Proof.
  intros OK LS LT LL AP (D & IV & TD). pose proof OK as (NQ & NL & NC & ORD & _ & ET).
  pose proof (EndProofs.plain_exact log_erfc type_tf flag icp ilp ncomp pm nds nl G) as EK.
  apply (EndProofs.rec_generic ncon tcon fe_con error_mean_con nl nline tline fe_line error_mean_line pm idx_con idx_line psi K EK plain_shaped (errors_at OK)); auto.
  apply EndProofs.scalar_filled. exact EK.
Qed.
End Plain.

(** ** Mixed transfer functions *)
Section Mixed.
Variables log_erfc erfc : R -> R.
Variable ncomp : nat.
Variable ty : nat -> nat.
Variables buf_lc buf_ll : arr.
Notation K := (mixed_kernels log_erfc erfc icp ilp ncomp ty pm nds buf_lc buf_ll).
Notation psi := (fun j => mixed_response ncomp ty (KernelSpec.stored exp pm (idx_line j))).
Hypothesis HL : log_erfc_correct log_erfc.
Hypothesis HE : erfc_correct erfc.
Hypothesis DG : digits ncomp ty.
(** parameters at which the closed forms are exact (C61, C62) *)
Hypothesis CS : forall j, (j < nl)%nat -> clear_scales' taud ncomp ty (KernelSpec.stored exp pm (idx_line j)).

Lemma mixed_shaped j : (j < nl)%nat -> of_shapes (psi j).
Proof. intros _. apply EndProofs.mixed_shapes, DG. Qed.
Lemma mixed_K : EndProofs.exact_kernels taud nl psi K.
Proof. apply EndProofs.mixed_exact; assumption. Qed.

Theorem C68_program_mixed_matrix : data_ok ->
  data_covariance psi taud sigma sizes data_time error2 (unscaled (filled_array K)) /\ positive_definite n (fun a b => filled_array K (a * n + b)%nat).
Proof.
  intros OK.
  pose proof (EndProofs.filled_cov ncon tcon fe_con error_mean_con nl nline tline fe_line error_mean_line pm idx_con idx_line psi _
    (EndProofs.array_filled ncon tcon fe_con error_mean_con nl nline tline fe_line error_mean_line pm idx_con idx_line psi K mixed_K Smat_lc Smat_ll PS mem A)) as D.
  split; [exact D|]. destruct (EndProofs.pd ncon tcon fe_con error_mean_con nl nline tline fe_line error_mean_line pm idx_con idx_line psi mixed_shaped (errors_at OK) _ D) as [_ PD].
  intros x X. specialize (PD x X). unfold EndProofs.cov_matrix in PD.
  rewrite (sumn_ext n _ (fun i => sigma * sigma * sumn n (fun j => x i * filled_array K (i * n + j)%nat * x j))) in PD by (intros; rewrite <- sumn_scal; apply sumn_ext; intros; ring).
  rewrite sumn_scal in PD. pose proof (EndProofs.sig_pos pm idx_con) as SP. assert (0 < sigma * sigma) by (apply Rmult_lt_0_compat; exact SP).
  apply Rmult_lt_reg_l with (sigma * sigma); [assumption|]. rewrite Rmult_0_r. exact PD.
Qed.
Theorem C69_mixed_described : data_ok -> exists SS Si L, described_by psi SS Si L.
Proof.
  intros OK. destruct (C68_program_mixed_matrix OK) as (D & _).
  destruct (EndProofs.inverse_exists ncon tcon fe_con error_mean_con nl nline tline fe_line error_mean_line pm idx_con idx_line psi mixed_shaped (errors_at OK) _ D) as [Si IV].
  eexists. exists Si. eexists. split; [exact D|]. split; [exact IV|].
  exact (C30_trend_matrix nq nl ncon tcon nline tline L0 (proj1 OK)).
Qed.
Theorem C69_mixed_likelihood SS Si L : data_ok -> lapack_ok dsytrf dsytri dsytri_fails dtrtri dlauum -> apart A (n * n) wk (2 * (n * n)) ->
  described_by psi SS Si L ->
  exists p, likelihood K = Some p /\ marginal_loglike n m SS Si L fall p.
Proof.
  intros OK LP AP (D & IV & TD). pose proof OK as (NQ & NL & NC & ORD & _ & ET).
  apply (EndProofs.prob_generic ncon tcon fe_con error_mean_con nl nline tline fe_line error_mean_line pm idx_con idx_line psi K); auto.
  - exact mixed_K.
  - exact mixed_shaped.
  - exact (errors_at OK).
Qed.
Theorem C70_mixed_light_curves SS Si L : data_ok -> dsytr_spec dsytrf dsytri -> dtrtri_spec dtrtri -> dlauum_spec dlauum -> apart A (n * n) wk (2 * (n * n)) ->
  described_by psi SS Si L -> best_curves psi SS Si L (reconstruction_mmap K).
Proof.
  intros OK LS LT LL AP (D & IV & TD). pose proof OK as (NQ & NL & NC & ORD & _ & ET).
  apply (EndProofs.rec_generic ncon tcon fe_con error_mean_con nl nline tline fe_line error_mean_line pm idx_con idx_line psi K mixed_K mixed_shaped (errors_at OK)); auto.
  apply EndProofs.array_filled. exact mixed_K.
Qed.
End Mixed.
End DataSet.
Print Assumptions C68_program_matrix.
Print Assumptions C68_program_mixed_matrix.
Print Assumptions C69_described.
Print Assumptions C69_likelihood.
Print Assumptions C69_mixed_described.
Print Assumptions C69_mixed_likelihood.
Print Assumptions C70_light_curves.
Print Assumptions C70_mixed_light_curves.

(** ** Cases meeting the hypotheses *)
(** four continuum points, two of them at the same time; two lines of three points each,
    not in the order of time; errors 1/10; linear trends *)
Definition case_t (i : nat) : R := match i with O => 0 | 1%nat => 1 | 2%nat => 1 | _ => 4 end.
Definition case_tl (j k : nat) : R := INR (7 - k - j).
Definition case_e (_ : nat) : R := 1 / 10.
Lemma case_ok : data_ok 4 case_t case_e 1 2 (fun _ => 3%nat) case_tl (fun _ => case_e) (fun _ => 1) 2 (fun _ => 0) (fun _ => 0%nat) (fun _ j => (3 + 7 * j)%nat) 0.
Proof.
  split; [lia|]. split; [lia|]. split; [lia|]. split; [|split].
  - intros i I. assert (i = 0 \/ i = 1 \/ i = 2)%nat as [-> | [-> | ->]] by lia; cbn; lra.
  - intros c i C I. unfold total_error2, case_e. rewrite exp_0. destruct c; nra.
  - intros [|c] C.
    + exists (fun i => (3 * i)%nat). cbn [narr_of times_of]. split; [intros; lia|]. intros i j I J.
      assert (i = 0 \/ i = 1)%nat as [-> | ->] by lia; assert (j = 0 \/ j = 1)%nat as [-> | ->] by lia; cbn; intros; auto; lra.
    + exists (fun i => i). cbn [narr_of times_of]. split; [intros; lia|]. intros i j I J E. unfold case_tl in E. apply INR_eq in E. lia.
Qed.
(** top-hat responses of two components: the likelihood exists and is that of the data *)
Example C69_case fall mem : exists SS Si L p,
  described_by 4 case_t case_e 1 2 (fun _ => 3%nat) case_tl (fun _ => case_e) (fun _ => 1) 2 (fun _ => 0) (fun _ => 0%nat) (fun _ j => (3 + 7 * j)%nat) 0
    (fun j => response tophat 2 (KernelSpec.stored exp (fun _ => 0) (3 + 7 * j))) SS Si L
  /\ prob_set ref_dsytrf ref_dsytri (fun _ _ _ => false) ref_dtrtri ref_dlauum 4 case_t case_e 1 2 (fun _ => 3%nat) case_tl (fun _ => case_e) (fun _ => 1) fall 2
      (pointers (fun _ => 0) 1 false (fun _ => 0%nat) (fun _ j => (3 + 7 * j)%nat) 2 (fun _ => 0) 0) (fun _ => 0) 0 (fun j => (3 + 7 * j)%nat)
      mem mem mem mem 0 100 mem mem mem mem = Some p
  /\ marginal_loglike 10 6 SS Si L fall p.
Proof.
  destruct (C69_described 4 case_t case_e 1 2 (fun _ => 3%nat) case_tl (fun _ => case_e) (fun _ => 1) 2 (fun _ => 0) (fun _ => 0%nat) (fun _ j => (3 + 7 * j)%nat) 0
    mem mem mem mem 0 mem (fun _ => 0) 1 false 2 I case_ok) as (SS & Si & L & D).
  destruct (C69_likelihood 4 case_t case_e 1 2 (fun _ => 3%nat) case_tl (fun _ => case_e) (fun _ => 1) fall 2 (fun _ => 0) (fun _ => 0%nat) (fun _ j => (3 + 7 * j)%nat) 0
    mem mem mem mem 0 100 mem mem mem mem ref_dsytrf ref_dsytri (fun _ _ _ => false) ref_dtrtri ref_dlauum (fun _ => 0) 1 false 2 I SS Si L case_ok lapack_exists) as (p & P1 & P2); [left; cbn; lia|exact D|].
  exists SS, Si, L, p. split; [exact D|]. split; [exact P1|exact P2].
Qed.
(** a top-hat and an exponential, the width of the latter equal to the damping time;
    reconstruction at five times of each curve *)
Example C70_case log_erfc erfc fall tall mem : log_erfc_correct log_erfc -> erfc_correct erfc -> exists SS Si L,
  best_curves 4 case_t 2 (fun _ => 3%nat) case_tl fall 2 (fun _ => 0) (fun _ => 0%nat) 0 (fun _ => 5%nat) tall
    (fun j => mixed_response 2 ty13 (KernelSpec.stored exp (fun _ => 0) (3 + 7 * j))) SS Si L
    (rec_set_mmap ref_dsytrf ref_dsytri ref_dtrtri ref_dlauum 4 case_t case_e 1 2 (fun _ => 3%nat) case_tl (fun _ => case_e) (fun _ => 1) fall 2
      (mixed_kernels log_erfc erfc (fun _ => 0%nat) (fun _ j => (3 + 7 * j)%nat) 2 ty13 (fun _ => 0) 0 mem mem) (fun _ => 0) 0 (fun j => (3 + 7 * j)%nat)
      mem mem mem mem 0 100 mem mem mem mem (fun _ => 5%nat) tall mem mem mem mem mem).
Proof.
  intros HL HE.
  assert (C : forall j, (j < 2)%nat -> clear_scales' (exp 0) 2 ty13 (KernelSpec.stored exp (fun _ => 0) (3 + 7 * j))) by (intros j _ k _ _; left; reflexivity).
  destruct (C69_mixed_described 4 case_t case_e 1 2 (fun _ => 3%nat) case_tl (fun _ => case_e) (fun _ => 1) 2 (fun _ => 0) (fun _ => 0%nat) (fun _ j => (3 + 7 * j)%nat) 0
    mem mem mem mem 0 mem log_erfc erfc 2 ty13 mem mem HL HE digits13 C case_ok) as (SS & Si & L & D).
  exists SS, Si, L.
  apply (C70_mixed_light_curves 4 case_t case_e 1 2 (fun _ => 3%nat) case_tl (fun _ => case_e) (fun _ => 1) fall 2 (fun _ => 0) (fun _ => 0%nat) (fun _ j => (3 + 7 * j)%nat) 0
    mem mem mem mem 0 100 mem mem mem mem (fun _ => 5%nat) tall mem mem mem mem mem ref_dsytrf ref_dsytri ref_dtrtri ref_dlauum log_erfc erfc 2 ty13 mem mem HL HE digits13 C SS Si L case_ok);
    [exact C29_contract_met|exact dtrtri_exists|exact dlauum_exists|left; cbn; lia|exact D].
Qed.
(** exponential responses at the parameters of C36_case *)
Example C68_case mem : positive_definite 10 (fun a b =>
  scalar_matrix 4 case_t case_e 1 2 (fun _ => 3%nat) case_tl (fun _ => case_e) (fun _ => 1)
    (pointers (fun _ => 0) 3 false (fun _ => 0%nat) (fun _ j => (3 + 7 * j)%nat) 2 (fun _ => 0) 0) (fun _ => 0) 0 (fun j => (3 + 7 * j)%nat) mem mem 0 (a * 10 + b)%nat).
Proof.
  assert (G : good (fun _ => 0) 3 false (exp 0) 2 2 (fun _ => 0) (fun j => (3 + 7 * j)%nat)) by (intros j _ k _; right; reflexivity).
  exact (proj1 (proj2 (C68_program_matrix 4 case_t case_e 1 2 (fun _ => 3%nat) case_tl (fun _ => case_e) (fun _ => 1) 2 (fun _ => 0) (fun _ => 0%nat) (fun _ j => (3 + 7 * j)%nat) 0
    mem mem mem mem 0 (fun _ => 0) 3 false 2 G case_ok))).
Qed.
