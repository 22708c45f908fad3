(** C71, C72: lines without a continuum (virtual driving curve).  From the parameters and
    the data to the likelihood and to the reconstructed curves.  Real arithmetic, no
    rounding. *)
From Coq Require Import Reals List Arith Lia Lra Psatz.
From Coquelicot Require Import Coquelicot.
From Verif Require Import SemisepModel SemisepProofs SemisepProofs2 MatBridge MatBridge2 SemisepProofs3 PartProofs PartProofs2 KernelCalc KernelSpec KernelModel KernelGauss2 PartModel
  CovModel LikeModel PredModel PropPart PropSemisep GlsAlgebra LikeProofs PropLike PredProofs PropPred DecompProofs PropDecomp.
From Verif Require Import PropCov MixSpec PropKernel MixModel PropMix PsdCore PsdKernel PropPsd EndModel VmapModel.
From Verif Require EndProofs PropEnd MixCode VmapProofs.
Import ListNotations.
Open Scope R_scope.

(** ** What the statements are about *)
(** Curve 0 is the driving curve, of which nothing is measured; curve j+1 is line j.
    Squared error of point i of line j: measured and systematic error. *)
Definition line_error2 (fe_line : nat -> arr) (error_mean_line : nat -> R) (pm : arr) (idx_line : nat -> nat) (c i : nat) : R :=
  match c with
  | O => 0
  | S j => fe_line j i ^ 2 + ((exp (pm (idx_line j)) - 1) * error_mean_line j) ^ 2
  end.
(** the trend of a curve: the driving curve has none, line j the polynomial j *)
Definition trend_of (nq c : nat) (t : R) (v : nat -> R) : R := match c with O => 0 | S j => trend_at nq v j t end.

(** ** Links to the proofs *)
Lemma locate_zero xs a c i : locate (0%nat :: xs) a = Some (c, i) -> (1 <= c)%nat.
Proof.
  cbn [locate]. destruct (Nat.ltb_spec a 0); [lia|]. destruct (locate xs (a - 0)) as [[c' i']|]; cbn [option_map fst snd]; [|discriminate].
  intros E. injection E as <- <-. lia.
Qed.
Lemma cov_transfer psi taud s s' xs t t' e e' SS : s = s' -> (forall c i, (1 <= c)%nat -> t c i = t' c i) -> (forall c i, (1 <= c)%nat -> e c i = e' c i) ->
  data_covariance psi taud s (0%nat :: xs) t e SS -> data_covariance psi taud s' (0%nat :: xs) t' e' SS.
Proof.
  intros <- T E D a b A B. destruct (D a b A B) as (c & i & d & m & v & L1 & L2 & C & V).
  pose proof (locate_zero _ _ _ _ L1). pose proof (locate_zero _ _ _ _ L2).
  exists c, i, d, m, v. rewrite <- !T, <- E by assumption. auto.
Qed.
Lemma points_vmap nl nline : vmap_points nl nline = total nline nl.
Proof.
  unfold vmap_points. rewrite line_start_total. induction nl as [|k IH]; [reflexivity|]. cbn [total] in *. rewrite IH. reflexivity.
Qed.
Lemma sum_vmap nl nline : list_sum (0%nat :: map nline (seq 0 nl)) = total nline nl.
Proof. cbn [list_sum fold_right Nat.add]. apply (EndProofs.total_seq nline nl). Qed.

Section DataSet.
(** A data set of lines only.  The times of a line may come in any order.  No total error
    is zero; every line has at least as many different times as trend coefficients. *)
Variable nl : nat.
Variable nline : nat -> nat.
Variables tline fe_line : nat -> arr.
Variable error_mean_line : nat -> R.
Variable fall : arr.
Variable nq : nat.
Variable pm : arr.
Variable icp : nat -> nat.
Variable ilp : nat -> nat -> nat.
Variable nds : nat.
Notation idx_con := (icp nds).
Notation idx_line := (ilp nds).
(** the driving curve has damping time taud and amplitude sigma *)
Notation taud := (exp (pm (idx_con + 2)%nat)).
Notation sigma := (exp (pm (idx_con + 1)%nat)).
Notation sizes := (0%nat :: map nline (seq 0 nl)).
Notation n := (total nline nl).
Notation m := (nq * nl)%nat.
Definition line_time (c i : nat) : R := match c with O => 0 | S j => tline j i end.
Notation error2 := (line_error2 fe_line error_mean_line pm idx_line).
Definition lines_ok : Prop :=
  (1 <= nq)%nat
  /\ (forall j i, (j < nl)%nat -> (i < nline j)%nat -> 0 < error2 (S j) i)
  /\ (forall j, (j < nl)%nat -> enough_times nq (nline j) (tline j)).
(** the covariance matrix of the data, its inverse and the trends *)
Definition lines_described_by (psi : nat -> R -> R) (SS Si L : nat -> nat -> R) : Prop :=
  data_covariance psi taud sigma sizes line_time error2 SS /\ is_inverse n SS Si /\ trend_design nq nl nline tline L.

Variables Smat_ll PC PS mem : arr.
Variables A wk : nat.
Variable L0 : arr.
Variable nall : nat -> nat.
Variables tall US AS Lr0 UT0 yq0 : arr.
Context {IP : Type}.
Variable dsytrf : nat -> (nat -> nat -> R) -> (nat -> nat -> R) * IP.
Variable dsytri : nat -> (nat -> nat -> R) -> IP -> nat -> nat -> R.
Variable dsytri_fails : nat -> (nat -> nat -> R) -> IP -> bool.
Variable dgesol : nat -> nat -> arr -> arr -> arr.
Variable dget : nat -> arr -> arr.
Variable log_erfc : R -> R.
Variable type_tf : nat.
Variable flag : bool.
Variable ncomp : nat.
Notation K := (pointers log_erfc type_tf flag icp ilp ncomp pm nds).
Notation psi := (fun j => response (PropCov.shape_of type_tf) ncomp (KernelSpec.stored (decode flag) pm (idx_line j))).
(** parameters at which the closed forms are exact (C31-C34) *)
Hypothesis G : good log_erfc type_tf flag taud ncomp nl pm idx_line.
Notation filled_array := (vmap_array_matrix nl nline tline fe_line error_mean_line K pm idx_con idx_line Smat_ll PS mem A).
Notation filled_scalar := (vmap_scalar_matrix nl nline tline fe_line error_mean_line K pm idx_con idx_line PC PS).
Notation likelihood := (prob_vmap dsytrf dsytri dsytri_fails nl nline tline fe_line error_mean_line fall nq K pm idx_con idx_line Smat_ll PS mem A wk L0).
Notation reconstruction := (rec_vmap dgesol dget nl nline tline fe_line error_mean_line fall nq K pm idx_con idx_line PC PS L0 nall tall US AS Lr0 UT0 yq0).

Notation zt := (fun _ : nat => 0).
Notation pm' := (VmapProofs.vpm pm idx_con idx_line).
Notation psi' := (fun j => response (PropCov.shape_of type_tf) ncomp (KernelSpec.stored (decode flag) pm (idx_line j))).
Lemma kernels_exact : EndProofs.exact_kernels (exp (pm' (0 + 2)%nat)) nl psi' K.
Proof. exact (EndProofs.plain_exact log_erfc type_tf flag icp ilp ncomp pm nds nl G). Qed.
Lemma shaped j : (j < nl)%nat -> of_shapes (psi j).
Proof. intros _. apply EndProofs.plain_shapes. Qed.
Lemma sig_v : exp (pm' (0 + 1)%nat) * sqrt (exp (pm' (0 + 2)%nat)) = sigma.
Proof. apply VmapProofs.vsigma. Qed.
Definition unscaled_v (M : arr) (a b : nat) : R := sigma * sigma * M (a * n + b)%nat.
Notation filled' := (EndProofs.filled 0 zt zt 0 nl nline tline fe_line error_mean_line pm' 0 VmapProofs.vidx psi').
Lemma points_all : all_points 0 nl nline = n.
Proof. rewrite EndProofs.n_points. apply sum_vmap. Qed.
Lemma filled_v M : filled' M -> data_covariance psi taud sigma sizes line_time error2 (unscaled_v M).
Proof.
  intros F. pose proof (EndProofs.filled_cov 0 zt zt 0 nl nline tline fe_line error_mean_line pm' 0 VmapProofs.vidx psi' M F) as D.
  assert (D' : data_covariance psi taud sigma sizes line_time error2 (EndProofs.cov_matrix 0 nl nline pm' 0 M)).
  { eapply cov_transfer; [exact sig_v| | |exact D]; intros [|c] i C; try lia; reflexivity. }
  intros a b X Y. destruct (D' a b X Y)
    as (c & i & d & k & v & H1 & H2 & H3 & H4). exists c, i, d, k, v. repeat (split; [assumption|]). rewrite <- H4. unfold unscaled_v, EndProofs.cov_matrix. rewrite sig_v, sum_vmap. reflexivity.
Qed.
Lemma array_v : filled' filled_array.
Proof.
  unfold vmap_array_matrix. rewrite (VmapProofs.varray nl nline tline fe_line error_mean_line pm idx_con idx_line zt zt 0 (k_lc_array K) _ _ _ _ mem Smat_ll).
  pose proof (EndProofs.array_filled 0 zt zt 0 nl nline tline fe_line error_mean_line pm' 0 VmapProofs.vidx psi' K kernels_exact mem Smat_ll PS mem A) as F.
  unfold array_matrix in F. rewrite points_all, <- points_vmap in F. exact F.
Qed.
Lemma scalar_v : filled' filled_scalar.
Proof.
  unfold vmap_scalar_matrix. rewrite (VmapProofs.vscalar nl nline tline fe_line error_mean_line pm idx_con idx_line zt zt 0 (k_lc K)).
  pose proof (EndProofs.scalar_filled 0 zt zt 0 nl nline tline fe_line error_mean_line pm' 0 VmapProofs.vidx psi' K kernels_exact PS PC 0) as F.
  unfold scalar_matrix in F. rewrite points_all, <- points_vmap in F. exact F.
Qed.
Lemma lines_pd SS : lines_ok -> data_covariance psi taud sigma sizes line_time error2 SS -> PropPart.symmetric n SS /\ positive_definite n SS.
Proof.
  intros (_ & E & _) D. rewrite <- sum_vmap. apply (C68_data_positive_definite psi taud sigma sizes line_time
    (fun c i => match c with O => 1 | S _ => error2 c i end) SS); try apply exp_pos.
  - intros j J. apply shaped. rewrite EndProofs.len_sizes in J. lia.
  - intros [|j] i J I; [lra|]. rewrite EndProofs.len_sizes in J. apply E; [lia|]. cbn [nth] in I.
    rewrite nth_indep with (d' := nline 0%nat) in I by (rewrite map_length, seq_length; lia). rewrite map_nth, seq_nth in I by lia. exact I.
  - apply (cov_transfer psi taud sigma sigma _ line_time line_time error2 _ SS eq_refl); [reflexivity| |exact D]. intros [|c] i C; [lia|reflexivity].
Qed.
Lemma lines_unique S1 S2 a b : data_covariance psi taud sigma sizes line_time error2 S1 -> data_covariance psi taud sigma sizes line_time error2 S2 ->
  (a < n)%nat -> (b < n)%nat -> S1 a b = S2 a b.
Proof.
  intros H1 H2 X Y. rewrite <- sum_vmap in X, Y.
  destruct (H1 a b X Y) as (c & i & d & k & v & L1 & L2 & C & ->). destruct (H2 a b X Y) as (c' & i' & d' & k' & v' & L1' & L2' & C' & ->).
  rewrite L1 in L1'. rewrite L2 in L2'. injection L1' as <- <-. injection L2' as <- <-.
  rewrite (point_cov_unique _ _ _ _ _ _ _ _ C C'). reflexivity.
Qed.
Lemma sig2_pos : 0 < sigma * sigma.
Proof. apply Rmult_lt_0_compat; apply exp_pos. Qed.
Lemma held M SS : filled' M -> data_covariance psi taud sigma sizes line_time error2 SS ->
  forall i j, (i < n)%nat -> (j < n)%nat -> M (i * n + j)%nat = SS i j / (sigma * sigma).
Proof.
  intros F D i j I J. rewrite <- (lines_unique _ _ i j (filled_v M F) D I J). unfold unscaled_v. pose proof sig2_pos as P. field. apply Rgt_not_eq, exp_pos.
Qed.

Theorem C71_program_matrix : lines_ok ->
  data_covariance psi taud sigma sizes line_time error2 (unscaled_v filled_array) /\ positive_definite n (fun a b => filled_array (a * n + b)%nat) /\
  data_covariance psi taud sigma sizes line_time error2 (unscaled_v filled_scalar) /\ positive_definite n (fun a b => filled_scalar (a * n + b)%nat).
Proof.
  intros OK.
  assert (P : forall M, data_covariance psi taud sigma sizes line_time error2 (unscaled_v M) -> positive_definite n (fun a b => M (a * n + b)%nat)).
  { intros M D. destruct (lines_pd _ OK D) as [_ PD]. intros x X. specialize (PD x X). unfold unscaled_v in PD.
    rewrite (sumn_ext n _ (fun i => sigma * sigma * sumn n (fun j => x i * M (i * n + j)%nat * x j))) in PD by (intros; rewrite <- sumn_scal; apply sumn_ext; intros; ring).
    rewrite sumn_scal in PD. apply Rmult_lt_reg_l with (sigma * sigma); [apply sig2_pos|]. rewrite Rmult_0_r. exact PD. }
  pose proof (filled_v _ array_v) as D1. pose proof (filled_v _ scalar_v) as D2.
  split; [exact D1|]. split; [exact (P _ D1)|]. split; [exact D2|exact (P _ D2)].
Qed.
Theorem C71_trend_matrix : (1 <= nq)%nat -> trend_design nq nl nline tline (fun i j => vtrend_matrix nq nl nline tline L0 (i * m + j)%nat).
Proof. intros NQ. apply entry_design. intros c k j C KK J. rewrite total_psum. apply VmapProofs.vtrend_ok; auto. Qed.
Theorem C71_described : lines_ok -> exists SS Si L, lines_described_by psi SS Si L.
Proof.
  intros OK. destruct (C71_program_matrix OK) as (D & _). destruct (lines_pd _ OK D) as [SY PD].
  destruct (proj1 (det_inv n (unscaled_v filled_array))) as [Si HI]; [pose proof (spd_det n _ (spd_of _ _ SY PD)); lra|].
  eexists. exists Si. eexists. split; [exact D|]. split; [exact (inverse_both _ _ _ HI)|]. apply C71_trend_matrix, OK.
Qed.
Lemma lines_inj L : lines_ok -> trend_design nq nl nline tline L ->
  forall v, (forall i, (i < n)%nat -> mv m L v i = 0) -> forall j, (j < m)%nat -> v j = 0.
Proof.
  intros (NQ & _ & ET) TD v. rewrite total_psum. apply (design_inj nq nl nline tline); [|exact ET].
  intros c k j. rewrite <- total_psum. apply design_entry; auto.
Qed.
Lemma lines_L L : lines_ok -> trend_design nq nl nline tline L ->
  forall i j, (i < n)%nat -> (j < m)%nat -> vtrend_matrix nq nl nline tline L0 (i * m + j)%nat = L i j.
Proof.
  intros (NQ & _) TD i j I J. destruct (curve_at nline nl i) as (c & k & C & KK & E); [rewrite <- total_psum; exact I|].
  subst i. rewrite VmapProofs.vtrend_ok by auto. rewrite <- total_psum. symmetry. apply (design_entry nq nl nline tline L TD); auto.
Qed.

(** ** C71 *)
(** With at least two lines the likelihood is the Gaussian likelihood of the data, trends
    integrated out; -DBL_MAX is never returned. *)
Theorem C71_likelihood SS Si L : lines_ok -> (2 <= nl)%nat -> dsytr_spec dsytrf dsytri -> dsytri_code dsytrf dsytri_fails -> apart A (n * n) wk (2 * (n * n)) ->
  lines_described_by psi SS Si L ->
  exists p, likelihood = Some p /\ marginal_loglike n m SS Si L fall p.
Proof.
  intros OK NL LP LC AP (D & IV & TD). destruct (lines_pd _ OK D) as [SY PD]. pose proof sig2_pos as S2.
  unfold prob_vmap, prob_vmap_set. change (line_start 0 nline nl) with (vmap_points nl nline). rewrite points_vmap.
  set (C := fun i j => / (sigma * sigma) * SS i j).
  assert (SPD : spd n SS) by (apply spd_of; auto).
  assert (SPC : spd n C) by (apply spd_scal; auto; apply Rinv_0_lt_compat; auto).
  assert (HI : inv_of n SS Si) by (intros i j I J; destruct (IV i j I J); auto).
  set (M := fun x => if (_ : bool) then _ else _).
  pose proof (C29_iter IP dsytrf dsytri M A wk n nline (nl - 1) C LP ltac:(lia)) as GI. replace (S (nl - 1)) with nl in GI by lia.
  specialize (GI eq_refl AP (proj1 SPC)).
  match type of GI with ?h1 -> ?h2 -> ?w => assert (G' : w) end.
  { apply GI.
    - intros k KK. assert (LE : (total nline k <= n)%nat) by (apply EndProofs.total_mono; lia).
      replace n with (total nline k + (n - total nline k))%nat in SPC by lia.
      apply (C29_positive_definite_leading (total nline k) (n - total nline k) C); [exact (proj1 SPC)|]. intros x X. exact (proj2 SPC x X).
    - intros i j I J. unfold M. destruct (Nat.leb_spec A (A + i * n + j)); [|lia]. destruct (Nat.ltb_spec (A + i * n + j) (A + n * n)); [|nia].
      cbn [andb]. replace (A + i * n + j - A)%nat with (i * n + j)%nat by lia. rewrite (held _ SS array_v D) by auto. unfold C, Rdiv. ring. }
  destruct (inverse_symat_partition_iter dsytrf dsytri M A n nline (nl - 1) wk) as [mem' ld]. destruct G' as [GV GL]. specialize (GL (proj2 SPC)).
  pose proof (lines_inj L OK TD) as INJ.
  assert (GI' : inv_of n C (fun i j => mem' (A + i * n + j)%nat)) by (intros i j I J; destruct (GV i j I J); auto).
  pose proof (inv_scal n (/ (sigma * sigma)) SS Si (Rinv_neq_0_compat _ (Rgt_not_eq _ _ S2)) HI) as HC.
  destruct (line_prob_end_ok dsytrf dsytri dsytri_fails LP LC n m (fun x => mem' (A + x)%nat)
    (vtrend_matrix nq nl nline tline L0) fall ld sigma Si L SS (exp_pos _) SPD HI) as (q & NM & EQ); auto.
  - intros i j I J. replace (A + (i * n + j))%nat with (A + i * n + j)%nat by lia. rewrite (inv_unique GI' HC I J). field. apply Rgt_not_eq, exp_pos.
  - apply lines_L; assumption.
  - eexists. split; [exact EQ|]. apply (marginal_link n m SS Si L fall q); auto. exact (spd_inv _ _ _ SPD HI).
Qed.

(** ** C72 *)
(** Every reconstructed point of a line is the best linear unbiased prediction of the line
    with its standard error.  Every point of the driving curve is the best linear unbiased
    prediction of a curve without trend, but its error is the one for known trends.  The
    trend coefficients, stored from position nq on, are those of least squares.  One line
    is enough. *)
Definition best_lines (SS Si L : nat -> nat -> R) (out : rec_out) : Prop :=
  least_squares n m Si L fall (fun j => rec_yq out (nq + j)%nat) /\
  forall c k, (c < 1 + nl)%nat -> (k < nall c)%nat ->
    let r := (total nall c + k)%nat in let t := tall r in
    exists u V, target_covariance (PropEnd.curve_of psi c) psi taud sigma sizes line_time t u /\ target_variance (PropEnd.curve_of psi c) taud sigma t V /\
      best_value n m SS L u V (trend_of nq c t) fall (rec_f out r) /\
      match c with
      | O => known_trend_error n SS u V (rec_fe out r)
      | S _ => best_prediction n m SS L u V (trend_of nq c t) fall (rec_f out r) (rec_fe out r)
      end.
Theorem C72_light_curves SS Si L : lines_ok -> (1 <= nl)%nat -> dgesol_spec dgesol -> dget_spec dget ->
  lines_described_by psi SS Si L -> best_lines SS Si L reconstruction.
Proof.
  intros OK NL DG DI (D & IV & TD). destruct (lines_pd _ OK D) as [SY PD]. pose proof sig2_pos as S2.
  assert (SPD : spd n SS) by (apply spd_of; auto).
  assert (HI : inv_of n SS Si) by (intros i j I J; destruct (IV i j I J); auto).
  pose proof (lines_inj L OK TD) as INJ. pose proof (spd_inv _ _ _ SPD HI) as PDi.
  pose proof (gram_spd _ _ _ _ PDi INJ) as PG.
  assert (EG : exists Gi, inv_of m (gram n Si L) Gi). { apply det_inv. pose proof (spd_det _ _ PG). lra. }
  destruct EG as [Gi HGi]. pose proof (proj1 (spd_inv _ _ _ PG HGi)) as GS.
  destruct kernels_exact as (H1 & H2 & H3 & H4 & _).
  pose proof (proj1 (cross 0 zt nl nline tline pm' 0 (k_lc K) (k_ll K) (k_ll2 K) psi' H1 H2 H3 nall tall US)) as HU.
  pose proof (proj1 (recon nl pm' 0 (k_lc K) (k_ll K) (k_ll2 K) psi' H1 H2 H3 H4 nall tall AS)) as HA.
  unfold rec_vmap. rewrite (VmapProofs.vUmat nl nline tline pm idx_con idx_line zt), (VmapProofs.vAmat nl pm idx_con idx_line).
  rewrite points_vmap. rewrite sum_vmap in HU.
  set (U' := set_covar_Umat_line _ _ _ _ _ _ _ _ _ _ _ _ _ _) in *. set (A' := set_covar_Amat_line _ _ _ _ _ _ _ _ _) in *.
  set (T := total nall (1 + nl)).
  assert (ET' : list_sum (map nall (seq 0 (S nl))) = T) by apply EndProofs.total_seq.
  pose (U := fun r k => sigma * sigma * U' (r * n + k)%nat). pose (V := fun r => sigma * sigma * A' (r * T + r)%nat).
  assert (TG : forall c k, (c < 1 + nl)%nat -> (k < nall c)%nat -> let r := (total nall c + k)%nat in (r < T)%nat /\
    target_covariance (PropEnd.curve_of psi c) psi taud sigma sizes line_time (tall r) (U r) /\ target_variance (PropEnd.curve_of psi c) taud sigma (tall r) (V r)).
  { intros c k C KK r. assert (R : (r < T)%nat).
    { unfold r, T. pose proof (EndProofs.total_mono nall (S c) (1 + nl) ltac:(lia)) as H. cbn [total] in H. lia. }
    assert (LR : locate (map nall (seq 0 (S nl))) r = Some (c, k)) by (apply EndProofs.locate_total; [lia|exact KK]).
    assert (RT : rtime nall tall c k = tall r) by (unfold rtime, r; rewrite EndProofs.total_seq; reflexivity).
    split; [exact R|]. split.
    - intros b B. rewrite sum_vmap in B. destruct (HU r b ltac:(rewrite ET'; exact R) ltac:(rewrite sum_vmap; exact B)) as (c' & k' & d & e & E1 & E2 & PCV). rewrite LR in E1. injection E1 as <- <-.
      exists d, e, (U' (r * n + b)%nat). split; [exact E2|]. split; [reflexivity|]. rewrite RT, sum_vmap in PCV. pose proof (locate_zero _ _ _ _ E2). destruct d; [lia|]. destruct c; exact PCV.
    - destruct (HA r r ltac:(rewrite ET'; exact R) ltac:(rewrite ET'; exact R)) as (c' & k' & d & e & E1 & E2 & PCV). rewrite LR in E1, E2. injection E1 as <- <-. injection E2 as <- <-.
      rewrite ET', RT in PCV. unfold V. destruct c as [|j]; cbn [PropEnd.curve_of target_variance point_cov] in *.
      + rewrite PCV. rewrite Rminus_diag_eq, Rabs_R0 by reflexivity. unfold Rdiv. rewrite Ropp_0, Rmult_0_l, exp_0. ring.
      + eexists. split; [exact PCV|reflexivity]. }
  pose proof (VmapProofs.rec_vmap_ok dgesol dget DG DI nq nl nline tline fall (pm (idx_con + 1)%nat) nall tall filled_scalar U' A' L0 Lr0 UT0 yq0 SS Si L Gi) as RV.
  cbv zeta in RV. change (line_start 0 nline nl) with (vmap_points nl nline) in RV. rewrite points_vmap, rows_total in RV. fold T in RV.
  destruct RV as (R1 & _ & R2); auto.
  { intros i j I J. cbn [Nat.add]. apply held; auto. exact scalar_v. }
  { apply lines_L; assumption. }
  split; [apply (ls_link n m Si L fall Gi); auto|].
  intros c k C KK r t. destruct (TG c k C KK) as (RT & T1 & T2). fold r in RT, T1, T2. exists (U r), (V r). split; [exact T1|]. split; [exact T2|].
  assert (JC : joint_covariance n SS (U r) (V r)).
  { rewrite <- sum_vmap. apply (C68_joint_covariance psi taud sigma sizes line_time error2 SS (PropEnd.curve_of psi c) t (U r) (V r)); auto; try apply exp_pos.
    - intros j J. apply shaped. rewrite EndProofs.len_sizes in J. lia.
    - intros f. destruct c as [|j]; [discriminate|]. intros X. injection X as <-. apply shaped. lia.
    - intros [|d] i Hd Hi; [cbn [line_error2]; lra|]. left. apply OK; rewrite EndProofs.len_sizes in Hd; [lia|]. cbn [nth] in Hi.
      rewrite nth_indep with (d' := nline 0%nat) in Hi by (rewrite map_length, seq_length; lia). rewrite map_nth, seq_nth in Hi by lia. exact Hi. }
  destruct (R2 r (U r) (VmapProofs.ventry nq c t) (V r) RT) as [E1 E2].
  { intros j J. unfold U. field. apply Rgt_not_eq, exp_pos. }
  { unfold V. field. apply Rgt_not_eq, exp_pos. }
  { intros j J. unfold t, r. rewrite total_psum. apply VmapProofs.vrec_trend_ok; auto; [apply OK|lia]. }
  assert (TT : forall v, trend_of nq c t v = sumn m (fun j => VmapProofs.ventry nq c t j * v j)).
  { intros v. destruct c as [|j]; cbn [trend_of VmapProofs.ventry].
    - rewrite (sumn_ext m _ (fun _ => 0 * 0)) by (intros; ring). rewrite sumn_scal. ring.
    - unfold trend_at. symmetry. apply sumn_window. nia. }
  split; [exact (value_core n m SS Si L Gi (U r) (V r) _ _ fall _ SPD HI INJ HGi TT E1)|].
  assert (NA : (r <? nall 0%nat)%nat = match c with O => true | S _ => false end).
  { destruct c as [|j]; [apply Nat.ltb_lt; unfold r; cbn [total]; exact KK|]. apply Nat.ltb_ge. pose proof (EndProofs.total_mono nall 1 (S j) ltac:(lia)) as H. cbn [total] in H. unfold r. cbn [total]. lia. }
  rewrite NA in E2. destruct c as [|j].
  - exact (error_core n SS Si (U r) (V r) sigma _ (exp_pos _) SPD HI JC E2).
  - exact (best_core n m SS Si L Gi (U r) (V r) _ _ fall sigma _ _ (exp_pos _) SPD HI INJ HGi JC TT E1 E2).
Qed.
End DataSet.
Print Assumptions C71_program_matrix.
Print Assumptions C71_trend_matrix.
Print Assumptions C71_described.
Print Assumptions C71_likelihood.
Print Assumptions C72_light_curves.

(** ** Where the claims fail *)
(** one line with one point of error 1, constant trend, all parameters 0: top-hat response
    of half width 1, sigma = taud = 1 *)
Notation one_ok := (lines_ok 1 (fun _ => 1%nat) (fun _ _ => 0) (fun _ _ => 1) (fun _ => 1) 1 (fun _ => 0) (fun _ _ => 3%nat) 0).
Notation one_described := (lines_described_by 1 (fun _ => 1%nat) (fun _ _ => 0) (fun _ _ => 1) (fun _ => 1) 1 (fun _ => 0) (fun _ => 0%nat) (fun _ _ => 3%nat) 0
  (fun j => response tophat 1 (KernelSpec.stored exp (fun _ => 0) 3))).
Lemma one_is_ok : one_ok.
Proof.
  split; [lia|]. split.
  - intros j i J I. cbn [line_error2]. rewrite exp_0. lra.
  - intros j J. exists (fun i => i). split; [intros; lia|]. intros a b X Y _. lia.
Qed.
Lemma one_cov M : EndProofs.filled 0 (fun _ => 0) (fun _ => 0) 0 1 (fun _ => 1%nat) (fun _ _ => 0) (fun _ _ => 1) (fun _ => 1)
   (VmapProofs.vpm (fun _ => 0) 0 (fun _ => 3%nat)) 0 VmapProofs.vidx (fun j => response tophat 1 (KernelSpec.stored exp (fun _ => 0) 3)) M -> M 0%nat = (1 + exp (-2)) / 2 + 1.
Proof.
  intros F. pose proof (filled_v 1 (fun _ => 1%nat) (fun _ _ => 0) (fun _ _ => 1) (fun _ => 1) (fun _ => 0) (fun _ => 0%nat) (fun _ _ => 3%nat) 0 1 false 1 M F 0%nat 0%nat ltac:(cbn; lia) ltac:(cbn; lia)) as D.
  destruct D as (c & i & d & k & v & L1 & L2 & C & E). cbn [locate Nat.ltb Nat.leb map seq Nat.sub option_map fst snd] in L1, L2. injection L1 as <- <-. injection L2 as <- <-.
  assert (V : v = (1 + exp (-2)) / 2).
  { rewrite <- ll_one. eapply cov_ll_unique; [exact C|]. 
    exact (proj1 (proj2 (EndProofs.plain_exact (fun x => x) 1 false (fun _ => 0%nat) (fun _ _ => 3%nat) 1 (fun _ => 0) 0 1 I)) 0 0 0%nat 0%nat ltac:(lia) ltac:(lia)). }
  unfold unscaled_v in E. cbn [total Nat.add Nat.mul Nat.eqb line_error2] in E. rewrite exp_0 in E. lra.
Qed.
Lemma one_marginal (SS Si L : nat -> nat -> R) y p : 0 < SS 0%nat 0%nat -> is_inverse 1 SS Si -> L 0%nat 0%nat = 1 -> marginal_loglike 1 1 SS Si L y p -> p = 0.
Proof.
  intros P IV L1 (q & Q & ->). destruct (IV 0%nat 0%nat ltac:(lia) ltac:(lia)) as [I1 _]. cbn [sumn Nat.eqb] in I1.
  specialize (Q (fun _ => y 0%nat)). unfold chi_square, residual in *. cbn [sumn] in *. rewrite L1 in *.
  rewrite !MatBridge2.detn1. unfold normal_matrix. cbn [sumn]. rewrite L1.
  set (s := SS 0%nat 0%nat) in *. set (i := Si 0%nat 0%nat) in *. assert (E : i = / s) by (apply Rmult_eq_reg_l with s; [rewrite Rinv_r by lra; lra|lra]).
  replace (0 + (0 + 1 * i * 1)) with (/ s) by (rewrite E; ring). rewrite ln_Rinv by exact P.
  set (r := y 0%nat - (0 + 1 * q 0%nat)) in *. assert (Z : r * i * r = 0); [|lra]. 
  assert (0 < i) by (rewrite E; apply Rinv_0_lt_compat; exact P). assert (0 <= r * r) by nra. nra.
Qed.
Lemma prob_end_shift {IP} (dsytrf : nat -> (nat -> nat -> R) -> (nat -> nat -> R) * IP) dsytri fails n m Ci La y ld ld' s p :
  line_prob_end dsytrf dsytri fails n m Ci La y ld s = Some p -> line_prob_end dsytrf dsytri fails n m Ci La y ld' s = Some (p - (ld' - ld) / 2).
Proof.
  unfold line_prob_end. destruct (inverse_symat_lndet_sign _ _ _ _ _ _) as [[[Cq l2] info] sg]. destruct (_ || _)%bool; [discriminate|].
  destruct (Rlt_dec _ _); [discriminate|]. intros E. injection E as <-. f_equal. lra.
Qed.

(** With one line the matrix is never inverted and the value is wrong, whatever the data. *)
Theorem C71_one_line_refuted : forall IP (dsytrf : nat -> (nat -> nat -> R) -> (nat -> nat -> R) * IP) dsytri dsytri_fails fall mem,
  dsytr_spec dsytrf dsytri -> dsytri_code dsytrf dsytri_fails ->
  exists SS Si L p, one_ok /\ one_described SS Si L /\
    prob_vmap dsytrf dsytri dsytri_fails 1 (fun _ => 1%nat) (fun _ _ => 0) (fun _ _ => 1) (fun _ => 1) fall 1 K_one (fun _ => 0) 0 (fun _ => 3%nat) mem mem mem 0 1 mem = Some p /\
    p < 0 /\ (forall p', marginal_loglike 1 1 SS Si L fall p' -> p' = 0).
Proof.
  intros IP trf tri fails fall mem LP LC.
  destruct (C71_described 1 (fun _ => 1%nat) (fun _ _ => 0) (fun _ _ => 1) (fun _ => 1) 1 (fun _ => 0) (fun _ => 0%nat) (fun _ _ => 3%nat) 0 mem mem mem mem 0 mem (fun x => x) 1 false 1 I one_is_ok) as (SS & Si & L & D).
  set (C := (1 + exp (-2)) / 2 + 1). pose proof (exp_pos (-2)) as EP.
  set (M := vmap_array_matrix 1 (fun _ => 1%nat) (fun _ _ => 0) (fun _ _ => 1) (fun _ => 1) K_one (fun _ => 0) 0 (fun _ => 3%nat) mem mem mem 0).
  assert (F := array_v 1 (fun _ => 1%nat) (fun _ _ => 0) (fun _ _ => 1) (fun _ => 1) (fun _ => 0) (fun _ => 0%nat) (fun _ _ => 3%nat) 0 mem mem mem 0 (fun x => x) 1 false 1 I).
  pose proof (one_cov _ F) as MC. change (M 0%nat = C) in MC.
  assert (SC : SS 0%nat 0%nat = C).
  { pose proof (held 1 (fun _ => 1%nat) (fun _ _ => 0) (fun _ _ => 1) (fun _ => 1) (fun _ => 0) (fun _ => 0%nat) (fun _ _ => 3%nat) 0 1 false 1 _ SS F (proj1 D) 0%nat 0%nat ltac:(cbn; lia) ltac:(cbn; lia)) as H.
    change (M 0%nat = SS 0%nat 0%nat / (exp 0 * exp 0)) in H. rewrite MC, exp_0 in H. lra. }
  assert (LL : L 0%nat 0%nat = 1).
  { pose proof (lines_L 1 (fun _ => 1%nat) (fun _ _ => 0) (fun _ _ => 1) (fun _ => 1) 1 (fun _ => 0) (fun _ _ => 3%nat) 0 mem L one_is_ok (proj2 (proj2 D)) 0%nat 0%nat ltac:(cbn; lia) ltac:(cbn; lia)) as H.
    rewrite <- H. reflexivity. }
  assert (C1 : 1 < C) by (unfold C; lra).
  exists SS, Si, L, (- ln C). split; [exact one_is_ok|]. split; [exact D|]. split.
  2: { split.
    - pose proof (ln_increasing 1 C ltac:(lra) C1) as H. rewrite ln_1 in H. lra.
    - intros p'. apply one_marginal; [rewrite SC; lra|exact (proj1 (proj2 D))|exact LL]. }
  unfold prob_vmap, prob_vmap_set. change (vmap_points 1 (fun _ : nat => 1%nat)) with 1%nat. change (line_start 0 (fun _ : nat => 1%nat) 1) with 1%nat. cbn [Nat.sub Nat.mul Nat.add]. fold M.
  set (mem0 := fun x : nat => if (_ : bool) then _ else _).
  assert (M0 : mem0 0%nat = C) by exact MC.
  unfold inverse_symat_partition_iter.
  pose proof (copy_upper_ok mem0 0 1 1 1) as CU. cbv zeta beta in CU. cbv zeta beta.
  match type of CU with _ -> _ /\ (forall x, _ -> ?m x = _) => set (m1 := m) in * end.
  destruct CU as [CU1 CU2]; [intros i j H; left; lia|].
  assert (M1 : m1 0%nat = C) by (rewrite CU2; [exact M0|left; lia]).
  assert (M2 : m1 1%nat = C) by (exact (eq_trans (CU1 0%nat 0%nat ltac:(lia)) M0)).
  assert (IC : inv_of 1 (fun _ _ => C) (fun _ _ => / C)).
  { intros i j I J. assert (i = 0)%nat by lia. assert (j = 0)%nat by lia. subst. cbn [sumn]. rewrite Rplus_0_l, Rinv_r by lra. reflexivity. }
  assert (SPC : spd 1 (fun _ _ => C)).
  { split; [intros i j _ _; reflexivity|]. intros x (i & I & X). assert (i = 0)%nat by lia. subst. unfold quad. cbn [sumn]. assert (0 < x 0%nat * x 0%nat) by (apply Rsqr_pos_lt, X). nra. }
  pose proof (inverse_symat_lndet_ok trf tri LP m1 1 1 (fun _ _ => C) (fun _ _ => / C)) as IL.
  destruct (inverse_symat_lndet trf tri m1 1 1) as [m2 ld].
  destruct IL as (_ & I2 & I3); [intros i j IJ; assert (i = 0)%nat by lia; assert (j = 0)%nat by lia; subst; exact M2|intros i j _ _; reflexivity|exact IC|].
  specialize (I3 SPC). rewrite MatBridge2.detn1 in I3. cbn [for_ seq fold_left].
  assert (M3 : m2 0%nat = C) by (rewrite I2; [exact M1|left; lia]).
  destruct (line_prob_end_ok trf tri fails LP LC 1 1 (fun x => m2 x) (vtrend_matrix 1 1 (fun _ => 1%nat) (fun _ _ => 0) mem) fall (- ln C) (exp 0) (fun _ _ => C) L (fun _ _ => / C) (exp_pos _)) as (q & NM & EQ).
  - split; [intros i j _ _; reflexivity|]. intros x (i & I & X). assert (i = 0)%nat by lia. subst. unfold quad. cbn [sumn]. assert (0 < x 0%nat * x 0%nat) by (apply Rsqr_pos_lt, X).
    assert (0 < / C) by (apply Rinv_0_lt_compat; lra). nra.
  - intros i j I J. assert (i = 0)%nat by lia. assert (j = 0)%nat by lia. subst. cbn [sumn]. rewrite Rplus_0_l, Rinv_l by lra. reflexivity.
  - intros i j I J. assert (i = 0)%nat by lia. assert (j = 0)%nat by lia. subst. cbn [Nat.mul Nat.add]. rewrite M3, exp_0. ring.
  - intros i j I J. assert (i = 0)%nat by lia. assert (j = 0)%nat by lia. subst. rewrite LL. reflexivity.
  - rewrite MatBridge2.detn1, exp_0. rewrite <- ln_Rinv by lra. f_equal. field. lra.
  - intros v H j J. specialize (H 0%nat ltac:(lia)). assert (j = 0)%nat by lia. subst. unfold mv in H. cbn [sumn] in H. rewrite LL in H. lra.
  - eapply eq_trans; [apply (prob_end_shift _ _ _ _ _ _ _ _ _ ld _ _ EQ)|]. f_equal. rewrite I3.
    assert (PDi : spd 1 (fun _ _ : nat => C)) by exact SPC.
    assert (E0 : marginal_loglike 1 1 (fun _ _ => / C) (fun _ _ => C) L fall (- (1 / 2) * chi2 1 (fun _ _ => C) (resid 1 L fall q) - 1 / 2 * ln (detn 1 (fun _ _ => / C)) - 1 / 2 * ln (detn 1 (gram 1 (fun _ _ => C) L)))).
    { apply (marginal_link 1 1 (fun _ _ => / C) (fun _ _ => C) L fall q); auto.
      intros v H j J. specialize (H 0%nat ltac:(lia)). assert (j = 0)%nat by lia. subst. unfold mv in H. cbn [sumn] in H. rewrite LL in H. lra. }
    apply one_marginal in E0; [rewrite E0; field| |apply inverse_both|exact LL].
    + apply Rinv_0_lt_compat. lra.
    + intros i j I J. assert (i = 0)%nat by lia. assert (j = 0)%nat by lia. subst. cbn [sumn]. rewrite Rplus_0_l, Rinv_l by lra. reflexivity.
Qed.
Print Assumptions C71_one_line_refuted.

(** The error given for the driving curve is too small: the best unbiased prediction from
    this point has error 1 (it ignores the data, as the trend may be anything), the program
    gives less. *)
Theorem C72_error_refuted : forall dgesol dget fall mem, dgesol_spec dgesol -> dget_spec dget ->
  exists SS Si L u, one_ok /\ one_described SS Si L /\
    target_covariance None (fun j => response tophat 1 (KernelSpec.stored exp (fun _ => 0) 3)) (exp 0) (exp 0) [0%nat; 1%nat] (line_time (fun _ _ => 0)) 0 u /\
    let out := rec_vmap dgesol dget 1 (fun _ => 1%nat) (fun _ _ => 0) (fun _ _ => 1) (fun _ => 1) fall 1 K_one (fun _ => 0) 0 (fun _ => 3%nat) mem mem mem nall_one (fun _ => 0) mem mem mem mem mem in
    best_value 1 1 SS L u 1 (trend_of 1 0 0) fall (rec_f out 0%nat) /\
    forall w, unbiased 1 1 L (trend_of 1 0 0) w -> error_variance 1 SS u 1 w = 1 /\ rec_fe out 0%nat * rec_fe out 0%nat < 1.
Proof.
  intros dgesol dget fall mem DG DI.
  destruct (C71_described 1 (fun _ => 1%nat) (fun _ _ => 0) (fun _ _ => 1) (fun _ => 1) 1 (fun _ => 0) (fun _ => 0%nat) (fun _ _ => 3%nat) 0 mem mem mem mem 0 mem (fun x => x) 1 false 1 I one_is_ok) as (SS & Si & L & D).
  destruct (C72_light_curves 1 (fun _ => 1%nat) (fun _ _ => 0) (fun _ _ => 1) (fun _ => 1) fall 1 (fun _ => 0) (fun _ => 0%nat) (fun _ _ => 3%nat) 0 mem mem mem nall_one (fun _ => 0) mem mem mem mem mem
    dgesol dget (fun x => x) 1 false 1 I SS Si L one_is_ok ltac:(lia) DG DI D) as [_ H].
  destruct (H 0%nat 0%nat ltac:(lia) ltac:(cbn; lia)) as (u & V & T1 & T2 & BV & KE). cbn [PropEnd.curve_of] in T1, T2. change (total nall_one 0 + 0)%nat with 0%nat in *. cbv beta in *.
  cbn [target_variance] in T2. rewrite exp_0, Rmult_1_l in T2. subst V.
  set (out := rec_vmap _ _ _ _ _ _ _ _ _ _ _ _ _ _ _ _ _ _ _ _ _ _ _) in *.
  exists SS, Si, L, u. split; [exact one_is_ok|]. split; [exact D|]. split; [exact T1|]. split; [exact BV|].
  assert (LL : L 0%nat 0%nat = 1).
  { pose proof (lines_L 1 (fun _ => 1%nat) (fun _ _ => 0) (fun _ _ => 1) (fun _ => 1) 1 (fun _ => 0) (fun _ _ => 3%nat) 0 mem L one_is_ok (proj2 (proj2 D)) 0%nat 0%nat ltac:(cbn; lia) ltac:(cbn; lia)) as X.
    rewrite <- X. reflexivity. }
  destruct (lines_pd 1 (fun _ => 1%nat) (fun _ _ => 0) (fun _ _ => 1) (fun _ => 1) 1 (fun _ => 0) (fun _ => 0%nat) (fun _ _ => 3%nat) 0 1 false 1 SS one_is_ok (proj1 D)) as [_ PD].
  assert (SP : 0 < SS 0%nat 0%nat).
  { specialize (PD (fun _ => 1) ltac:(exists 0%nat; split; [cbn; lia|lra])). cbn [total Nat.add sumn] in PD. lra. }
  assert (U : 0 < u 0%nat).
  { destruct (T1 0%nat ltac:(cbn; lia)) as (d & k & v & L1 & -> & C). cbn [locate Nat.ltb Nat.leb map seq Nat.sub option_map fst snd] in L1. injection L1 as <- <-.
    assert (V : v = k_lc K_one 0 0 0).
    { eapply wl_unique; [exact C|]. exact (proj1 (EndProofs.plain_exact (fun x => x) 1 false (fun _ => 0%nat) (fun _ _ => 3%nat) 1 (fun _ => 0) 0 1 I) 0 0 0%nat ltac:(lia)). }
    rewrite lc_one in V by (rewrite Rminus_0_r, Rabs_R0; lra). destruct z_range as [Z _].
    replace (- (0 - 0 + 1)) with (-1) in V by ring. replace (0 - 0 - 1) with (-1) in V by ring. rewrite exp_0. lra. }
  intros w UB. assert (W : w 0%nat = 0).
  { specialize (UB (fun _ => 1)). cbn [sumn trend_of] in UB. rewrite LL in UB. lra. }
  split.
  - unfold error_variance. cbn [sumn]. rewrite W. ring.
  - destruct KE as (_ & _ & M). change (total (fun _ : nat => 1%nat) 1) with 1%nat in M.
    eapply Rle_lt_trans; [apply (M (fun _ => u 0%nat / SS 0%nat 0%nat))|]. unfold error_variance. cbn [sumn].
    assert (0 < u 0%nat * u 0%nat / SS 0%nat 0%nat) by (apply Rdiv_lt_0_compat; [apply Rmult_lt_0_compat|]; exact U || exact SP).
    match goal with |- ?a < 1 => replace a with (1 - u 0%nat * u 0%nat / SS 0%nat 0%nat) by (field; lra) end. lra.
Qed.
Print Assumptions C72_error_refuted.

(** ** Cases meeting the hypotheses *)
(** two lines of three points, not in the order of time, linear trends (as in C69_case) *)
Lemma two_ok : lines_ok 2 (fun _ => 3%nat) PropEnd.case_tl (fun _ => PropEnd.case_e) (fun _ => 1) 2 (fun _ => 0) (fun _ j => (3 + 7 * j)%nat) 0.
Proof.
  split; [lia|]. split.
  - intros j i J I. unfold line_error2, PropEnd.case_e. rewrite exp_0. nra.
  - intros j J. exists (fun i => i). split; [intros; lia|]. intros a b X Y E. unfold PropEnd.case_tl in E. apply INR_eq in E. lia.
Qed.
Example C71_case fall mem : exists SS Si L p,
  lines_described_by 2 (fun _ => 3%nat) PropEnd.case_tl (fun _ => PropEnd.case_e) (fun _ => 1) 2 (fun _ => 0) (fun _ => 0%nat) (fun _ j => (3 + 7 * j)%nat) 0
    (fun j => response exponential 2 (KernelSpec.stored exp (fun _ => 0) (3 + 7 * j))) SS Si L
  /\ prob_vmap ref_dsytrf ref_dsytri (fun _ _ _ => false) 2 (fun _ => 3%nat) PropEnd.case_tl (fun _ => PropEnd.case_e) (fun _ => 1) fall 2
      (pointers (fun _ => 0) 3 false (fun _ => 0%nat) (fun _ j => (3 + 7 * j)%nat) 2 (fun _ => 0) 0) (fun _ => 0) 0 (fun j => (3 + 7 * j)%nat) mem mem mem 0 100 mem = Some p
  /\ marginal_loglike 6 4 SS Si L fall p.
Proof.
  assert (G : good (fun _ => 0) 3 false (exp 0) 2 2 (fun _ => 0) (fun j => (3 + 7 * j)%nat)) by (intros j _ k _; right; reflexivity).
  destruct (C71_described 2 (fun _ => 3%nat) PropEnd.case_tl (fun _ => PropEnd.case_e) (fun _ => 1) 2 (fun _ => 0) (fun _ => 0%nat) (fun _ j => (3 + 7 * j)%nat) 0
    mem mem mem mem 0 mem (fun _ => 0) 3 false 2 G two_ok) as (SS & Si & L & D).
  destruct lapack_exists as (LP & LC & _).
  destruct (C71_likelihood 2 (fun _ => 3%nat) PropEnd.case_tl (fun _ => PropEnd.case_e) (fun _ => 1) fall 2 (fun _ => 0) (fun _ => 0%nat) (fun _ j => (3 + 7 * j)%nat) 0
    mem mem mem 0 100 mem ref_dsytrf ref_dsytri (fun _ _ _ => false) (fun _ => 0) 3 false 2 G SS Si L two_ok ltac:(lia) LP LC) as (p & P1 & P2); [left; cbn; lia|exact D|].
  exists SS, Si, L, p. split; [exact D|]. split; [exact P1|exact P2].
Qed.
(** reconstruction at five times of each curve *)
Example C72_case fall tall mem : exists SS Si L,
  best_lines 2 (fun _ => 3%nat) PropEnd.case_tl fall 2 (fun _ => 0) (fun _ => 0%nat) (fun _ j => (3 + 7 * j)%nat) 0 (fun _ => 5%nat) tall 3 false 2 SS Si L
   (rec_vmap ref_dgesol ref_dget 2 (fun _ => 3%nat) PropEnd.case_tl (fun _ => PropEnd.case_e) (fun _ => 1) fall 2
      (pointers (fun _ => 0) 3 false (fun _ => 0%nat) (fun _ j => (3 + 7 * j)%nat) 2 (fun _ => 0) 0) (fun _ => 0) 0 (fun j => (3 + 7 * j)%nat) mem mem mem (fun _ => 5%nat) tall mem mem mem mem mem).
Proof.
  assert (G : good (fun _ => 0) 3 false (exp 0) 2 2 (fun _ => 0) (fun j => (3 + 7 * j)%nat)) by (intros j _ k _; right; reflexivity).
  destruct (C71_described 2 (fun _ => 3%nat) PropEnd.case_tl (fun _ => PropEnd.case_e) (fun _ => 1) 2 (fun _ => 0) (fun _ => 0%nat) (fun _ j => (3 + 7 * j)%nat) 0
    mem mem mem mem 0 mem (fun _ => 0) 3 false 2 G two_ok) as (SS & Si & L & D).
  exists SS, Si, L.
  exact (C72_light_curves 2 (fun _ => 3%nat) PropEnd.case_tl (fun _ => PropEnd.case_e) (fun _ => 1) fall 2 (fun _ => 0) (fun _ => 0%nat) (fun _ j => (3 + 7 * j)%nat) 0
    mem mem mem (fun _ => 5%nat) tall mem mem mem mem mem ref_dgesol ref_dget (fun _ => 0) 3 false 2 G SS Si L two_ok ltac:(lia) dgesol_exists dget_exists D).
Qed.
