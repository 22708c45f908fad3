(** C106: what the line modes do with a set without lines.  The reader accepts a set with
    a continuum only (src/read.c:570-583, src/read.c:584-603); the partitioned inversion
    (src/mathfun.c:1000-1075) stores the inverse of the covariance matrix of the data only
    when it has added the last line, so that without lines the matrix itself is used in
    the place of its inverse.  Real arithmetic, no rounding. *)
From Coq Require Import Reals List Arith Lia Lra Psatz.
From Coquelicot Require Import Coquelicot.
From Verif Require Import CPrelude SemisepModel SemisepProofs SemisepProofs2 MatBridge MatBridge2 SemisepProofs3 PartProofs PartProofs2 KernelCalc KernelSpec KernelModel KernelGauss2 PartModel
  CovModel LikeModel PredModel PropPart PropSemisep GlsAlgebra LikeProofs PropLike PredProofs PropPred.
From Verif Require Import PropCov MixSpec PropKernel MixModel PropMix PsdCore PsdKernel PropPsd EndModel.
From Verif Require EndProofs PropEnd PropVmap LuDet.
Import ListNotations.
Open Scope R_scope.

(** ** What the statements say *)
(** row i, column j of the trends: t_i^j *)
Definition powers (t : arr) (i j : nat) : R := t i ^ j.
(** a continuum with times in order, of equal times only with errors, at least nq of the
    times different *)
Definition continuum_ok (nq n : nat) (syserr : R) (t fe : arr) : Prop :=
  (1 <= nq)%nat /\ (1 <= n)%nat /\ proper_times n syserr t fe /\ enough_times nq n t.

Section Bare.
Variable n : nat.
Variables t fe : arr.
Variable em : R.
Variable nline : nat -> nat.
Variables tline fel : nat -> arr.
Variable eml : nat -> R.
Variable y : arr.
Variable nq : nat.
Variable K : kernels.
Variable pm : arr.
Variable ic : nat.
Variable il : nat -> nat.
Variables lc ll PS mem : arr.
Variables A wk : nat.
Variables L0 W0 D0 phi0 : arr.
Context {IP : Type}.
Variable dsytrf : nat -> (nat -> nat -> R) -> (nat -> nat -> R) * IP.
Variable dsytri : nat -> (nat -> nat -> R) -> IP -> nat -> nat -> R.
Variable dsytri_fails : nat -> (nat -> nat -> R) -> IP -> bool.
Variables dtrtri dlauum : nat -> arr -> arr.
Variable nall : nat -> nat.
Variables tall US AS Lr0 f0 PE0 : arr.
Notation taud := (exp (pm (ic + 2)%nat)).
Notation sigma := (exp (pm (ic + 1)%nat) * sqrt taud).
Notation syserr := ((exp (pm (ic + 0)%nat) - 1) * em).
(** the covariance matrix of the data, and what is used as its inverse *)
Notation C := (covariance (sigma * sigma) taud syserr t fe).
Notation W := (fun i j => C i j / (sigma * sigma * (sigma * sigma))).
Notation ok := (continuum_ok nq n syserr t fe).
Notation likelihood := (prob_set dsytrf dsytri dsytri_fails dtrtri dlauum n t fe em 0 nline tline fel eml y nq K pm ic il lc ll PS mem A wk L0 W0 D0 phi0).
Notation reconstruction := (rec_set dsytrf dsytri dtrtri dlauum n t fe em 0 nline tline fel eml y nq K pm ic il PS mem A wk L0 W0 D0 phi0 nall tall US AS Lr0 f0 PE0).
Notation reconstruction_mmap := (rec_set_mmap dsytrf dsytri dtrtri dlauum n t fe em 0 nline tline fel eml y nq K pm ic il lc ll PS mem A wk L0 W0 D0 phi0 nall tall US AS Lr0 f0 PE0).

Lemma taud_pos : 0 < taud. Proof. apply exp_pos. Qed.
Lemma sg_pos : 0 < sigma. Proof. apply Rmult_lt_0_compat; [apply exp_pos|apply sqrt_lt_R0, exp_pos]. Qed.
Notation K0 := (pointers (fun x => x) 1 false (fun _ => ic) (fun _ => il) 0 pm 0).
Notation psi0 := (fun j => response (PropCov.shape_of 1) 0 (KernelSpec.stored (decode false) pm (il j))).
Lemma K0_exact : EndProofs.exact_kernels taud 0 psi0 K0.
Proof. exact (EndProofs.plain_exact (fun x => x) 1 false (fun _ => ic) (fun _ => il) 0 pm 0 0 I). Qed.
Lemma points_n : all_points n 0 nline = n. Proof. unfold all_points, line_start. cbn. lia. Qed.
Lemma entry_filled PC : EndProofs.filled n t fe em 0 nline tline fel eml pm ic il psi0 PC ->
  stored (EndModel.put mem A (all_points n 0 nline * all_points n 0 nline) PC) A n (fun i j => C i j / (sigma * sigma)).
Proof.
  intros F i j I J. pose proof (EndProofs.filled_cov n t fe em 0 nline tline fel eml pm ic il psi0 PC F) as D.
  pose proof (EndProofs.filled_stored n t fe em 0 nline tline fel eml pm ic il psi0 PC _ mem A F D) as ST.
  cbn [map seq list_sum fold_right] in ST. rewrite Nat.add_0_r in ST. rewrite (ST i j I J). f_equal.
  exact (EndProofs.con_block n t fe em 0 nline tline fel eml pm ic il psi0 _ i j D I J).
Qed.
Lemma C_spd : ok -> spd n C.
Proof.
  intros (_ & _ & P & _). split.
  - intros i j _ _. unfold covariance. rewrite (Rabs_minus_sym (t i)). destruct (Nat.eqb_spec i j) as [->|N]; [rewrite Nat.eqb_refl; reflexivity|].
    destruct (Nat.eqb_spec j i); [congruence|reflexivity].
  - intros x X. unfold quad. pose proof (C28_positive_definite n (sigma * sigma) taud syserr t fe x ltac:(pose proof sg_pos; nra) taud_pos P X) as H. exact H.
Qed.
Lemma W_spd : ok -> spd n W.
Proof.
  intros OK. pose proof (C_spd OK) as [X1 X2]. pose proof sg_pos as SP. set (s4 := sigma * sigma * (sigma * sigma)).
  assert (S4 : 0 < / s4) by (apply Rinv_0_lt_compat; unfold s4; apply Rmult_lt_0_compat; nra). split.
  - intros i j I J. cbv beta. rewrite (X1 i j I J). reflexivity.
  - intros x X. specialize (X2 x X). unfold quad in X2 |- *.
    rewrite (sumn_ext n _ (fun i => / s4 * sumn n (fun j => x i * C i j * x j))); [rewrite sumn_scal; apply Rmult_lt_0_compat; assumption|].
    intros i _. rewrite <- sumn_scal. apply sumn_ext. intros j _. unfold Rdiv. ring.
Qed.
Lemma entry0 m x : (m < nq)%nat -> entry nq 0 x m = x ^ m.
Proof.
  intros M. unfold entry. cbn [Nat.mul Nat.add Nat.leb andb]. destruct (Nat.ltb_spec m nq); [|lia]. rewrite Nat.sub_0_r. reflexivity.
Qed.
Lemma trends_n : (1 <= nq)%nat -> forall i j, (i < n)%nat -> (j < nq)%nat -> trend_matrix nq 0 n t nline tline L0 (i * (nq * (1 + 0)) + j)%nat = powers t i j.
Proof.
  intros NQ i j I J. pose proof (trend_matrix_ok nq 0 n t nline tline L0 NQ 0%nat i j (le_n 0) I ltac:(lia)) as H. cbn [psum Nat.add] in H. cbn [Nat.add].
  rewrite H. cbn [times_of]. apply entry0, J.
Qed.
Lemma powers_inj : ok -> forall v, (forall i, (i < n)%nat -> mv nq (powers t) v i = 0) -> forall j, (j < nq)%nat -> v j = 0.
Proof.
  intros (NQ & _ & _ & ET) v H j J.
  apply (design_inj nq 1 (fun _ => n) (fun _ => t) (powers t)); try lia.
  - intros c k m Cc KK M. assert (c = 0)%nat by lia. subst. cbn [psum Nat.add]. rewrite entry0 by lia. reflexivity.
  - intros c Cc. exact ET.
  - intros i I. cbn [psum Nat.add] in I. rewrite Nat.mul_1_r. apply H, I.
Qed.
(** what stands in the place of PCmat afterwards *)
Lemma not_inverted PC : ok -> dtrtri_spec dtrtri -> dlauum_spec dlauum -> apart A (n * n) wk (n * n) ->
  stored (EndModel.put mem A (all_points n 0 nline * all_points n 0 nline) PC) A n (fun i j => C i j / (sigma * sigma)) ->
  exists mem' ld, inverse_semiseparable_iter dsytrf dsytri dtrtri dlauum t 1 (1 / taud) (fun i => fe i / sigma) (syserr / sigma) W0 D0 phi0
      (EndModel.put mem A (all_points n 0 nline * all_points n 0 nline) PC) A (line_start n nline 0) (fun k => match k with O => n | S q => nline q end) 0 wk = (mem', ld)
    /\ stored mem' A n (fun i j => C i j / (sigma * sigma)) /\ ld = ln (detn n (fun i j => / (sigma * sigma) * C i j)).
Proof.
  intros (_ & N & P & _) HT HL AP ST. unfold inverse_semiseparable_iter. pose proof sg_pos as SP.
  set (M := EndModel.put mem A _ PC) in *.
  assert (P' : proper_times n (syserr / sigma) t (fun i => fe i / sigma)).
  { intros i I. destruct (P i I) as [H|(H & E)]; [left; exact H|right]. split; [exact H|].
    assert (NZ : forall x, x <> 0 -> x / sigma <> 0) by (intros x X Z; apply X; apply Rmult_eq_reg_r with (/ sigma); [unfold Rdiv in Z; rewrite Z; ring|apply Rinv_neq_0_compat; lra]).
    destruct E as [E|E]; [left|right]; apply NZ, E. }
  pose proof (C27_lndet dtrtri dlauum n 1 taud (syserr / sigma) t (fun i => fe i / sigma) W0 D0 phi0 (fun x => M (wk + x)%nat) HT HL N Rlt_0_1 taud_pos P') as H.
  destruct (inverse_semiseparable dtrtri dlauum t n 1 (1 / taud) (fun i => fe i / sigma) (syserr / sigma) W0 D0 phi0 (fun x => M (wk + x)%nat)) as [[B ld] [[WW DD] phi]].
  destruct H as (_ & LD & _). cbn [for_ seq fold_left]. eexists. eexists. split; [reflexivity|]. split.
  - intros i j I J. rewrite store_out by (destruct AP; nia). apply ST; assumption.
  - rewrite LD. f_equal. apply detn_ext. intros i j I J. unfold covariance. destruct (Nat.eqb i j); field; split; apply Rgt_not_eq; try (apply sqrt_lt_R0); apply exp_pos.
Qed.

(** ** C106 *)
(** The likelihood of the set: whatever the kernels, the best trend and the misfit are
    those of weights proportional to the covariance matrix itself. *)
Theorem C106_value : ok -> dsytr_spec dsytrf dsytri -> dsytri_code dsytrf dsytri_fails -> dtrtri_spec dtrtri -> dlauum_spec dlauum -> apart A (n * n) wk (n * n) ->
  exists p q, likelihood = Some p /\ least_squares n nq W (powers t) y q /\
    p = - (1 / 2) * chi_square n W (residual nq (powers t) y q) - 1 / 2 * ln (detn n C) - 1 / 2 * ln (detn nq (normal_matrix n W (powers t))).
Proof.
  intros OK LP LC HT HL AP. pose proof OK as (NQ & N & _). pose proof sg_pos as SP. pose proof (C_spd OK) as PD.
  assert (ST := entry_filled _ (EndProofs.array_filled n t fe em 0 nline tline fel eml pm ic il psi0 K0 K0_exact lc ll PS mem A)).
  unfold prob_set, prob_line_set.
  change (array_matrix n t fe em 0 nline tline fel eml K pm ic il lc ll PS mem A) with (array_matrix n t fe em 0 nline tline fel eml K0 pm ic il lc ll PS mem A).
  destruct (not_inverted _ OK HT HL AP ST) as (mem' & ld & E & ST' & LD). cbv zeta. rewrite E. clear E.
  change (line_start n nline 0) with (all_points n 0 nline). rewrite points_n. replace (nq * (1 + 0))%nat with nq by lia.
  destruct (proj1 (det_inv n C)) as [Ci HI]; [pose proof (spd_det n _ PD); lra|].
  assert (S2 : 0 < sigma * sigma) by nra.
  pose proof (W_spd OK) as PW.
  destruct (proj1 (det_inv n W)) as [SS HS]; [pose proof (spd_det n _ PW); lra|].
  pose proof (spd_inv _ _ _ PW HS) as PS'.
  assert (HS' : inv_of n SS W) by (apply inv_swap; exact HS).
  destruct (line_prob_end_ok dsytrf dsytri dsytri_fails LP LC n nq (fun x => mem' (A + x)%nat) (trend_matrix nq 0 n t nline tline L0) y
    (ln (detn n (fun i j => / (sigma * sigma) * SS i j))) sigma W (powers t) SS SP PS' HS') as (q & NM & EQ); auto.
  - intros i j I J. rewrite Nat.add_assoc, (ST' i j I J). field. split; apply Rgt_not_eq; try (apply sqrt_lt_R0); apply exp_pos.
  - intros i j I J. rewrite <- (trends_n NQ i j I J). f_equal. lia.
  - exact (powers_inj OK).
  - destruct (marginal_link n nq SS W (powers t) y q _ PW (powers_inj OK) NM eq_refl) as (q' & MIN & E1).
    eexists. exists q'. split; [|split; [exact MIN|reflexivity]].
    eapply eq_trans; [apply (PropVmap.prob_end_shift _ _ _ _ _ _ _ _ _ ld _ _ EQ)|]. f_equal. rewrite E1, LD.
    rewrite (ln_det_scal n (/ (sigma * sigma)) C) by (auto; apply Rinv_0_lt_compat, S2). rewrite (ln_det_scal n (/ (sigma * sigma)) SS) by (auto; apply Rinv_0_lt_compat, S2). field.
Qed.
(** The reconstructed continuum: the trend is the best one for these weights, and the
    values follow it with these weights. *)
Lemma rec_value PC : ok -> dsytr_spec dsytrf dsytri -> dtrtri_spec dtrtri -> dlauum_spec dlauum -> apart A (n * n) wk (n * n) ->
  EndProofs.filled n t fe em 0 nline tline fel eml pm ic il psi0 PC ->
  let out := rec_with dsytrf dsytri dtrtri dlauum n t fe em 0 nline tline y nq K pm ic mem A wk L0 W0 D0 phi0 nall tall US AS Lr0 f0 PE0 PC in
  least_squares n nq W (powers t) y (rec_yq out) /\
  forall k, (k < nall 0%nat)%nat -> rec_f out k =
    sumn n (fun i => sigma * sigma * exp (- (Rabs (tall k - t i) / taud)) * sumn n (fun j => W i j * residual nq (powers t) y (rec_yq out) j)) + sumn nq (fun j => rec_yq out j * tall k ^ j).
Proof.
  intros OK LP HT HL AP F. pose proof OK as (NQ & N & _). pose proof sg_pos as SP. pose proof (C_spd OK) as PD.
  assert (ST := entry_filled _ F).
  unfold rec_with, rec_line_set.
  change (set_covar_Umat_line n t 0 nline tline pm ic (k_lc K) (k_ll K) (k_ll2 K)) with (set_covar_Umat_line n t 0 nline tline pm ic (k_lc K0) (k_ll K0) (k_ll2 K0)).
  set (AS' := set_covar_Amat_line _ _ _ _ _ _ _ _ _).
  destruct K0_exact as (H1 & H2 & H3 & H4 & _).
  pose proof (proj1 (cross n t 0 nline tline pm ic (k_lc K0) (k_ll K0) (k_ll2 K0) psi0 H1 H2 H3 nall tall US)) as HU.
  destruct (not_inverted _ OK HT HL AP ST) as (mem' & ld & E & ST' & LD). cbv zeta. rewrite E. clear E.
  change (line_start n nline 0) with (all_points n 0 nline). rewrite <- (EndProofs.n_points n 0 nline) in HU. rewrite points_n in HU |- *.
  set (U' := set_covar_Umat_line _ _ _ _ _ _ _ _ _ _ _ _ _ _) in *. replace (nq * (1 + 0))%nat with nq by lia.
  set (T := line_start (nall 0%nat) (fun k => nall (1 + k)%nat) 0). assert (TT : T = nall 0%nat) by (unfold T, line_start; cbn; lia).
  assert (S2 : 0 < sigma * sigma) by nra.
  pose proof (W_spd OK) as PW.
  destruct (proj1 (det_inv n W)) as [SS HS]; [pose proof (spd_det n _ PW); lra|].
  pose proof (spd_inv _ _ _ PW HS) as PS'.
  assert (HS' : inv_of n SS W) by (apply inv_swap; exact HS).
  pose proof (gram_spd _ _ _ _ PW (powers_inj OK)) as PG.
  destruct (proj1 (det_inv nq (gram n W (powers t)))) as [Gi HG]; [pose proof (spd_det _ _ PG); lra|].
  destruct (line_rec_end_ok dsytrf dsytri LP n nq T (fun x => mem' (A + x)%nat) (trend_matrix nq 0 n t nline tline L0) y U' AS' (rec_trend nq 0 nall tall Lr0) f0 PE0 sigma SS W (powers t) Gi SP PS' HS' HG (powers_inj OK)) as [R1 R2].
  - intros i j I J. rewrite Nat.add_assoc, (ST' i j I J). field. split; apply Rgt_not_eq; try (apply sqrt_lt_R0); apply exp_pos.
  - intros i j I J. rewrite <- (trends_n NQ i j I J). f_equal. lia.
  - split; [apply (ls_link n nq W (powers t) y Gi); auto; exact (powers_inj OK)|]. intros k KK.
    destruct (R2 k (fun i => sigma * sigma * exp (- (Rabs (tall k - t i) / taud))) (fun j => tall k ^ j) (sigma * sigma * AS' (k * T + k)%nat)) as [E1 _].
    + lia.
    + intros i I. replace (sigma * sigma * exp (- (Rabs (tall k - t i) / taud)) / (sigma * sigma)) with (exp (- (Rabs (tall k - t i) / taud))) by (field; split; apply Rgt_not_eq; try (apply sqrt_lt_R0); apply exp_pos).
      destruct (HU k i) as (c & k' & d & m & L1 & L2 & PCV).
      * cbn [map seq list_sum fold_right]. lia.
      * rewrite EndProofs.n_points in *. cbn [map seq list_sum fold_right]. lia.
      * cbn [map seq locate] in L1, L2. destruct (Nat.ltb_spec k (nall 0%nat)); [|lia]. destruct (Nat.ltb_spec i n); [|lia].
        injection L1 as <- <-. injection L2 as <- <-. cbn [point_cov] in PCV. cbn [map seq list_sum fold_right] in PCV.
        rewrite Nat.add_0_r in PCV. rewrite PCV. cbn [rtime time list_sum fold_right Nat.add]. f_equal. unfold rtime, tau, Rdiv. cbn [map seq list_sum fold_right Nat.add]. ring.
    + field. split; apply Rgt_not_eq; try (apply sqrt_lt_R0); apply exp_pos.
    + intros j J. pose proof (rec_trend_ok nq 0 nall tall Lr0 NQ 0%nat k j (le_n 0) KK ltac:(lia)) as H. cbn [psum Nat.add] in H. replace (nq * 1)%nat with nq in H by lia. rewrite H. apply entry0, J.
    + rewrite E1. set (q := mv nq Gi (mv n (tr (powers t)) (mv n W y))) in *. set (q' := rec_yq _) in *. unfold dot. f_equal.
      * apply sumn_ext. intros i I. cbv beta. f_equal. unfold mv. apply sumn_ext. intros j J. f_equal. rewrite resid_link. unfold resid, mv. do 2 f_equal.
        apply sumn_ext. intros l Hl. rewrite R1 by exact Hl. reflexivity.
      * apply sumn_ext. intros j J. rewrite R1 by exact J. ring.
Qed.
Notation follows out := (least_squares n nq W (powers t) y (rec_yq out) /\
  forall k, (k < nall 0%nat)%nat -> rec_f out k =
    sumn n (fun i => sigma * sigma * exp (- (Rabs (tall k - t i) / taud)) * sumn n (fun j => W i j * residual nq (powers t) y (rec_yq out) j)) + sumn nq (fun j => rec_yq out j * tall k ^ j)).
Theorem C106_curve : ok -> dsytr_spec dsytrf dsytri -> dtrtri_spec dtrtri -> dlauum_spec dlauum -> apart A (n * n) wk (n * n) ->
  follows reconstruction /\ follows reconstruction_mmap.
Proof.
  intros OK LP HT HL AP. split.
  - exact (rec_value _ OK LP HT HL AP (EndProofs.scalar_filled n t fe em 0 nline tline fel eml pm ic il psi0 K0 K0_exact PS mem A)).
  - exact (rec_value _ OK LP HT HL AP (EndProofs.array_filled n t fe em 0 nline tline fel eml pm ic il psi0 K0 K0_exact lc ll PS mem A)).
Qed.
End Bare.
Print Assumptions C106_value.
Print Assumptions C106_curve.

(** ** Where this is not what it should be *)
(** Two points at time 0 with errors 1 and 2, constant trend, all parameters 0
    (sigma = taud = 1). *)
Definition two_e (i : nat) : R := match i with O => 1 | _ => 2 end.
Lemma two_ok : continuum_ok 1 2 ((exp 0 - 1) * 1) (fun _ => 0) two_e.
Proof.
  split; [lia|]. split; [lia|]. split.
  - intros i I. right. split; [reflexivity|]. left. assert (i = 0)%nat by lia. subst. cbn. lra.
  - exists (fun i => i). split; [intros; lia|]. intros. lia.
Qed.
Notation C2 := (covariance (exp 0 * sqrt (exp 0) * (exp 0 * sqrt (exp 0))) (exp 0) ((exp 0 - 1) * 1) (fun _ => 0) two_e).
Lemma C2_entry i j : (i < 2)%nat -> (j < 2)%nat -> C2 i j = match i, j with O, O => 2 | S _, S _ => 5 | _, _ => 1 end.
Proof.
  intros I J. unfold covariance. rewrite exp_0, sqrt_1, Rminus_diag_eq, Rabs_R0 by reflexivity. unfold Rdiv. rewrite Rmult_0_l, Ropp_0, exp_0.
  assert (i = 0 \/ i = 1)%nat as [-> | ->] by lia; assert (j = 0 \/ j = 1)%nat as [-> | ->] by lia; cbn [Nat.eqb two_e]; ring.
Qed.
Lemma two_best y u V target value err : (forall i, (i < 2)%nat -> u i = 1) -> (forall v, target v = v 0%nat) ->
  best_prediction 2 1 C2 (powers (fun _ => 0)) u V target y value err -> value = (4 * y 0%nat + y 1%nat) / 5.
Proof.
  intros U TG (w & UB & -> & _ & _ & MIN & UNI).
  assert (B : forall x, unbiased 2 1 (powers (fun _ => 0)) target x <-> x 0%nat + x 1%nat = 1).
  { intros x. unfold unbiased, powers. cbn [sumn pow]. split; [intros H; specialize (H (fun _ => 1)); rewrite TG in H; lra|intros H v; rewrite TG; transitivity ((x 0%nat + x 1%nat) * v 0%nat); [ring|rewrite H; ring]]. }
  assert (V' : forall x, error_variance 2 C2 u V x = V - 2 * (x 0%nat + x 1%nat) + (2 * x 0%nat * x 0%nat + 2 * x 0%nat * x 1%nat + 5 * x 1%nat * x 1%nat)).
  { intros x. unfold error_variance. cbn [sumn]. rewrite !U, !C2_entry by lia. ring. }
  apply B in UB. set (x := fun i : nat => match i with O => 4 / 5 | _ => 1 / 5 end).
  pose proof (UNI x) as H. assert (E : forall k, (k < 2)%nat -> x k = w k).
  { apply H; [apply B; unfold x; lra|]. rewrite !V'. unfold x. replace (w 0%nat) with (1 - w 1%nat) by lra. pose proof (Rle_0_sqr (w 1%nat - 1 / 5)) as SQ. unfold Rsqr in SQ. lra. }
  cbn [sumn]. rewrite <- !E by lia. unfold x. lra.
Qed.
(** The fluxes 0 and 1: the best prediction at time 0 is 1/5, near the point with the
    smaller error; the curve has 2/3 there, nearer to the other one. *)
Theorem C106_curve_refuted : exists n nq t fe em (pm : arr) ic y (tall : arr), continuum_ok nq n ((exp (pm (ic + 0)%nat) - 1) * em) t fe /\
  forall IP (dsytrf : nat -> (nat -> nat -> R) -> (nat -> nat -> R) * IP) dsytri dtrtri dlauum nline tline fel eml K il PS mem A wk L0 W0 D0 phi0 US AS Lr0 f0 PE0,
  dsytr_spec dsytrf dsytri -> dtrtri_spec dtrtri -> dlauum_spec dlauum -> apart A (n * n) wk (n * n) ->
  let taud := exp (pm (ic + 2)%nat) in let sigma := exp (pm (ic + 1)%nat) * sqrt taud in
  let out := rec_set dsytrf dsytri dtrtri dlauum n t fe em 0 nline tline fel eml y nq K pm ic il PS mem A wk L0 W0 D0 phi0 (fun _ => 1%nat) tall US AS Lr0 f0 PE0 in
  forall V err, ~ best_prediction n nq (covariance (sigma * sigma) taud ((exp (pm (ic + 0)%nat) - 1) * em) t fe) (powers t)
    (fun i => sigma * sigma * exp (- (Rabs (tall 0%nat - t i) / taud))) V (fun v => sumn nq (fun j => v j * tall 0%nat ^ j)) y (rec_f out 0%nat) err.
Proof.
  exists 2%nat, 1%nat, (fun _ => 0), two_e, 1, (fun _ => 0), 0%nat, INR, (fun _ => 0). split; [exact two_ok|].
  intros IP trf tri trtri lauum nline tline fel eml K il PS mem A wk L0 W0 D0 phi0 US AS Lr0 f0 PE0 LP HT HL AP. cbv zeta. intros V err BP.
  assert (S1 : exp 0 * sqrt (exp 0) = 1) by (rewrite exp_0, sqrt_1; ring).
  assert (U1 : exp 0 * sqrt (exp 0) * (exp 0 * sqrt (exp 0)) * exp (- (Rabs (0 - 0) / exp 0)) = 1).
  { rewrite S1. rewrite Rminus_0_r, Rabs_R0. unfold Rdiv. rewrite Rmult_0_l, Ropp_0, exp_0. ring. }
  destruct (C106_curve 2 (fun _ => 0) two_e 1 nline tline fel eml INR 1 K (fun _ => 0) 0 il mem mem PS mem A wk L0 W0 D0 phi0
    trf tri trtri lauum (fun _ => 1%nat) (fun _ => 0) US AS Lr0 f0 PE0 two_ok LP HT HL AP) as [[LS F] _].
  set (out := rec_set _ _ _ _ _ _ _ _ _ _ _ _ _ _ _ _ _ _ _ _ _ _ _ _ _ _ _ _ _ _ _ _ _ _) in *.
  assert (BP' : rec_f out 0%nat = (4 * INR 0 + INR 1) / 5).
  { revert BP. apply two_best.
    - intros i I. exact U1.
    - intros v. cbn [sumn pow]. ring. }
  rewrite (F 0%nat ltac:(lia)) in BP'. set (q := rec_yq out 0%nat) in *.
  assert (Q : q = 2 / 3).
  { specialize (LS (fun _ => 2 / 3)). unfold chi_square, residual, powers in LS. cbn [sumn pow] in LS. fold q in LS.
    rewrite !C2_entry in LS by lia. rewrite !S1 in LS. cbn [INR] in LS. nra. }
  unfold residual, powers in BP'. cbn [sumn pow] in BP'. fold q in BP'. rewrite !C2_entry in BP' by lia. rewrite !U1, !S1, Q in BP'. cbn [INR] in BP'. lra.
Qed.
Print Assumptions C106_curve_refuted.

(** ** A case meeting the hypotheses: these two points, whatever the work arrays *)
Example C106_case K y mem PS :
  prob_set ref_dsytrf ref_dsytri (fun _ _ _ => false) ref_dtrtri ref_dlauum 2 (fun _ => 0) two_e 1 0 (fun _ => 0%nat) (fun _ _ => 0) (fun _ _ => 0) (fun _ => 0) y 1 K (fun _ => 0) 0 (fun _ => 3%nat)
    mem mem PS mem 0 4 mem mem mem mem = Some (- (1 / 2) * (y 0%nat - y 1%nat) ^ 2 - ln 3 - ln 3).
Proof.
  destruct lapack_exists as (LP & LC & HT & HL).
  destruct (C106_value 2 (fun _ => 0) two_e 1 (fun _ => 0%nat) (fun _ _ => 0) (fun _ _ => 0) (fun _ => 0) y 1 K (fun _ => 0) 0 (fun _ => 3%nat) mem mem PS mem 0 4 mem mem mem mem
    ref_dsytrf ref_dsytri (fun _ _ _ => false) ref_dtrtri ref_dlauum two_ok LP LC HT HL ltac:(left; cbn; lia)) as (p & q & E & LS & V).
  assert (S1 : exp 0 * sqrt (exp 0) = 1) by (rewrite exp_0, sqrt_1; ring).
  assert (Q : q 0%nat = (y 0%nat + 2 * y 1%nat) / 3).
  { specialize (LS (fun _ => (y 0%nat + 2 * y 1%nat) / 3)). unfold chi_square, residual, powers in LS. cbn [sumn pow] in LS.
    rewrite !C2_entry in LS by lia. rewrite !S1 in LS. nra. }
  rewrite E. f_equal. rewrite V. rewrite LuDet.detn2, MatBridge2.detn1. unfold normal_matrix, chi_square, residual, powers. cbn [sumn pow].
  rewrite !C2_entry by lia. rewrite !S1, Q.
  assert (L9 : forall x, x = 9 -> ln x = 2 * ln 3) by (intros x ->; replace 9 with (3 * 3) by lra; rewrite ln_mult by lra; lra).
  match goal with |- _ - 1 / 2 * ln ?a - 1 / 2 * ln ?b = _ => rewrite (L9 a), (L9 b) by field end. field.
Qed.
