(** The matrices the routines fill are the covariances of the data, and meet the
    hypotheses of the likelihood (C30) and of the reconstruction (C60). *)
From Coq Require Import Reals List Arith Lia Lra Psatz.
From Coquelicot Require Import Coquelicot.
From Verif Require Import SemisepModel SemisepProofs SemisepProofs2 MatBridge MatBridge2 SemisepProofs3 PartProofs PartProofs2 KernelCalc KernelSpec KernelModel KernelGauss2 PartModel CovModel LikeModel PredModel
  PropPart PropSemisep GlsAlgebra LikeProofs PropLike PropPred.
From Verif Require CovProofs.
From Verif Require Import PropCov MixSpec PropKernel MixModel PropMix PsdCore PsdKernel PropPsd EndModel.
Import ListNotations.
Open Scope R_scope.

(** the routines compute the covariances *)
Definition exact_kernels (taud : R) (nl : nat) (psi : nat -> R -> R) (K : kernels) : Prop :=
  (forall t s j, (j < nl)%nat -> cov_cl (psi j) taud t s (k_lc K t s j))
  /\ (forall t s j l, (j < nl)%nat -> (l < nl)%nat -> cov_ll (psi j) (psi l) taud t s (k_ll2 K t s j l))
  /\ (forall t s j, k_ll K t s j = k_ll2 K t s j j)
  /\ (forall t s j l, (j < nl)%nat -> (l < nl)%nat -> k_ll2 K t s j l = k_ll2 K s t l j)
  /\ (forall t1 n1 t2 n2 l B, block n1 n2 (k_lc_array K t1 n1 t2 n2 l B) (fun i m => k_lc K (t1 i) (t2 m) l))
  /\ (forall t1 n1 l B, lower_block n1 (k_ll_array K t1 n1 l B) B (fun i m => k_ll K (t1 i) (t1 m) l))
  /\ (forall t1 n1 t2 n2 l1 l2 B, block n1 n2 (k_ll2_array K t1 n1 t2 n2 l1 l2 B) (fun i m => k_ll2 K (t1 i) (t2 m) l1 l2)).

Lemma plain_exact log_erfc type_tf flag icp ilp ncomp pm nds nl :
  good log_erfc type_tf flag (exp (pm (icp nds + 2)%nat)) ncomp nl pm (ilp nds) ->
  exact_kernels (exp (pm (icp nds + 2)%nat)) nl (fun j => response (PropCov.shape_of type_tf) ncomp (KernelSpec.stored (decode flag) pm (ilp nds j)))
    (pointers log_erfc type_tf flag icp ilp ncomp pm nds).
Proof.
  intros G. destruct (kernel_facts log_erfc type_tf flag icp ilp ncomp pm nds nl G) as (H1 & H2 & H3 & H4).
  destruct (kernel_arrays log_erfc type_tf flag icp ilp ncomp pm nds) as (H5 & H6 & H7). repeat split; assumption.
Qed.
Lemma clear_scales_weaken taud n ty c : clear_scales' taud n ty c -> clear_scales taud n ty c.
Proof. intros H k K L. destruct (H k K L) as [E|[_ E]]; [left|right]; exact E. Qed.
Lemma mixed_exact log_erfc erfc icp ilp ncomp ty pm nds nl b1 b2 :
  log_erfc_correct log_erfc -> erfc_correct erfc -> digits ncomp ty ->
  (forall j, (j < nl)%nat -> clear_scales' (exp (pm (icp nds + 2)%nat)) ncomp ty (KernelSpec.stored exp pm (ilp nds j))) ->
  exact_kernels (exp (pm (icp nds + 2)%nat)) nl (fun j => mixed_response ncomp ty (KernelSpec.stored exp pm (ilp nds j)))
    (mixed_kernels log_erfc erfc icp ilp ncomp ty pm nds b1 b2).
Proof.
  intros HL HE DG C. unfold exact_kernels, mixed_kernels; cbn [k_lc k_ll k_ll2 k_lc_array k_ll_array k_ll2_array]. repeat apply conj.
  - intros t s j J. apply C61_mixed_continuum_line; auto. apply clear_scales_weaken; auto.
  - intros t s j l J L. apply C62_mixed_line_line; auto.
  - reflexivity.
  - intros t s j l J L. apply C63_mixed_symmetric; auto. right. split; apply clear_scales_weaken; auto.
  - intros t1 n1 t2 n2 l B. exact (proj1 (C63_mixed_arrays log_erfc erfc icp ilp ncomp ty pm nds l l t1 n1 t2 n2 B b1)).
  - intros t1 n1 l B. exact (proj2 (proj2 (C63_mixed_arrays log_erfc erfc icp ilp ncomp ty pm nds l l t1 n1 t1 n1 B b2))).
  - intros t1 n1 t2 n2 l1 l2 B. exact (proj1 (proj2 (C63_mixed_arrays log_erfc erfc icp ilp ncomp ty pm nds l1 l2 t1 n1 t2 n2 B b2))).
Qed.
Lemma plain_shapes type_tf flag ncomp pm st : of_shapes (response (PropCov.shape_of type_tf) ncomp (KernelSpec.stored (decode flag) pm st)).
Proof.
  exists ncomp, (fun _ => Nat.min type_tf 3), (KernelSpec.stored (decode flag) pm st). split.
  - intros k _. split; [lia|apply exp_pos].
  - intros a. unfold response, mixed_response. replace (MixSpec.shape_of (Nat.min type_tf 3)) with (PropCov.shape_of type_tf); [reflexivity|].
    destruct type_tf as [|[|[|k]]]; try reflexivity. replace (Nat.min (S (S (S k))) 3) with 3%nat by lia. reflexivity.
Qed.
Lemma mixed_shapes ncomp ty pm st : digits ncomp ty -> of_shapes (mixed_response ncomp ty (KernelSpec.stored exp pm st)).
Proof.
  intros D. exists ncomp, ty, (KernelSpec.stored exp pm st). split; [|reflexivity]. intros k K. split; [apply D, K|apply exp_pos].
Qed.

(** positions *)
Lemma total_seq f k : list_sum (map f (seq 0 k)) = total f k.
Proof. induction k as [|k IH]; [reflexivity|]. rewrite seq_S, map_app, list_sum_app, IH. cbn. lia. Qed.
Lemma sizes_seq ncon nline nl : ncon :: map nline (seq 0 nl) = map (narr_of ncon nline) (seq 0 (1 + nl)).
Proof. cbn [seq map Nat.add]. rewrite <- seq_shift, map_map. reflexivity. Qed.
Lemma locate_total f k c i : (c < k)%nat -> (i < f c)%nat -> locate (map f (seq 0 k)) (total f c + i)%nat = Some (c, i).
Proof.
  intros C I. rewrite <- total_seq. rewrite <- (firstn_seq c 0 k) by lia. rewrite <- firstn_map. apply locate_app.
  - rewrite nth_indep with (d' := f 0%nat) by (rewrite map_length, seq_length; lia). rewrite map_nth, seq_nth by lia. exact I.
  - rewrite map_length, seq_length. exact C.
Qed.
Lemma total_mono f a b : (a <= b)%nat -> (total f a <= total f b)%nat.
Proof. induction 1; [lia|cbn [total]; lia]. Qed.
Lemma put_at mem A len PC x : (x < len)%nat -> put mem A len PC (A + x)%nat = PC x.
Proof.
  intros X. unfold put. destruct (Nat.leb_spec A (A + x)); [|lia]. destruct (Nat.ltb_spec (A + x) (A + len)); [|lia].
  cbn [andb]. f_equal. lia.
Qed.

Section One.
Variable ncon : nat.
Variables tcon fe_con : arr.
Variable error_mean_con : R.
Variable nl : nat.
Variable nline : nat -> nat.
Variables tline fe_line : nat -> arr.
Variable error_mean_line : nat -> R.
Variable pm : arr.
Variable idx_con : nat.
Variable idx_line : nat -> nat.
Variable psi : nat -> R -> R.
Variable K : kernels.
Notation taud := (exp (pm (idx_con + 2)%nat)).
Notation sig := (exp (pm (idx_con + 1)%nat) * sqrt taud).
Notation sizes := (ncon :: map nline (seq 0 nl)).
Notation n := (list_sum sizes).
Notation dtime := (time tcon tline).
Hypothesis EK : exact_kernels taud nl psi K.
Hypothesis SH : forall j, (j < nl)%nat -> of_shapes (psi j).
Definition squared_error (c i : nat) : R :=
  match c with
  | O => fe_con i ^ 2 + ((exp (pm idx_con) - 1) * error_mean_con) ^ 2
  | S j => fe_line j i ^ 2 + ((exp (pm (idx_line j)) - 1) * error_mean_line j) ^ 2
  end.
Hypothesis EP : forall c i, (c < length sizes)%nat -> (i < nth c sizes 0)%nat -> 0 < squared_error c i.

Lemma sig_pos : 0 < sig.
Proof. apply Rmult_lt_0_compat; [apply exp_pos|apply sqrt_lt_R0, exp_pos]. Qed.
Lemma n_points : all_points ncon nl nline = n.
Proof. unfold all_points. rewrite line_start_total, sizes_seq, total_seq. reflexivity. Qed.
Lemma n_tot : total (narr_of ncon nline) (1 + nl) = n.
Proof. rewrite sizes_seq, total_seq. reflexivity. Qed.
Lemma noise_sq c i : noise_of fe_con error_mean_con fe_line error_mean_line pm idx_con idx_line c i = squared_error c i / (sig * sig).
Proof. unfold noise_of, squared_error. cbv zeta. destruct c; f_equal; ring. Qed.
Lemma len_sizes : length sizes = S nl.
Proof. cbn [length]. rewrite map_length, seq_length. reflexivity. Qed.

(** a matrix filled as C36 says is the covariance matrix over sigma^2 *)
Definition filled (PC : arr) : Prop := exists PS, holds_cov psi taud sizes sizes dtime dtime PS
  /\ adds_noise sizes (noise_of fe_con error_mean_con fe_line error_mean_line pm idx_con idx_line) PS PC.
Definition cov_matrix (PC : arr) (a b : nat) : R := sig * sig * PC (a * n + b)%nat.
Lemma filled_cov PC : filled PC -> data_covariance psi taud sig sizes dtime squared_error (cov_matrix PC).
Proof.
  intros (PS & H1 & H2) a b A B. destruct (H1 a b A B) as (c & i & d & m & L1 & L2 & C). destruct (H2 a b A B) as (c' & i' & L1' & E).
  rewrite L1 in L1'. injection L1' as <- <-. exists c, i, d, m, (PS (a * n + b)%nat). repeat (split; [assumption|]).
  unfold cov_matrix. rewrite E, noise_sq. pose proof sig_pos as P. destruct (Nat.eqb a b); field; split; apply Rgt_not_eq; try (apply sqrt_lt_R0); apply exp_pos.
Qed.
Lemma cov_unique S1 S2 a b : data_covariance psi taud sig sizes dtime squared_error S1 -> data_covariance psi taud sig sizes dtime squared_error S2 ->
  (a < n)%nat -> (b < n)%nat -> S1 a b = S2 a b.
Proof.
  intros H1 H2 A B. destruct (H1 a b A B) as (c & i & d & m & v & L1 & L2 & C & ->). destruct (H2 a b A B) as (c' & i' & d' & m' & v' & L1' & L2' & C' & ->).
  rewrite L1 in L1'. rewrite L2 in L2'. injection L1' as <- <-. injection L2' as <- <-.
  rewrite (point_cov_unique _ _ _ _ _ _ _ _ C C'). reflexivity.
Qed.
Lemma filled_stored PC S mem A : filled PC -> data_covariance psi taud sig sizes dtime squared_error S ->
  stored (put mem A (all_points ncon nl nline * all_points ncon nl nline) PC) A n (fun i j => S i j / (sig * sig)).
Proof.
  intros F D i j I J. rewrite n_points. replace (A + i * n + j)%nat with (A + (i * n + j))%nat by lia. rewrite put_at by nia.
  rewrite <- (cov_unique _ _ i j (filled_cov PC F) D I J). unfold cov_matrix. field. split; apply Rgt_not_eq; try (apply sqrt_lt_R0); apply exp_pos.
Qed.
Lemma scalar_filled PS mem A :
  filled (scalar_matrix ncon tcon fe_con error_mean_con nl nline tline fe_line error_mean_line K pm idx_con idx_line PS mem A).
Proof.
  destruct EK as (H1 & H2 & H3 & H4 & _). unfold scalar_matrix. rewrite n_points.
  pose proof (scalar_frame ncon tcon fe_con error_mean_con nl nline tline fe_line error_mean_line pm idx_con idx_line (k_lc K) (k_ll K) (k_ll2 K) (fun x => mem (A + x)%nat, PS)) as F.
  eexists. split; [exact (cov_intro _ _ _ _ _ _ _ _ _ _ _ _ _ _ _ psi H1 H2 H3 H4 _ (proj2 F))|].
  exact (proj1 (shape_intro _ _ _ _ _ _ _ _ _ _ _ _ _ _ _ _ _ F)).
Qed.
Lemma array_filled B1 B2 PS mem A :
  filled (array_matrix ncon tcon fe_con error_mean_con nl nline tline fe_line error_mean_line K pm idx_con idx_line B1 B2 PS mem A).
Proof.
  destruct EK as (H1 & H2 & H3 & H4 & H5 & H6 & H7). unfold array_matrix. rewrite n_points.
  pose proof (array_frame ncon tcon fe_con error_mean_con nl nline tline fe_line error_mean_line pm idx_con idx_line (k_lc K) (k_ll K) (k_ll2 K) _ _ _ H5 H6 H7 (fun x => mem (A + x)%nat, PS) B1 B2) as F.
  eexists. split; [exact (cov_intro _ _ _ _ _ _ _ _ _ _ _ _ _ _ _ psi H1 H2 H3 H4 _ (proj2 F))|].
  exact (proj1 (shape_intro _ _ _ _ _ _ _ _ _ _ _ _ _ _ _ _ _ F)).
Qed.

(** every data set has its covariance matrix, and that has an inverse *)
Lemma SH' : forall j, (S j < length sizes)%nat -> of_shapes (psi j).
Proof. intros j. rewrite len_sizes. intros J. apply SH. lia. Qed.
Lemma pd S : data_covariance psi taud sig sizes dtime squared_error S -> PropPart.symmetric n S /\ positive_definite n S.
Proof. intros D. exact (C68_data_positive_definite psi taud sig sizes dtime squared_error S (exp_pos _) sig_pos SH' EP D). Qed.
Lemma inverse_exists S : data_covariance psi taud sig sizes dtime squared_error S -> exists Si, is_inverse n S Si.
Proof.
  intros D. destruct (pd S D) as [SY PD]. destruct (proj1 (det_inv n S)) as [Si HI]; [pose proof (spd_det n S (spd_of _ _ SY PD)); lra|].
  exists Si. exact (inverse_both _ _ _ HI).
Qed.
Lemma con_block S i j : data_covariance psi taud sig sizes dtime squared_error S -> (i < ncon)%nat -> (j < ncon)%nat ->
  S i j = covariance (sig * sig) taud ((exp (pm (idx_con + 0)%nat) - 1) * error_mean_con) tcon fe_con i j.
Proof.
  intros D I J. assert (NN : (ncon <= n)%nat) by (cbn [list_sum fold_right]; lia).
  destruct (D i j ltac:(lia) ltac:(lia)) as (c & k & d & m & v & L1 & L2 & C & ->).
  cbn [locate] in L1, L2. destruct (Nat.ltb_spec i ncon); [|lia]. destruct (Nat.ltb_spec j ncon); [|lia].
  injection L1 as <- <-. injection L2 as <- <-. cbn [point_cov time] in C. subst v. unfold covariance, squared_error. rewrite Nat.add_0_r. f_equal. f_equal. f_equal. unfold Rdiv. ring.
Qed.
Lemma times_proper : (forall i, (S i < ncon)%nat -> tcon i <= tcon (S i)) -> proper_times ncon ((exp (pm (idx_con + 0)%nat) - 1) * error_mean_con) tcon fe_con.
Proof.
  intros O i I. destruct (O i I) as [L|E]; [left; exact L|right; split; [exact E|]].
  pose proof (EP 0 i ltac:(rewrite len_sizes; lia) ltac:(cbn [nth]; lia)) as P. cbn [squared_error] in P. rewrite Nat.add_0_r.
  set (s := (exp (pm idx_con) - 1) * error_mean_con) in *.
  destruct (Req_dec (fe_con i) 0) as [E0|]; [|left; assumption]. right. intros E1. rewrite E0, E1 in P. cbn in P. lra.
Qed.

Section Calls.
Context {IP : Type}.
Variable dsytrf : nat -> (nat -> nat -> R) -> (nat -> nat -> R) * IP.
Variable dsytri : nat -> (nat -> nat -> R) -> IP -> nat -> nat -> R.
Variable dsytri_fails : nat -> (nat -> nat -> R) -> IP -> bool.
Variables dtrtri dlauum : nat -> arr -> arr.
Variable fall : arr.
Variable nq : nat.
Variables Smat_lc Smat_ll PS mem : arr.
Variables A wk : nat.
Variables L0 W0 D0 phi0 : arr.
Hypothesis NQ : (1 <= nq)%nat.
Hypothesis NL : (1 <= nl)%nat.
Hypothesis NC : (1 <= ncon)%nat.
Hypothesis ORD : forall i, (S i < ncon)%nat -> tcon i <= tcon (S i).
Hypothesis ET : forall c, (c < 1 + nl)%nat -> enough_times nq (narr_of ncon nline c) (times_of tcon tline c).
Hypothesis AP : apart A (n * n) wk (2 * (n * n)).

Lemma prob_generic S Si L : lapack_ok dsytrf dsytri dsytri_fails dtrtri dlauum ->
  data_covariance psi taud sig sizes dtime squared_error S -> is_inverse n S Si -> trend_design nq (1 + nl) (narr_of ncon nline) (times_of tcon tline) L ->
  exists p, prob_set dsytrf dsytri dsytri_fails dtrtri dlauum ncon tcon fe_con error_mean_con nl nline tline fe_line error_mean_line fall nq K pm idx_con idx_line
     Smat_lc Smat_ll PS mem A wk L0 W0 D0 phi0 = Some p /\ marginal_loglike n (nq * (1 + nl)) S Si L fall p.
Proof.
  intros LP D IV TD. destruct (pd S D) as [SY PD]. unfold prob_set.
  pose proof (C30_likelihood IP dsytrf dsytri dsytri_fails dtrtri dlauum nq nl ncon tcon fe_con error_mean_con nline tline fall
    (pm (idx_con + 0)%nat) (pm (idx_con + 1)%nat) (pm (idx_con + 2)%nat)
    (put mem A (all_points ncon nl nline * all_points ncon nl nline) (array_matrix ncon tcon fe_con error_mean_con nl nline tline fe_line error_mean_line K pm idx_con idx_line Smat_lc Smat_ll PS mem A))
    A wk L0 W0 D0 phi0 S Si L) as H. cbv zeta in H. rewrite n_tot in H. apply H; auto.
  - apply times_proper, ORD.
  - intros i j I J. apply con_block; assumption.
  - apply filled_stored; [apply array_filled|exact D].
Qed.

Variable nall : nat -> nat.
Variables tall US AS Lr0 f0 PE0 : arr.
(** what is reconstructed at a point of curve c *)
Definition curve (c : nat) : option (R -> R) := match c with O => None | S j => Some (psi j) end.
Lemma rec_generic PC S Si L : dsytr_spec dsytrf dsytri -> dtrtri_spec dtrtri -> dlauum_spec dlauum -> filled PC ->
  data_covariance psi taud sig sizes dtime squared_error S -> is_inverse n S Si -> trend_design nq (1 + nl) (narr_of ncon nline) (times_of tcon tline) L ->
  let out := rec_with dsytrf dsytri dtrtri dlauum ncon tcon fe_con error_mean_con nl nline tline fall nq K pm idx_con mem A wk L0 W0 D0 phi0 nall tall US AS Lr0 f0 PE0 PC in
  least_squares n (nq * (1 + nl)) Si L fall (rec_yq out) /\
  forall c k, (c < 1 + nl)%nat -> (k < nall c)%nat ->
    let t := tall (total nall c + k)%nat in
    exists u V, target_covariance (curve c) psi taud sig sizes dtime t u /\ target_variance (curve c) taud sig t V /\
      best_prediction n (nq * (1 + nl)) S L u V (fun v => trend_at nq v c t) fall (rec_f out (total nall c + k)%nat) (rec_fe out (total nall c + k)%nat).
Proof.
  intros LS LT LL F D IV TD. destruct (pd S D) as [SY PD]. destruct EK as (H1 & H2 & H3 & H4 & _).
  unfold rec_with. set (M := put mem A _ PC).
  pose proof (proj1 (cross ncon tcon nl nline tline pm idx_con (k_lc K) (k_ll K) (k_ll2 K) psi H1 H2 H3 nall tall US)) as HU.
  pose proof (proj1 (recon nl pm idx_con (k_lc K) (k_ll K) (k_ll2 K) psi H1 H2 H3 H4 nall tall AS)) as HA. rewrite <- n_points in HU at 1.
  set (U' := set_covar_Umat_line _ _ _ _ _ _ _ _ _ _ _ _ _ _) in *. set (A' := set_covar_Amat_line _ _ _ _ _ _ _ _ _) in *.
  set (T := total nall (1 + nl)).
  assert (ET' : list_sum (map nall (seq 0 (Datatypes.S nl))) = T) by apply total_seq.
  pose (U := fun r k => sig * sig * U' (r * n + k)%nat). pose (V := fun r => sig * sig * A' (r * T + r)%nat).
  assert (SP := sig_pos).
  assert (TG : forall c k, (c < 1 + nl)%nat -> (k < nall c)%nat -> let r := (total nall c + k)%nat in (r < T)%nat /\
    target_covariance (curve c) psi taud sig sizes dtime (tall r) (U r) /\ target_variance (curve c) taud sig (tall r) (V r)).
  { intros c k C KK r. assert (R : (r < T)%nat).
    { unfold r, T. pose proof (total_mono nall (Datatypes.S c) (1 + nl) ltac:(lia)) as H. cbn [total] in H. lia. }
    assert (LR : locate (map nall (seq 0 (Datatypes.S nl))) r = Some (c, k)) by (apply locate_total; [lia|exact KK]).
    assert (RT : rtime nall tall c k = tall r) by (unfold rtime, r; rewrite total_seq; reflexivity).
    split; [exact R|]. split.
    - intros b B. destruct (HU r b ltac:(rewrite ET'; exact R) B) as (c' & k' & d & m & L1 & L2 & PCV). rewrite LR in L1. injection L1 as <- <-.
      exists d, m, (U' (r * n + b)%nat). split; [exact L2|]. split; [reflexivity|]. rewrite RT in PCV. destruct c, d; exact PCV.
    - destruct (HA r r ltac:(rewrite ET'; exact R) ltac:(rewrite ET'; exact R)) as (c' & k' & d & m & L1 & L2 & PCV). rewrite LR in L1, L2. injection L1 as <- <-. injection L2 as <- <-.
      rewrite ET', RT in PCV. unfold V. destruct c as [|j]; cbn [curve target_variance point_cov] in *.
      + rewrite PCV. rewrite Rminus_diag_eq, Rabs_R0 by reflexivity. unfold Rdiv. rewrite Ropp_0, Rmult_0_l, exp_0. ring.
      + eexists. split; [exact PCV|reflexivity]. }
  pose proof (C60_light_curves IP dsytrf dsytri dtrtri dlauum nq nl ncon tcon fe_con error_mean_con nline tline fall
    (pm (idx_con + 0)%nat) (pm (idx_con + 1)%nat) (pm (idx_con + 2)%nat) nall tall U' A' M A wk L0 W0 D0 phi0 Lr0 f0 PE0 S Si L U V) as H.
  cbv zeta in H. rewrite n_tot in H. fold T in H.
  cbv zeta. match type of H with ?h1 -> ?h2 -> ?h3 -> ?h4 -> ?h5 -> ?h6 -> ?h7 -> ?h8 -> ?h9 -> ?h10 -> ?h11 -> ?h12 -> ?h13 -> ?h14 -> ?h15 -> ?h16 -> ?h17 -> ?h18 -> ?w => assert (G : w) end.
  { apply H; auto.
    - apply times_proper, ORD.
    - intros i j I J. apply con_block; assumption.
    - unfold M. apply filled_stored; assumption.
    - intros r k R KK. unfold U. field. split; apply Rgt_not_eq; try (apply sqrt_lt_R0); apply exp_pos.
    - intros r R. unfold V. field. split; apply Rgt_not_eq; try (apply sqrt_lt_R0); apply exp_pos.
    - intros r R. destruct (LikeProofs.curve_at nall (1 + nl) r) as (c & k & C & KK & E); [rewrite <- PropPart.total_psum; exact R|].
      rewrite <- PropPart.total_psum in E. destruct (TG c k C KK) as (_ & T1 & T2). rewrite <- E in T1, T2.
      apply (C68_joint_covariance psi taud sig sizes dtime squared_error S (curve c) (tall r) (U r) (V r) (exp_pos _) SP SH'); auto.
      + intros f. destruct c as [|j]; [discriminate|]. intros X. injection X as <-. apply SH. lia.
      + intros d i Hd Hi. left. apply EP; assumption. }
  destruct G as [G1 G2]. split; [exact G1|]. intros c k C KK. destruct (TG c k C KK) as (_ & T1 & T2). exists (U (total nall c + k)%nat), (V (total nall c + k)%nat).
  split; [exact T1|]. split; [exact T2|]. exact (G2 c k C KK).
Qed.
End Calls.
End One.
