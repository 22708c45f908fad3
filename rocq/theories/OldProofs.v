(** Proofs about the algebra of the older likelihood functions. *)
From Coq Require Import Reals List Arith Lia Lra Psatz ZArith Bool.
From Verif Require Import CPrelude SemisepModel SemisepProofs SemisepProofs2 MatBridge MatBridge2 SemisepProofs3 PropSemisep
  PartModel PartProofs PartProofs2 PropPart GlsAlgebra LikeModel LikeProofs PropLike PredModel PredProofs PropPred LuSpec LuDet LuProofs ConModel ConProofs OldModel.
Import ListNotations.
Open Scope R_scope.

(** What dgetrs is for: after dgetrf of a nonsingular matrix, the solutions. *)
Definition lu_solve_spec (dgetrf : nat -> arr -> arr * (nat -> nat) * bool) (dgetrs : nat -> nat -> arr -> (nat -> nat) -> arr -> arr * bool) : Prop :=
  forall m n a G Gi b, PropPart.stored a 0 m G -> is_inverse m G Gi ->
    exists f ip x, dgetrf m a = (f, ip, false) /\ dgetrs m n f ip b = (x, false) /\
      forall i j, (i < m)%nat -> (j < n)%nat -> x (i * n + j)%nat = sumn m (fun l => Gi i l * b (l * n + j)%nat).

Section Algebra.
Variables n m : nat.
Variables SS Si L : nat -> nat -> R.
Variable sigma : R.
Variables PC Larr fall : arr.
Hypothesis SG : 0 < sigma.
Hypothesis PD : spd n SS.
Hypothesis HI : inv_of n SS Si.
Hypothesis HPC : forall i j, (i < n)%nat -> (j < n)%nat -> PC (i * n + j)%nat = / (sigma * sigma) * SS i j.
Hypothesis HL : forall i j, (i < n)%nat -> (j < m)%nat -> Larr (i * m + j)%nat = L i j.
Hypothesis INJ : forall v, (forall i, (i < n)%nat -> mv m L v i = 0) -> forall j, (j < m)%nat -> v j = 0.
Notation G := (gram n Si L).
Notation s2 := (sigma * sigma).

Lemma s2p : 0 < s2. Proof. apply Rmult_lt_0_compat; exact SG. Qed.
Lemma stC : PropPart.stored PC 0 n (fun i j => / s2 * SS i j).
Proof. intros i j I J. cbn [Nat.add]. apply HPC; auto. Qed.
Lemma C_spd : spd n (fun i j => / s2 * SS i j).
Proof. apply spd_scal; [apply Rinv_0_lt_compat, s2p|exact PD]. Qed.
Lemma C_inv : inv_of n (fun i j => / s2 * SS i j) (fun i j => s2 * Si i j).
Proof. pose proof s2p. intros i j I J. rewrite <- (HI i j I J). apply sumn_ext. intros. field. lra. Qed.
Lemma Sis : spd n Si. Proof. exact (spd_inv _ _ _ PD HI). Qed.
Lemma Gs : spd m G. Proof. exact (gram_spd _ _ _ _ Sis INJ). Qed.
Lemma Gi_ex : exists Gi, inv_of m G Gi. Proof. apply det_inv. pose proof (spd_det _ _ Gs). lra. Qed.
Lemma G2s : spd m (fun i j => s2 * G i j). Proof. apply spd_scal; [apply s2p|exact Gs]. Qed.
Lemma G2i Gi : inv_of m G Gi -> inv_of m (fun i j => s2 * G i j) (fun i j => Gi i j / s2).
Proof. intros H. exact (inv_scal m s2 G Gi (Rgt_not_eq _ _ s2p) H). Qed.

(** C^-1 L, from whichever way it was computed *)
Definition CL (T : arr) : Prop := forall i j, (i < n)%nat -> (j < m)%nat -> T (i * m + j)%nat = s2 * sumn n (fun l => Si i l * L l j).
Lemma CL_mul IPC : PropPart.stored IPC 0 n (fun i j => s2 * Si i j) -> CL (mul_MN IPC Larr n m n).
Proof.
  intros H i j I J. unfold mul_MN. rewrite tab_val by auto. rewrite <- sumn_scal. apply sumn_ext. intros l Hl.
  pose proof (H i l I Hl) as E. cbn [Nat.add] in E. rewrite E, HL by auto. ring.
Qed.
Lemma Cq_st T : CL T -> PropPart.stored (mul_tA Larr T m m n) 0 m (fun i j => s2 * G i j).
Proof.
  intros H i j I J. cbn [Nat.add]. unfold mul_tA. rewrite tab_val by auto. unfold gram. rewrite <- sumn_scal. apply sumn_ext. intros l Hl.
  rewrite HL, H by auto. ring.
Qed.
(** L^T C^-1 y, either way *)
Definition LCy (b : arr) : Prop := forall j, (j < m)%nat -> b j = s2 * mv n (tr L) (mv n Si fall) j.
Lemma LCy_T T : CL T -> LCy (mul_tA T fall m 1 n).
Proof.
  intros H j J. unfold mul_tA. replace j with (j * 1 + 0)%nat at 1 by lia. rewrite tab_val by lia.
  rewrite mv_mv. unfold mv, tr. rewrite <- sumn_scal. apply sumn_ext. intros k K. replace (k * 1 + 0)%nat with k by lia. rewrite H by auto.
  rewrite Rmult_assoc. f_equal. f_equal. apply sumn_ext. intros b B. rewrite (proj1 Sis b k B K). ring.
Qed.
Lemma LCy_v IPC : PropPart.stored IPC 0 n (fun i j => s2 * Si i j) -> LCy (mul_tA Larr (matvec IPC n fall) m 1 n).
Proof.
  intros H j J. unfold mul_tA. replace j with (j * 1 + 0)%nat at 1 by lia. rewrite tab_val by lia.
  unfold mv at 1, tr. rewrite <- sumn_scal. apply sumn_ext. intros k K. replace (k * 1 + 0)%nat with k by lia. rewrite HL by auto.
  unfold matvec, mv. rewrite (sumn_ext n _ (fun b => s2 * (Si k b * fall b))); [rewrite sumn_scal; ring|].
  intros b B. pose proof (H k b K B) as E. cbn [Nat.add] in E. rewrite E. ring.
Qed.
Notation q Gi := (mv m Gi (mv n (tr L) (mv n Si fall))).
Lemma q_mul Gi Cq b : PropPart.stored Cq 0 m (fun i j => Gi i j / s2) -> LCy b -> forall j, (j < m)%nat -> mul_MN Cq b m 1 m j = q Gi j.
Proof.
  intros H HB j J. pose proof s2p. unfold mul_MN. replace j with (j * 1 + 0)%nat at 1 by lia. rewrite tab_val by lia. unfold mv at 1. apply sumn_ext. intros l Hl.
  pose proof (H j l J Hl) as E. cbn [Nat.add] in E. rewrite E. replace (l * 1 + 0)%nat with l by lia. rewrite HB by auto. field. lra.
Qed.
Lemma r_MN Gi x : (forall j, (j < m)%nat -> x j = q Gi j) -> forall i, (i < n)%nat -> fall i - matvec_MN Larr n m x i = resid m L fall (q Gi) i.
Proof.
  intros H i I. assert (E : matvec_MN Larr n m x i = mv m L (q Gi) i).
  { unfold matvec_MN, mv at 1. apply sumn_ext. intros l Hl. rewrite HL, H by auto. reflexivity. }
  rewrite E. unfold resid. ring.
Qed.
Lemma z_v IPC Gi y : PropPart.stored IPC 0 n (fun i j => s2 * Si i j) -> (forall i, (i < n)%nat -> y i = resid m L fall (q Gi) i) ->
  forall i, (i < n)%nat -> matvec IPC n y i = s2 * mv n Si (resid m L fall (q Gi)) i.
Proof.
  intros H HY i I. unfold matvec, mv at 1. rewrite <- sumn_scal. apply sumn_ext. intros k K. pose proof (H i k I K) as E. cbn [Nat.add] in E. rewrite E, HY by auto. ring.
Qed.
Lemma dot_val Gi y z : (forall i, (i < n)%nat -> y i = resid m L fall (q Gi) i) -> (forall i, (i < n)%nat -> z i = s2 * mv n Si (resid m L fall (q Gi)) i) ->
  - (1 / 2) * ddot n y z / s2 = - (1 / 2) * chi2 n Si (resid m L fall (q Gi)).
Proof.
  intros HY HZ. pose proof s2p. assert (E : ddot n y z = s2 * chi2 n Si (resid m L fall (q Gi))).
  { unfold ddot, chi2, dot. rewrite <- sumn_scal. apply sumn_ext. intros i I. rewrite HY, HZ by auto. ring. }
  rewrite E. field. lra.
Qed.
Lemma value Gi p : inv_of m G Gi ->
  p = - (1 / 2) * chi2 n Si (resid m L fall (q Gi)) - 1 / 2 * (ln (detn n (fun i j => / s2 * SS i j)) + 2 * INR n * ln sigma)
      - 1 / 2 * (ln (detn m (fun i j => s2 * G i j)) - 2 * INR m * ln sigma) ->
  marginal_loglike n m SS Si L fall p.
Proof.
  intros HG ->. pose proof s2p as S2. apply (marginal_link n m SS Si L fall (q Gi) _ Sis INJ).
  - apply (normal_gram n m Si L fall Gi (q Gi) HG). auto.
  - rewrite (ln_det_scal n (/ s2) SS) by (auto; apply Rinv_0_lt_compat; auto).
    rewrite (ln_det_scal m s2 G) by (auto; exact Gs). rewrite ln_Rinv by auto. rewrite (ln_mult sigma sigma) by auto. lra.
Qed.
Lemma not_pos Gi : ~ 0 < - (1 / 2) * chi2 n Si (resid m L fall (q Gi)).
Proof. pose proof (chi2_nonneg n Si Sis (resid m L fall (q Gi))). lra. Qed.

Section Lu.
Variable dgetrf : nat -> arr -> arr * (nat -> nat) * bool.
Variable dgetri : nat -> arr -> (nat -> nat) -> arr * bool.
Variable dgetrs : nat -> nat -> arr -> (nat -> nat) -> arr -> arr * bool.
Hypothesis LU : lu_spec dgetrf dgetri.

Lemma finish_ok ICq Gi prob1 : PropPart.stored ICq 0 m (fun i j => s2 * G i j) -> inv_of m G Gi ->
  prob1 = - (1 / 2) * chi2 n Si (resid m L fall (q Gi)) ->
  exists p, old_finish dgetrf n m PC ICq sigma prob1 = Ok (Some p) /\ marginal_loglike n m SS Si L fall p.
Proof.
  intros HQ HG ->. unfold old_finish. destruct (Rlt_dec 0 _) as [H|_]; [exfalso; exact (not_pos Gi H)|].
  pose proof (spd_det _ _ C_spd) as D1. pose proof (spd_det _ _ G2s) as D2.
  destruct (lndet3_ok dgetrf dgetri LU n PC _ stC ltac:(lra)) as (sg & -> & E1). cbn [bind fst snd].
  assert (sg <> (-1)%Z). { intros ->. unfold sgn in E1. destruct (Rle_dec 0 _); lra. }
  destruct (Z.eqb_spec sg (-1)); [contradiction|].
  destruct (lndet3_ok dgetrf dgetri LU m ICq _ HQ ltac:(lra)) as (sg2 & -> & E2). cbn [bind fst snd].
  assert (sg2 <> (-1)%Z). { intros ->. unfold sgn in E2. destruct (Rle_dec 0 _); lra. }
  destruct (Z.eqb_spec sg2 (-1)); [contradiction|].
  eexists. split; [reflexivity|]. apply (value Gi _ HG). rewrite !Rabs_right by lra. reflexivity.
Qed.
Lemma old_end2_ok : exists p, old_end2 dgetrf dgetri n m PC Larr fall sigma = Ok (Some p) /\ marginal_loglike n m SS Si L fall p.
Proof.
  unfold old_end2. destruct (inverse_ok _ _ LU _ _ _ _ stC C_inv) as (IPC & -> & HP). cbn [bind].
  pose proof (Cq_st _ (CL_mul IPC HP)) as HQ. destruct Gi_ex as [Gi HG].
  destruct (inverse_ok _ _ LU _ _ _ _ HQ (G2i Gi HG)) as (Cq & -> & HC). cbn [bind].
  pose proof (q_mul Gi Cq _ HC (LCy_v IPC HP)) as Q. pose proof (r_MN Gi _ Q) as Y.
  apply (finish_ok _ Gi); auto. apply dot_val; [exact Y|]. exact (z_v IPC Gi _ HP Y).
Qed.
Hypothesis LS : lu_solve_spec dgetrf dgetrs.
Lemma solve_ok k a c A Ai b : PropPart.stored a 0 k A -> inv_of k A Ai ->
  exists x, multiply_mat_MN_inverseA dgetrf dgetrs a b k c = Ok x /\ forall i j, (i < k)%nat -> (j < c)%nat -> x (i * c + j)%nat = sumn k (fun l => Ai i l * b (l * c + j)%nat).
Proof.
  intros ST IV. destruct (LS k c a A Ai b ST (inverse_both _ _ _ IV)) as (f & ip & x & E1 & E2 & H).
  exists x. unfold multiply_mat_MN_inverseA. rewrite E1, E2. auto.
Qed.
Lemma old_end1_ok : exists p, old_end1 dgetrf dgetrs n m PC Larr fall sigma = Ok (Some p) /\ marginal_loglike n m SS Si L fall p.
Proof.
  unfold old_end1. destruct (solve_ok n PC m _ _ Larr stC C_inv) as (T2 & -> & HT). cbn [bind].
  assert (CT : CL T2).
  { intros i j I J. rewrite HT by auto. rewrite <- sumn_scal. apply sumn_ext. intros l Hl. rewrite HL by auto. ring. }
  pose proof (Cq_st _ CT) as HQ. destruct Gi_ex as [Gi HG].
  destruct (solve_ok m _ 1%nat _ _ (mul_tA T2 fall m 1 n) HQ (G2i Gi HG)) as (x & -> & HX). cbn [bind].
  assert (Q : forall j, (j < m)%nat -> x j = q Gi j).
  { intros j J. replace j with (j * 1 + 0)%nat at 1 by lia. rewrite HX by lia. unfold mv at 1. apply sumn_ext. intros l Hl.
    replace (l * 1 + 0)%nat with l by lia. rewrite (LCy_T T2 CT) by auto. pose proof s2p. field. lra. }
  assert (Y : forall i, (i < n)%nat -> fall i - mul_MN Larr x n 1 m i = resid m L fall (q Gi) i).
  { intros i I. rewrite <- (r_MN Gi x Q i I). f_equal. unfold mul_MN, matvec_MN. replace i with (i * 1 + 0)%nat at 1 by lia. rewrite tab_val by lia.
    apply sumn_ext. intros l Hl. replace (l * 1 + 0)%nat with l by lia. reflexivity. }
  destruct (solve_ok n PC 1%nat _ _ (fun i => fall i - mul_MN Larr x n 1 m i) stC C_inv) as (z & -> & HZ). cbn [bind].
  apply (finish_ok _ Gi); auto. apply dot_val; [exact Y|]. intros i I. replace i with (i * 1 + 0)%nat at 1 by lia. rewrite HZ by lia.
  unfold mv at 1. rewrite <- sumn_scal. apply sumn_ext. intros l Hl. replace (l * 1 + 0)%nat with l by lia. rewrite Y by auto. ring.
Qed.
End Lu.

Section Sy.
Context {IP : Type}.
Variable dsytrf : nat -> (nat -> nat -> R) -> (nat -> nat -> R) * IP.
Variable dsytri : nat -> (nat -> nat -> R) -> IP -> nat -> nat -> R.
Variable dsytri_fails : nat -> (nat -> nat -> R) -> IP -> bool.
Hypothesis LP : dsytr_spec dsytrf dsytri.
Hypothesis LC : dsytri_code dsytrf dsytri_fails.
Lemma old_end3_ok : exists p, old_end3 dsytrf dsytri dsytri_fails n m PC Larr fall sigma = Some p /\ marginal_loglike n m SS Si L fall p.
Proof.
  unfold old_end3.
  pose proof (lndet_sign_ok dsytrf dsytri dsytri_fails LP LC PC 0 n _ _ (fun i j IJ => HPC i j ltac:(lia) ltac:(lia)) C_spd C_inv) as H1.
  destruct (inverse_symat_lndet_sign dsytrf dsytri dsytri_fails PC 0 n) as [[[IPC ld] info] sign]. destruct H1 as (HP & -> & -> & ->). cbn [orb Z.eqb].
  assert (HP' : PropPart.stored IPC 0 n (fun i j => s2 * Si i j)) by (intros i j I J; exact (HP i j I J)).
  pose proof (Cq_st _ (CL_mul IPC HP')) as HQ. destruct Gi_ex as [Gi HG].
  pose proof (lndet_sign_ok dsytrf dsytri dsytri_fails LP LC (mul_tA Larr (mul_MN IPC Larr n m n) m m n) 0 m _ _ (fun i j IJ => HQ i j ltac:(lia) ltac:(lia)) G2s (G2i Gi HG)) as H2.
  destruct (inverse_symat_lndet_sign dsytrf dsytri dsytri_fails (mul_tA Larr (mul_MN IPC Larr n m n) m m n) 0 m) as [[[Cq ldq] info] sign].
  destruct H2 as (HC & -> & -> & ->). cbn [orb Z.eqb].
  assert (HC' : PropPart.stored Cq 0 m (fun i j => Gi i j / s2)) by (intros i j I J; exact (HC i j I J)).
  pose proof (q_mul Gi Cq _ HC' (LCy_v IPC HP')) as Q. pose proof (r_MN Gi _ Q) as Y.
  rewrite (dot_val Gi _ _ Y (z_v IPC Gi _ HP' Y)).
  destruct (Rlt_dec 0 _) as [H|_]; [exfalso; exact (not_pos Gi H)|].
  eexists. split; [reflexivity|]. apply (value Gi _ HG). reflexivity.
Qed.
End Sy.
End Algebra.

(** ** The loop over the sets *)
Lemma old_sum (f : nat -> outcome (option R)) g n : (forall k, (k < n)%nat -> f k = Ok (Some (g k))) -> old_sets (map f (seq 0 n)) 0 = Ok (Some (sumn n g)).
Proof.
  assert (A : forall l r p, old_sets (map (fun x => Ok (Some x)) l ++ r) p = old_sets r (fold_left Rplus l p)).
  { induction l as [|x l IH]; intros r p; [reflexivity|]. cbn [map app old_sets fold_left bind]. apply IH. }
  intros H. assert (E : map f (seq 0 n) = map (fun x => Ok (Some x)) (map g (seq 0 n))).
  { rewrite map_map. apply map_ext_in. intros k K. apply in_seq in K. apply H. lia. }
  rewrite E. clear E H. rewrite <- (app_nil_r (map _ _)), A. cbn [old_sets]. do 2 f_equal.
  induction n as [|n IH]; [reflexivity|]. rewrite seq_S, map_app, fold_left_app, IH. reflexivity.
Qed.
