(** Proofs about the algebra of the older reconstructions. *)
From Coq Require Import Reals List Arith Lia Lra Psatz ZArith Bool.
From Verif Require Import CPrelude SemisepModel SemisepProofs SemisepProofs2 MatBridge MatBridge2 SemisepProofs3 PropSemisep
  PartModel PartProofs PartProofs2 PropPart GlsAlgebra LikeModel LikeProofs PropLike PredModel PredProofs PropPred LuSpec LuDet LuProofs ConModel ConProofs OldModel OldProofs OldRecModel.
Import ListNotations.
Open Scope R_scope.

Section Algebra.
Variables n m T : nat.
Variables SS Si L : nat -> nat -> R.
Variable sigma : R.
Variables PC Larr fall US AS Lrec : arr.
Hypothesis SG : 0 < sigma.
Hypothesis PD : spd n SS.
Hypothesis HI : inv_of n SS Si.
Hypothesis HPC : forall i j, (i < n)%nat -> (j < n)%nat -> PC (i * n + j)%nat = / (sigma * sigma) * SS i j.
Hypothesis HL : forall i j, (i < n)%nat -> (j < m)%nat -> Larr (i * m + j)%nat = L i j.
Hypothesis INJ : forall v, (forall i, (i < n)%nat -> mv m L v i = 0) -> forall j, (j < m)%nat -> v j = 0.
Notation G := (gram n Si L).
Notation s2 := (sigma * sigma).
Notation q Gi := (mv m Gi (mv n (tr L) (mv n Si fall))).

(** the values the products come to *)
Definition comes_to (o : rec_out) : Prop := exists Gi, inv_of m G Gi /\
  (forall j, (j < m)%nat -> rec_yq o j = q Gi j) /\
  forall i u l A, (i < T)%nat ->
    (forall k, (k < n)%nat -> US (i * n + k)%nat = u k / s2) -> AS (i * T + i)%nat = A / s2 ->
    (forall j, (j < m)%nat -> Lrec (i * m + j)%nat = l j) ->
    rec_f o i = dot n u (mv n Si (resid m L fall (q Gi))) + dot m l (q Gi) /\
    rec_fe o i = sigma * sqrt ((A - dot n u (mv n Si u) + dot m (dd n Si L u l) (mv m Gi (dd n Si L u l))) / s2).

Let S2 : 0 < s2 := s2p sigma SG.
Let PDi : spd n Si := Sis n SS Si PD HI.
Lemma value_at Gi z x i u l : (i < T)%nat -> (forall k, (k < n)%nat -> US (i * n + k)%nat = u k / s2) -> (forall j, (j < m)%nat -> Lrec (i * m + j)%nat = l j) ->
  (forall k, (k < n)%nat -> z k = s2 * mv n Si (resid m L fall (q Gi)) k) -> (forall j, (j < m)%nat -> x j = q Gi j) ->
  matvec_MN US T n z i + matvec_MN Lrec T m x i = dot n u (mv n Si (resid m L fall (q Gi))) + dot m l (q Gi).
Proof.
  intros I HU HLr HZ HX. unfold matvec_MN, dot. f_equal; apply sumn_ext; intros k K.
  - rewrite HU, HZ by auto. field. lra.
  - rewrite HLr, HX by auto. reflexivity.
Qed.
(** the variance, from S C^-1 S and S C^-1 L - L however they were computed *)
Lemma error_at Gi A E2 PE3 Cq i u l : (i < T)%nat -> inv_of m G Gi -> AS (i * T + i)%nat = A / s2 -> E2 = dot n u (mv n Si u) / s2 ->
  (forall j, (j < m)%nat -> PE3 (i * m + j)%nat = - dd n Si L u l j) -> PropPart.stored Cq 0 m (fun i j => Gi i j / s2) ->
  sigma * sqrt (AS (i * T + i)%nat - E2 + mul_tB (mul_MN PE3 Cq T m m) PE3 T T m (i * T + i)%nat)
  = sigma * sqrt ((A - dot n u (mv n Si u) + dot m (dd n Si L u l) (mv m Gi (dd n Si L u l))) / s2).
Proof.
  intros I HG HA -> E3 HC. set (D := dd n Si L u l) in *. f_equal. f_equal. rewrite HA. unfold mul_tB. rewrite tab_val by auto.
  assert (E1' : forall j, (j < m)%nat -> mul_MN PE3 Cq T m m (i * m + j)%nat = - / s2 * mv m (tr Gi) D j).
  { intros j J. unfold mul_MN. rewrite tab_val by auto. unfold mv. rewrite <- sumn_scal. apply sumn_ext. intros b B.
    pose proof (HC b j B J) as E. cbn [Nat.add] in E. rewrite E3, E by auto. unfold tr. field. lra. }
  rewrite (sumn_ext m _ (fun j => / s2 * (mv m (tr Gi) D j * D j))) by (intros j J; rewrite E1', E3 by auto; ring).
  rewrite sumn_scal. rewrite (dot_tr m m D Gi). unfold dot, Rdiv. ring.
Qed.
Lemma TS u k : (k < n)%nat -> mv n (tr Si) u k = mv n Si u k.
Proof. intros K. apply mv_ext; auto. intros j J. unfold tr. apply (proj1 PDi); auto. Qed.

Section Sy.
Context {IP : Type}.
Variable dsytrf : nat -> (nat -> nat -> R) -> (nat -> nat -> R) * IP.
Variable dsytri : nat -> (nat -> nat -> R) -> IP -> nat -> nat -> R.
Hypothesis LP : dsytr_spec dsytrf dsytri.
Lemma old_rec_end2_ok : comes_to (old_rec_end2 dsytrf dsytri n m T PC Larr fall US AS Lrec sigma).
Proof.
  unfold old_rec_end2. cbv zeta.
  pose proof (stC n SS sigma PC HPC) as ST. pose proof (C_spd n SS sigma SG PD) as CS. pose proof (C_inv n SS Si sigma SG HI) as CI.
  destruct (inverse_symat_ok dsytrf dsytri LP PC 0 n _ _ (fun i j IJ => ST i j ltac:(lia) ltac:(lia)) (proj1 CS) CI) as [HP0 _].
  set (IPC := inverse_symat dsytrf dsytri PC 0 n) in *.
  assert (HP : PropPart.stored IPC 0 n (fun i j => s2 * Si i j)) by (intros i j I J; exact (HP0 i j I J)). clear HP0.
  pose proof (Cq_st n m Si L sigma Larr HL _ (CL_mul n m Si L sigma Larr HL IPC HP)) as HQ.
  destruct (Gi_ex n m SS Si L PD HI INJ) as [Gi HG].
  destruct (inverse_symat_ok dsytrf dsytri LP _ 0 m _ _ (fun i j IJ => HQ i j ltac:(lia) ltac:(lia)) (proj1 (G2s n m SS Si L sigma SG PD HI INJ)) (G2i n m Si L sigma SG Gi HG)) as [HC0 _].
  set (Cq := inverse_symat dsytrf dsytri (mul_tA _ _ m m n) 0 m) in *.
  assert (HC : PropPart.stored Cq 0 m (fun i j => Gi i j / s2)) by (intros i j I J; exact (HC0 i j I J)). clear HC0.
  pose proof (q_mul n m Si L sigma fall SG Gi Cq _ HC (LCy_v n m Si L sigma Larr fall HL IPC HP)) as Q.
  pose proof (r_MN n m Si L Larr fall HL Gi _ Q) as Y.
  exists Gi. split; [exact HG|]. cbn [rec_yq rec_f rec_fe]. split; [exact Q|].
  intros i u l A I HU HA HLr. split.
  - apply (value_at Gi); auto. exact (z_v n m Si L sigma fall IPC Gi _ HP Y).
  - set (PE1 := mul_MN US IPC T n n).
    assert (E1 : forall k, (k < n)%nat -> PE1 (i * n + k)%nat = mv n Si u k).
    { intros k K. rewrite <- TS by auto. unfold PE1, mul_MN. rewrite tab_val by auto. unfold mv, tr. apply sumn_ext. intros a Ha.
      pose proof (HP a k Ha K) as E. cbn [Nat.add] in E. rewrite HU, E by auto. field. lra. }
    apply (error_at Gi A _ (fun x => mul_MN PE1 Larr T m n x - Lrec x) Cq i u l); auto.
    + unfold mul_tB. rewrite tab_val by auto. unfold dot, Rdiv. rewrite Rmult_comm, <- sumn_scal. apply sumn_ext. intros k K. rewrite E1, HU by auto. unfold Rdiv. ring.
    + intros j J. unfold mul_MN at 1. rewrite tab_val by auto. rewrite HLr by auto. unfold dd, mv at 1.
      rewrite (sumn_ext n _ (fun k => tr L j k * mv n Si u k)); [ring|]. intros k K. rewrite E1, HL by auto. unfold tr. ring.
Qed.
End Sy.

Section Lu.
Variable dgetrf : nat -> arr -> arr * (nat -> nat) * bool.
Variable dgetri : nat -> arr -> (nat -> nat) -> arr * bool.
Variable dgetrs : nat -> nat -> arr -> (nat -> nat) -> arr -> arr * bool.
Hypothesis LU : lu_spec dgetrf dgetri.
Hypothesis LS : lu_solve_spec dgetrf dgetrs.
Lemma old_rec_end1_ok : exists o, old_rec_end1 dgetrf dgetri dgetrs n m T PC Larr fall US AS Lrec sigma = Ok o /\ comes_to o.
Proof.
  unfold old_rec_end1. pose proof (stC n SS sigma PC HPC) as ST. pose proof (C_inv n SS Si sigma SG HI) as CI.
  destruct (solve_ok dgetrf dgetrs LS n PC m _ _ Larr ST CI) as (T2 & -> & HT). cbn [bind].
  assert (CT : CL n m Si L sigma T2).
  { intros i j I J. rewrite HT by auto. rewrite <- sumn_scal. apply sumn_ext. intros l Hl. rewrite HL by auto. ring. }
  pose proof (Cq_st n m Si L sigma Larr HL _ CT) as HQ. destruct (Gi_ex n m SS Si L PD HI INJ) as [Gi HG].
  pose proof (G2i n m Si L sigma SG Gi HG) as G2.
  destruct (solve_ok dgetrf dgetrs LS m _ 1%nat _ _ (mul_tA T2 fall m 1 n) HQ G2) as (x & -> & HX). cbn [bind].
  assert (Q : forall j, (j < m)%nat -> x j = q Gi j).
  { intros j J. replace j with (j * 1 + 0)%nat at 1 by lia. rewrite HX by lia. unfold mv at 1. apply sumn_ext. intros l Hl.
    replace (l * 1 + 0)%nat with l by lia. rewrite (LCy_T n m SS Si L sigma fall PD HI T2 CT) by auto. field. lra. }
  assert (Y : forall i, (i < n)%nat -> fall i - mul_MN Larr x n 1 m i = resid m L fall (q Gi) i).
  { intros i I. rewrite <- (r_MN n m Si L Larr fall HL Gi x Q i I). f_equal. unfold mul_MN, matvec_MN. replace i with (i * 1 + 0)%nat at 1 by lia. rewrite tab_val by lia.
    apply sumn_ext. intros l Hl. replace (l * 1 + 0)%nat with l by lia. reflexivity. }
  destruct (solve_ok dgetrf dgetrs LS n PC 1%nat _ _ (fun i => fall i - mul_MN Larr x n 1 m i) ST CI) as (z & -> & HZ). cbn [bind].
  assert (Z : forall k, (k < n)%nat -> z k = s2 * mv n Si (resid m L fall (q Gi)) k).
  { intros i I. replace i with (i * 1 + 0)%nat at 1 by lia. rewrite HZ by lia.
    unfold mv at 1. rewrite <- sumn_scal. apply sumn_ext. intros l Hl. replace (l * 1 + 0)%nat with l by lia. rewrite Y by auto. ring. }
  destruct (solve_ok dgetrf dgetrs LS n PC T _ _ (old_transpose T n US) ST CI) as (B & -> & HB). cbn [bind].
  destruct (inverse_ok _ _ LU _ _ _ _ HQ G2) as (Cq & -> & HC). cbn [bind].
  eexists. split; [reflexivity|]. exists Gi. split; [exact HG|]. cbn [rec_yq rec_f rec_fe]. split; [exact Q|].
  intros i u l A I HU HA HLr. split.
  - apply (value_at Gi); auto.
  - assert (E1 : forall k, (k < n)%nat -> B (k * T + i)%nat = mv n Si u k).
    { intros k K. rewrite HB by auto. unfold mv. apply sumn_ext. intros a Ha. unfold old_transpose. rewrite tab_val by auto. rewrite HU by auto. field. lra. }
    apply (error_at Gi A _ (fun x => mul_tA B Larr T m n x - Lrec x) Cq i u l); auto.
    + unfold mul_MN. rewrite tab_val by auto. unfold dot, Rdiv. rewrite Rmult_comm, <- sumn_scal. apply sumn_ext. intros k K. rewrite E1, HU by auto. unfold Rdiv. ring.
    + intros j J. unfold mul_tA at 1. rewrite tab_val by auto. rewrite HLr by auto. unfold dd, mv at 1.
      rewrite (sumn_ext n _ (fun k => tr L j k * mv n Si u k)); [ring|]. intros k K. rewrite E1, HL by auto. unfold tr. ring.
Qed.
End Lu.
End Algebra.
