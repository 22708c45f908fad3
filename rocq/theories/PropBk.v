(** C102: the logarithm of the determinant and the inverse from LAPACK's
    factorisation of symmetric matrices (src/mathfun.c:203-283).  Real
    arithmetic, no rounding. *)
From Coq Require Import Reals List Arith ZArith Lia Lra Psatz.
From Verif Require Import SemisepModel SemisepProofs SemisepProofs2 MatBridge MatBridge2 SemisepProofs3 PropSemisep
  PartModel PartProofs PartProofs2 PropPart LikeModel LikeProofs PropLike LuDet BkModel BkMat BkProofs.
Open Scope R_scope.


Lemma spd_of : forall n A, symmetric n A -> positive_definite n A -> spd n A.
Proof. intros n A S P. split; [exact S|exact P]. Qed.
Lemma inv_of_is : forall n A B, is_inverse n A B -> inv_of n A B.
Proof. intros n A B H i j I J. apply H; auto. Qed.

(** ** Positive definite matrices have single pivots only *)
Theorem C102_single : forall n A, symmetric n A -> positive_definite n A ->
  let '(F, ip) := bk_dsytrf n A in
  (forall k, (k < n)%nat -> (0 < ip k)%Z /\ 0 < F k k) /\ prodn n (fun k => F k k) = detn n A.
Proof.
  intros n A SY PD. assert (HU : upper_of n A A) by (intros i j _; reflexivity).
  pose proof (bk_spd n (both A) (both_spd n A A HU (spd_of n A SY PD))) as G. unfold bk_dsytrf. destruct (bk_trf n (both A)) as [F ip].
  destruct G as [G1 G2]. split; [exact G1|]. rewrite G2. apply detn_ext. apply both_ok; auto.
Qed.
Print Assumptions C102_single.

(** ** Every symmetric matrix that has an inverse gets it *)
Theorem C102_inverse : forall n A B, symmetric n A -> is_inverse n A B ->
  let '(F, ip) := bk_dsytrf n A in
  forall i j, (i <= j < n)%nat -> bk_dsytri n F ip i j = B i j.
Proof.
  intros n A B SY HB. assert (HU : upper_of n A A) by (intros i j _; reflexivity).
  destruct (bk_contract n A A HU SY) as [G _]; [apply det_inv; exists B; apply inv_of_is; exact HB|].
  specialize (G (fst (bk_dsytrf n A)) B ltac:(intros i j _; reflexivity) (inv_of_is _ _ _ HB)).
  destruct (bk_dsytrf n A) as [F ip]. exact G.
Qed.
Print Assumptions C102_inverse.

(** ** The three functions of the program with these routines *)
Theorem C102_functions : forall mem p n A B, symmetric n A -> is_inverse n A B ->
  (forall i j, (i <= j < n)%nat -> mem (p + i * n + j)%nat = A i j) ->
  stored (inverse_symat bk_dsytrf bk_dsytri mem p n) p n B
  /\ (let '(mem', lndet) := inverse_symat_lndet bk_dsytrf bk_dsytri mem p n in
      stored mem' p n B /\ (positive_definite n A -> lndet = ln (detn n A)))
  /\ (let '(mem', lndet, failed, sign) := inverse_symat_lndet_sign bk_dsytrf bk_dsytri bk_fails mem p n in
      stored mem' p n B /\ (positive_definite n A -> lndet = ln (detn n A) /\ failed = false /\ sign = 1%Z)).
Proof.
  intros mem p n A B SY HB HU. pose proof (inv_of_is _ _ _ HB) as HI.
  destruct (inverse_symat_ok bk_dsytrf bk_dsytri bk_contract mem p n A B HU SY HI) as [G1 _].
  pose proof (inverse_symat_lndet_ok bk_dsytrf bk_dsytri bk_contract mem p n A B HU SY HI) as G2.
  split; [exact G1|]. split.
  - destruct (inverse_symat_lndet bk_dsytrf bk_dsytri mem p n) as [mem' ld]. destruct G2 as (G2 & _ & G3). split; [exact G2|]. intros PD. apply G3. apply spd_of; auto.
  - pose proof (fun PD => lndet_sign_ok bk_dsytrf bk_dsytri bk_fails bk_contract bk_code mem p n A B HU (spd_of n A SY PD) HI) as G4.
    unfold inverse_symat_lndet_sign, inverse_symat in *. destruct (bk_dsytrf n (upper mem p n)) as [F ip].
    destruct (for_ 0 n _ (0, 1%Z)) as [l sg]. split; [exact G1|]. intros PD. destruct (G4 PD) as (_ & E1 & E2 & E3). auto.
Qed.
Print Assumptions C102_functions.

(** ** What the likelihoods and reconstructions assume of LAPACK is met *)
Theorem C102_assumptions : lapack_ok bk_dsytrf bk_dsytri bk_fails ref_dtrtri ref_dlauum.
Proof. split; [exact bk_contract|]. split; [exact bk_code|]. split; [exact dtrtri_exists|exact dlauum_exists]. Qed.
Print Assumptions C102_assumptions.
(** so the likelihood of a data set is the marginal likelihood (C30) with nothing
    assumed of the factorisation *)
Theorem C102_likelihood : forall nq nl ncon tc fe error_mean lnn tl fall p0 p1 p2 mem A wk L0 W0 D0 phi0 S Si L,
  let sigma := exp p1 * sqrt (exp p2) in
  let syserr := (exp p0 - 1) * error_mean in
  let size := narr_of ncon lnn in
  let n := total size (1 + nl) in
  (1 <= nq)%nat -> (1 <= nl)%nat -> (1 <= ncon)%nat -> proper_times ncon syserr tc fe ->
  (forall c, (c < 1 + nl)%nat -> enough_times nq (size c) (times_of tc tl c)) ->
  symmetric n S -> positive_definite n S -> is_inverse n S Si ->
  (forall i j, (i < ncon)%nat -> (j < ncon)%nat -> S i j = covariance (sigma * sigma) (exp p2) syserr tc fe i j) ->
  stored mem A n (fun i j => S i j / (sigma * sigma)) -> apart A (n * n) wk (2 * (n * n)) ->
  trend_design nq (1 + nl) size (times_of tc tl) L ->
  exists p, prob_line_set bk_dsytrf bk_dsytri bk_fails ref_dtrtri ref_dlauum nq nl ncon tc fe error_mean lnn tl fall p0 p1 p2 mem A wk L0 W0 D0 phi0 = Some p /\
    marginal_loglike n (nq * (1 + nl)) S Si L fall p.
Proof.
  intros. apply (C30_likelihood _ bk_dsytrf bk_dsytri bk_fails ref_dtrtri ref_dlauum nq nl ncon tc fe error_mean lnn tl fall p0 p1 p2 mem A wk L0 W0 D0 phi0 S Si L); auto.
  exact C102_assumptions.
Qed.
Print Assumptions C102_likelihood.

(** ** Matrices that are not positive definite *)
Definition sym2 (a b d : R) : nat -> nat -> R := fun i j => match i, j with O, O => a | 1%nat, 1%nat => d | _, _ => b end.
Lemma sym2_symm : forall a b d n, symmetric n (sym2 a b d).
Proof. intros a b d n i j _ _. destruct i as [|[|i]], j as [|[|j]]; reflexivity. Qed.
Lemma sym2_stored : forall a b d, stored (tab 2 (sym2 a b d)) 0 2 (sym2 a b d).
Proof. intros a b d i j I J. assert (i = 0 \/ i = 1)%nat as [-> | ->] by lia; assert (j = 0 \/ j = 1)%nat as [-> | ->] by lia; reflexivity. Qed.
Lemma sym2_det : forall a b d, detn 2 (sym2 a b d) = a * d - b * b.
Proof. intros. rewrite detn2. reflexivity. Qed.

(** a matrix of the kind [[a, 1], [1, a]] with 0 < a < 1/2: a 2 x 2 block is taken *)
Lemma block_taken : forall a U, 0 < a < 1 / 2 -> both U 0%nat 0%nat = a -> both U 0%nat 1%nat = 1 -> both U 1%nat 0%nat = 1 -> both U 1%nat 1%nat = a -> pivot_of 1 (both U) = Two 0.
Proof.
  intros a U AB E00 E01 E10 E11. unfold pivot_of. cbn [idamax Nat.eqb offmax]. rewrite E00, E01, E11.
  assert (AL : 1 / 2 < bk_alpha). { unfold bk_alpha. assert (4 < sqrt 17) by (replace 4 with (sqrt (4 * 4)) by (apply sqrt_square; lra); apply sqrt_lt_1; lra). lra. }
  rewrite (Rabs_right a) by lra. rewrite Rabs_R1.
  destruct (Req_EM_T (Rmax a 1) 0) as [E|_]; [rewrite Rmax_right in E; lra|].
  destruct (Rle_dec (bk_alpha * 1) a); [lra|]. rewrite (Rmax_right 0 1) by lra.
  destruct (Rle_dec (bk_alpha * 1 * (1 / 1)) a); [lra|]. destruct (Rle_dec (bk_alpha * 1) a); [lra|]. reflexivity.
Qed.
(** The determinant is negative, but the sign is reported as 1, no failure is
    reported and the logarithm is that of another number: the test "info!=0 ||
    sign==-1" of the likelihoods lets the matrix pass. *)
Theorem C102_sign_refuted : exists mem A, symmetric 2 A /\ stored mem 0 2 A /\ detn 2 A < 0 /\
  exists mem' lndet, inverse_symat_lndet_sign bk_dsytrf bk_dsytri bk_fails mem 0 2 = (mem', lndet, false, 1%Z) /\
    lndet <> ln (Rabs (detn 2 A)).
Proof.
  exists (tab 2 (sym2 (1 / 4) 1 (1 / 4))), (sym2 (1 / 4) 1 (1 / 4)).
  split; [apply sym2_symm|]. split; [apply sym2_stored|]. rewrite sym2_det. split; [lra|].
  unfold inverse_symat_lndet_sign. set (mem := tab 2 (sym2 (1 / 4) 1 (1 / 4))). set (U := upper mem 0 2).
  assert (PV : pivot_of 1 (both U) = Two 0) by (apply (block_taken (1 / 4)); [lra|reflexivity|reflexivity|reflexivity|reflexivity]).
  destruct (bk_dsytrf 2 U) as [F ip] eqn:EF.
  assert (FD : F 0%nat 0%nat = 1 / 4 /\ F 1%nat 1%nat = 1 / 4 /\ ip 0%nat = (-1)%Z /\ ip 1%nat = (-1)%Z).
  { unfold bk_dsytrf in EF. cbn [bk_trf] in EF. rewrite PV in EF. injection EF as <- <-. repeat split; reflexivity. }
  destruct FD as (F0 & F1 & I0 & I1).
  cbn [for_]. cbn [seq fold_left]. 
  assert (M0 : store_upper mem 0 2 F (0 + 0 * 2 + 0)%nat = 1 / 4) by exact F0.
  assert (M1 : store_upper mem 0 2 F (0 + 1 * 2 + 1)%nat = 1 / 4) by exact F1.
  eexists _, _. split.
  - unfold for_. cbn [seq fold_left]. rewrite M0, M1. destruct (Rle_dec 0 (1 / 4)); [|lra].
    cbn [bk_fails]. rewrite I0, I1. reflexivity.
  - rewrite (Rabs_right (1 / 4)) by lra. replace (1 / 4 * (1 / 4) - 1 * 1) with (- (15 / 16)) by lra. rewrite Rabs_Ropp, (Rabs_right (15 / 16)) by lra.
    rewrite Rplus_0_l, <- ln_mult by lra. intros E. apply ln_inv in E; lra.
Qed.
Print Assumptions C102_sign_refuted.

(** A matrix all of whose eigenvalues are negative passes as well: two minus
    signs cancel. *)
Theorem C102_negative_refuted : exists mem A, symmetric 2 A /\ stored mem 0 2 A /\ positive_definite 2 (fun i j => - A i j) /\
  exists mem' lndet, inverse_symat_lndet_sign bk_dsytrf bk_dsytri bk_fails mem 0 2 = (mem', lndet, false, 1%Z).
Proof.
  exists (tab 2 (sym2 (-1) 0 (-1))), (sym2 (-1) 0 (-1)).
  split; [apply sym2_symm|]. split; [apply sym2_stored|]. split.
  { intros x (i & I & X). cbn [sumn sym2]. pose proof (Rle_0_sqr (x 0%nat)). pose proof (Rle_0_sqr (x 1%nat)). unfold Rsqr in *.
    assert (0 < x 0%nat * x 0%nat \/ 0 < x 1%nat * x 1%nat) as [P|P].
    { assert (i = 0 \/ i = 1)%nat as [-> | ->] by lia; [left|right]; apply Rsqr_pos_lt; exact X. }
    all: nra. }
  unfold inverse_symat_lndet_sign. set (mem := tab 2 (sym2 (-1) 0 (-1))). set (U := upper mem 0 2).
  assert (PV : pivot_of 1 (both U) = One 1).
  { unfold pivot_of. cbn [idamax Nat.eqb]. change (both U 1%nat 1%nat) with (-1). change (both U 0%nat 1%nat) with 0. rewrite Rabs_R0.
    assert (A1 : Rabs (-1) = 1) by (rewrite Rabs_left; lra). rewrite A1. destruct (Req_EM_T (Rmax 1 0) 0) as [E|_]; [rewrite Rmax_left in E; lra|].
    destruct (Rle_dec (bk_alpha * 0) 1); [reflexivity|lra]. }
  destruct (bk_dsytrf 2 U) as [F ip] eqn:EF.
  assert (FD : F 0%nat 0%nat = -1 /\ F 1%nat 1%nat = -1).
  { unfold bk_dsytrf in EF. cbn [bk_trf] in EF. rewrite PV in EF. set (B := swap_both 1 1 (both U)) in EF.
    assert (B00 : B 0%nat 0%nat = -1) by reflexivity. assert (B01 : B 0%nat 1%nat = 0) by reflexivity. assert (B11 : B 1%nat 1%nat = -1) by reflexivity.
    set (C := fun i j => _) in EF. assert (C00 : C 0%nat 0%nat = -1) by (unfold C; rewrite B00, B01, B11; field).
    assert (PV0 : pivot_of 0 C = One 0).
    { unfold pivot_of. cbn [Nat.eqb]. rewrite C00. assert (A1 : Rabs (-1) = 1) by (rewrite Rabs_left; lra). rewrite A1.
      destruct (Req_EM_T (Rmax 1 0) 0) as [E|_]; [rewrite Rmax_left in E; lra|]. destruct (Rle_dec (bk_alpha * 0) 1); [reflexivity|lra]. }
    cbn [bk_trf] in EF. rewrite PV0 in EF. injection EF as <- _. cbn [Nat.eqb]. split; [exact C00|exact B11]. }
  destruct FD as [F0 F1].
  assert (M0 : store_upper mem 0 2 F (0 + 0 * 2 + 0)%nat = -1) by exact F0.
  assert (M1 : store_upper mem 0 2 F (0 + 1 * 2 + 1)%nat = -1) by exact F1.
  eexists _, _. unfold for_. cbn [seq fold_left]. rewrite M0, M1. destruct (Rle_dec 0 (-1)); [lra|].
  assert (NF : bk_fails 2 (upper (store_upper mem 0 2 F) 0 2) ip = false).
  { cbn [bk_fails]. change (upper (store_upper mem 0 2 F) 0 2 1%nat 1%nat) with (F 1%nat 1%nat). change (upper (store_upper mem 0 2 F) 0 2 0%nat 0%nat) with (F 0%nat 0%nat).
    rewrite F0, F1. destruct (Req_EM_T (-1) 0); [lra|]. destruct (0 <? ip 1%nat)%Z, (0 <? ip 0%nat)%Z; reflexivity. }
  rewrite NF. reflexivity.
Qed.
Print Assumptions C102_negative_refuted.

(** ** A case: [[1, 2], [2, 5]] in memory; its determinant is 1. *)
Example C102_example : let mem := tab 2 (sym2 1 2 5) in
  exists mem', inverse_symat_lndet_sign bk_dsytrf bk_dsytri bk_fails mem 0 2 = (mem', 0, false, 1%Z) /\ stored mem' 0 2 (sym2 5 (-2) 1).
Proof.
  intros mem.
  assert (HB : is_inverse 2 (sym2 1 2 5) (sym2 5 (-2) 1)).
  { intros i j I J. assert (i = 0 \/ i = 1)%nat as [-> | ->] by lia; assert (j = 0 \/ j = 1)%nat as [-> | ->] by lia; cbn; split; ring. }
  assert (PD : positive_definite 2 (sym2 1 2 5)).
  { intros x (i & I & X). cbn [sumn sym2].
    replace (0 + (0 + x 0%nat * 1 * x 0%nat + x 0%nat * 2 * x 1%nat) + (0 + x 1%nat * 2 * x 0%nat + x 1%nat * 5 * x 1%nat))
      with ((x 0%nat + 2 * x 1%nat) * (x 0%nat + 2 * x 1%nat) + x 1%nat * x 1%nat) by ring.
    pose proof (Rle_0_sqr (x 0%nat + 2 * x 1%nat)) as Q. pose proof (Rle_0_sqr (x 1%nat)). unfold Rsqr in *.
    destruct (Req_dec (x 1%nat) 0) as [Z|Z]; [|pose proof (Rsqr_pos_lt _ Z); unfold Rsqr in *; lra].
    assert (NZ : x 0%nat <> 0) by (assert (i = 0 \/ i = 1)%nat as [-> | ->] by lia; congruence).
    pose proof (Rsqr_pos_lt _ NZ). unfold Rsqr in *. rewrite Z. lra. }
  destruct (C102_functions mem 0 2 (sym2 1 2 5) (sym2 5 (-2) 1) (sym2_symm 1 2 5 2) HB) as (_ & _ & G).
  { intros i j IJ. apply sym2_stored; lia. }
  destruct (inverse_symat_lndet_sign bk_dsytrf bk_dsytri bk_fails mem 0 2) as [[[mem' ld] fl] sg]. destruct G as [G1 G2]. destruct (G2 PD) as (E1 & E2 & E3).
  exists mem'. split; [|exact G1]. subst. rewrite sym2_det. replace (1 * 5 - 2 * 2) with 1 by ring. rewrite ln_1. reflexivity.
Qed.
