(** C61-C63: the covariance functions of the mixed model, in which the components
    of a line may have different shapes.

    Specification: KernelSpec.v and MixSpec.v (transfer functions as sums of
    components of given shapes, covariances as improper integrals). *)
From Coq Require Import Reals Lra Lia List Arith.
From Coquelicot Require Import Coquelicot.
From Verif Require Import SemisepModel SemisepProofs KernelModel KernelCalc KernelSpec KernelTophat KernelExp KernelExp2 KernelExp3 KernelGauss KernelGauss2 KernelLift KernelSym
  PropKernel MixSpec MixModel MixGauss MixForms MixCode MixPairs MixLift.
Open Scope R_scope.

(** the shape string of the parameter file: digits 0 to 3 *)
Definition digits (n : nat) (ty : nat -> nat) : Prop := forall k, (k < n)%nat -> (ty k < 4)%nat.
(** the gamma and exponential components (digits 2 and 3) whose width is not
    exactly the damping time are outside the tolerance band around it: relative to
    the damping time for the covariance with the continuum, in absolute value as
    well for the covariance of two lines *)
Definition clear_scales (taud : R) (n : nat) (ty : nat -> nat) (c : nat -> comp) : Prop :=
  forall k, (k < n)%nat -> (2 <= ty k)%nat -> width (c k) = taud \/ EPS <= Rabs (taud - width (c k)) / taud.
Definition clear_scales' (taud : R) (n : nat) (ty : nat -> nat) (c : nat -> comp) : Prop :=
  forall k, (k < n)%nat -> (2 <= ty k)%nat ->
    width (c k) = taud \/ (EPS < Rabs (taud - width (c k)) /\ EPS <= Rabs (taud - width (c k)) / taud).

Section Statements.
Variables log_erfc erfc : R -> R.
Hypothesis HL : log_erfc_correct log_erfc.
Hypothesis HE : erfc_correct erfc.
Variable icp : nat -> nat.
Variable ilp : nat -> nat -> nat.
Variable n : nat.
Variable ty : nat -> nat.

(** ** C61 *)
Theorem C61_mixed_continuum_line pm tcon tline nds nls :
  digits n ty -> clear_scales (damping pm icp nds) n ty (line exp pm ilp nds nls) ->
  cov_cl (mixed_response n ty (line exp pm ilp nds nls)) (damping pm icp nds) tcon tline
    (Slc_mmap log_erfc icp ilp n ty tcon tline pm nds nls).
Proof.
  intros Dg C. rewrite Slc_mmap_sum. apply mixed_cl_sum. intros k K. unfold one_val. cbv zeta.
  specialize (Dg k K). specialize (C k K). set (c := line exp pm ilp nds nls k) in *.
  assert (W : 0 < width c) by apply exp_pos. pose proof (exp_pos (pm (icp nds + 2)%nat)) as T0.
  destruct (ty k) as [|[|[|[|t]]]]; [| | | |lia]; cbn [nth FP_Slc shape_of].
  - apply gauss_cl; assumption.
  - apply tophat_cl; assumption.
  - rewrite slc1_gamma_exact; [apply gamma_cl; assumption|assumption|assumption|].
    destruct (C ltac:(lia)) as [E|E]; [right|left]; assumption.
  - rewrite slc1_exp_exact; [apply exp_cl; assumption|assumption|assumption|].
    destruct (C ltac:(lia)) as [E|E]; [right|left]; assumption.
Qed.

(** ** C62 *)
Theorem C62_mixed_line_line pm t1 t2 nds nls1 nls2 :
  digits n ty -> clear_scales' (damping pm icp nds) n ty (line exp pm ilp nds nls1) ->
  clear_scales' (damping pm icp nds) n ty (line exp pm ilp nds nls2) ->
  cov_ll (mixed_response n ty (line exp pm ilp nds nls1)) (mixed_response n ty (line exp pm ilp nds nls2)) (damping pm icp nds) t1 t2
    (Sll2_mmap log_erfc erfc icp ilp n ty t1 t2 pm nds nls1 nls2).
Proof.
  intros Dg C1 C2. rewrite Sll2_mmap_sum.
  apply (mixed_ll_sum n ty _ n ty _ (damping pm icp nds) t1 t2
    (fun k2 a => inner log_erfc (damping pm icp nds) (ty k2) (line exp pm ilp nds nls2 k2) (t2 - (t1 - a)))).
  - intros k2 a K2. apply inner_cl; try assumption; try apply exp_pos. apply Dg, K2.
  - intros k1 k2 K1 K2. unfold pair_val. cbv zeta.
    apply pair_ll; try assumption; try apply exp_pos; try (apply Dg; assumption).
    + intros L. apply C1; assumption.
    + intros L. apply C2; assumption.
Qed.
Theorem C62_mixed_one_line pm t1 t2 nds nls :
  digits n ty -> clear_scales' (damping pm icp nds) n ty (line exp pm ilp nds nls) ->
  cov_ll (mixed_response n ty (line exp pm ilp nds nls)) (mixed_response n ty (line exp pm ilp nds nls)) (damping pm icp nds) t1 t2
    (Sll_mmap log_erfc erfc icp ilp n ty t1 t2 pm nds nls).
Proof. intros Dg C. rewrite Sll_mmap_is. apply C62_mixed_line_line; assumption. Qed.
End Statements.

(** ** C63: arrays and symmetry, for any functions log_erfc and erfc *)
Section Agreement.
Variables log_erfc erfc : R -> R.
Variable icp : nat -> nat.
Variable ilp : nat -> nat -> nat.
Variable n : nat.
Variable ty : nat -> nat.

Theorem C63_mixed_arrays pm nds nls nls2 t1 n1 t2 n2 Smat buf :
  block n1 n2 (fst (Slc_array_mmap log_erfc icp ilp n ty t1 n1 t2 n2 pm nds nls Smat buf))
    (fun i j => Slc_mmap log_erfc icp ilp n ty (t1 i) (t2 j) pm nds nls)
  /\ block n1 n2 (fst (Sll2_array_mmap log_erfc erfc icp ilp n ty t1 n1 t2 n2 pm nds nls nls2 Smat buf))
    (fun i j => Sll2_mmap log_erfc erfc icp ilp n ty (t1 i) (t2 j) pm nds nls nls2)
  /\ lower_block n1 (fst (Sll_array_mmap log_erfc erfc icp ilp n ty t1 n1 pm nds nls Smat buf)) Smat
    (fun i j => Sll_mmap log_erfc erfc icp ilp n ty (t1 i) (t1 j) pm nds nls).
Proof.
  repeat apply conj; intros i j I J.
  - apply Slc_array_mmap_entry; assumption.
  - apply Sll2_array_mmap_entry; assumption.
  - apply Sll_array_mmap_entry; assumption.
Qed.

(** the value at which two components of one shape respond at the same time *)
Definition onset (t : nat) (c : comp) : R :=
  match t with 2%nat => centre c - 2 * width c | 3%nat => centre c - width c | _ => centre c end.
Lemma pair_sym k1 k2 T c1 c2 t1 t2 : (k1 < 4)%nat -> (k2 < 4)%nat -> 0 < T -> 0 < width c1 -> 0 < width c2 ->
  ((2 <= k1)%nat -> k1 = k2 -> t1 - t2 <> onset k1 c1 - onset k2 c2 \/ (clear_of_band T (width c1) /\ clear_of_band T (width c2))) ->
  nth (k1 * 4 + k2) (FP_Sll log_erfc erfc) no_pair T (area c1) (centre c1) (width c1) (area c2) (centre c2) (width c2) t1 t2
  = nth (k2 * 4 + k1) (FP_Sll log_erfc erfc) no_pair T (area c2) (centre c2) (width c2) (area c1) (centre c1) (width c1) t2 t1.
Proof.
  intros K1 K2 T0 W1 W2 H.
  assert (N : t2 - t1 = - (t1 - t2)) by ring.
  destruct k1 as [|[|[|[|k1]]]]; [| | | |lia]; (destruct k2 as [|[|[|[|k2]]]]; [| | | |lia]);
    cbn [Nat.mul Nat.add nth FP_Sll]; unfold direct, swapped; try reflexivity; rewrite N.
  - apply sll1_gauss_sym.
  - apply sll1_tophat_sym; assumption.
  - apply sll1_gamma_sym; try assumption. destruct (H (le_n 2) eq_refl); [right|left]; assumption.
  - apply sll1_exp_sym; try assumption. destruct (H (le_S _ _ (le_n 2)) eq_refl); [right|left]; assumption.
Qed.
(** as in C35, one case must be excluded: two gamma or two exponential components,
    a width inside the band, and times exactly at the peak of the pair *)
Theorem C63_mixed_symmetric pm t1 t2 nds a b : digits n ty ->
  (forall k1 k2, (k1 < n)%nat -> (k2 < n)%nat -> ty k1 = ty k2 -> (2 <= ty k1)%nat ->
     t1 - t2 <> onset (ty k1) (line exp pm ilp nds a k1) - onset (ty k2) (line exp pm ilp nds b k2))
  \/ (clear_scales (damping pm icp nds) n ty (line exp pm ilp nds a) /\ clear_scales (damping pm icp nds) n ty (line exp pm ilp nds b)) ->
  Sll2_mmap log_erfc erfc icp ilp n ty t1 t2 pm nds a b = Sll2_mmap log_erfc erfc icp ilp n ty t2 t1 pm nds b a.
Proof.
  intros Dg H. rewrite !Sll2_mmap_sum, sumn_swap. apply sumn_ext. intros k2 K2. apply sumn_ext. intros k1 K1. unfold pair_val. cbv zeta.
  apply pair_sym; try (apply Dg; assumption); try apply exp_pos.
  intros L E. destruct H as [H|[H1 H2]]; [left; apply (H k1 k2 K1 K2 E L)|right; split].
  - destruct (H1 k1 K1 L) as [A|A]; [right|left]; exact A.
  - rewrite E in L. destruct (H2 k2 K2 L) as [A|A]; [right|left]; exact A.
Qed.
End Agreement.

(** ** Concrete cases *)
(** the contracts of log_erfc and erfc can be met together *)
Example C61_contracts : exists log_erfc erfc, log_erfc_correct log_erfc /\ erfc_correct erfc.
Proof. eexists; eexists; split; [exact log_erfc_exists|exact erfc_exists]. Qed.

(** shape string "13": a top-hat and an exponential, both of amplitude 1, centre 0
    and width 1; damping time 1, which is also the scale of the exponential *)
Definition ty13 (k : nat) : nat := match k with O => 1%nat | _ => 3%nat end.
Lemma digits13 : digits 2 ty13.
Proof. intros k _. destruct k; cbn; lia. Qed.
Example C61_case log_erfc : log_erfc_correct log_erfc ->
  digits 2 ty13 /\ clear_scales 1 2 ty13 (stored exp (fun _ => 0) 3)
  /\ cov_cl (mixed_response 2 ty13 (stored exp (fun _ => 0) 3)) 1 0 0 (1 - exp (-1) + exp (-1) * (1 + 1/2)).
Proof.
  intros HL.
  assert (C : clear_scales (exp 0) 2 ty13 (stored exp (fun _ => 0) 3)) by (intros k _ _; left; reflexivity).
  pose proof (C61_mixed_continuum_line log_erfc HL (fun _ => 0%nat) (fun _ _ => 3%nat) 2 ty13 (fun _ => 0) 0 0 0 0 digits13 C) as H.
  cbv beta in H. rewrite exp_0 in H, C. split; [exact digits13|]. split; [exact C|].
  assert (E : Slc_mmap log_erfc (fun _ => 0%nat) (fun _ _ => 3%nat) 2 ty13 0 0 (fun _ => 0) 0 0 = 1 - exp (-1) + exp (-1) * (1 + 1/2)).
  { rewrite Slc_mmap_sum. cbn [sumn ty13 nth FP_Slc]. unfold one_val, stored. cbn [area centre width]. rewrite exp_0.
    unfold slc1_tophat, slc1_exp.
    destruct (Rlt_dec (0 - 0 - 0) (- (1))); [lra|]. destruct (Rlt_dec (0 - 0 - 0) 1); [|lra].
    destruct (Rle_dec (0 - 0 - (0 - 1)) 0); [lra|]. replace ((1 - 1) / 1) with 0 by field. rewrite Rabs_R0.
    destruct (Rlt_dec 0 EPS) as [|N]; [|exfalso; apply N; unfold EPS; lra].
    replace (- (0 - 0 - (0 - 1)) / 1) with (-1) by field.
    replace (- (0 - 0 - 0 + 1) / 1) with (-1) by field. replace ((0 - 0 - 0 - 1) / 1) with (-1) by field. field. }
  rewrite E in H. exact H.
Qed.
(** the variance of that line: four pairs of components *)
Example C62_case log_erfc erfc : log_erfc_correct log_erfc -> erfc_correct erfc ->
  digits 2 ty13 /\ clear_scales' 1 2 ty13 (stored exp (fun _ => 0) 3)
  /\ cov_ll (mixed_response 2 ty13 (stored exp (fun _ => 0) 3)) (mixed_response 2 ty13 (stored exp (fun _ => 0) 3)) 1 0 0 (5/2 - 3 * exp (-2)).
Proof.
  intros HL HE.
  assert (C : clear_scales' (exp 0) 2 ty13 (stored exp (fun _ => 0) 3)) by (intros k _ _; left; reflexivity).
  pose proof (C62_mixed_one_line log_erfc erfc HL HE (fun _ => 0%nat) (fun _ _ => 3%nat) 2 ty13 (fun _ => 0) 0 0 0 0 digits13 C) as H.
  cbv beta in H. rewrite exp_0 in H, C. split; [exact digits13|]. split; [exact C|].
  assert (E : Sll_mmap log_erfc erfc (fun _ => 0%nat) (fun _ _ => 3%nat) 2 ty13 0 0 (fun _ => 0) 0 0 = 5/2 - 3 * exp (-2)).
  { assert (EP : ~ EPS < Rabs (1 - 1)) by (replace (1 - 1) with 0 by ring; rewrite Rabs_R0; unfold EPS; lra).
    assert (ET : mix_exp_top 1 1 0 1 1 0 1 0 = 3/4 - 7/4 * exp (-2)).
    { unfold mix_exp_top. cbv zeta.
      destruct (Rle_dec (0 - (0 - 1 - 0)) (- (1))); [lra|]. destruct (Rle_dec (0 - (0 - 1 - 0)) 1); [|lra].
      destruct (Rlt_dec EPS (Rabs (1 - 1))); [contradiction|].
      replace (- (1 + (0 - (0 - 1 - 0))) / 1) with (-2) by field.
      replace ((0 - (0 - 1 - 0)) / 1 - 1 / 1) with 0 by field. rewrite exp_0. field. }
    rewrite Sll_mmap_is, Sll2_mmap_sum. cbn [sumn ty13 Nat.mul Nat.add nth FP_Sll]. unfold pair_val, stored. cbn [area centre width]. rewrite exp_0.
    unfold direct, swapped. replace (0 - 0) with 0 by ring. rewrite ET.
    rewrite sll1_tophat_diff by lra. rewrite (sll1_exp_exact 1 1 1) by (lra || (right; reflexivity)). cbv zeta.
    replace (0 - (0 - 0) + 1 + 1) with 2 by ring. replace (0 - (0 - 0) + 1 - 1) with 0 by ring.
    replace (0 - (0 - 0) - 1 + 1) with 0 by ring. replace (0 - (0 - 0) - 1 - 1) with (- (2)) by ring.
    replace (0 - (0 - 1 - (0 - 1))) with 0 by ring.
    rewrite (E2_even 1 2), (E2_pos 1 2), (E2_neg 1 0) by lra.
    unfold lE. rewrite (glue_l _ _ 0 (Rle_refl 0)). unfold lE_l. destruct (Req_EM_T 1 1) as [_|N]; [|exfalso; apply N; reflexivity]. rewrite ep2_0.
    replace (- (2) / 1) with (-2) by field. replace (0 / 1) with 0 by field. rewrite ?exp_0. field. }
  rewrite E in H. exact H.
Qed.
(** two times and one pair of lines meeting the hypotheses of the symmetry *)
Example C63_case : digits 2 ty13 /\ clear_scales 1 2 ty13 (stored exp pm_two 3) /\ clear_scales 1 2 ty13 (stored exp pm_two 10).
Proof.
  split; [exact digits13|]. split; intros k K L; destruct k as [|[|k]]; cbn [ty13] in L; try lia; left;
    unfold stored; cbn [Nat.add Nat.mul pm_two width]; apply exp_0.
Qed.
Print Assumptions C61_mixed_continuum_line.
Print Assumptions C62_mixed_line_line.
Print Assumptions C62_mixed_one_line.
Print Assumptions C63_mixed_arrays.
Print Assumptions C63_mixed_symmetric.
