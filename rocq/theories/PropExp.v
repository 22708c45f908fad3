(** C108: the exponentials the covariance functions take. *)
From Coq Require Import Reals Lra Lia List Arith FunctionalExtensionality.
From Coquelicot Require Import Coquelicot.
From Flocq Require Import Core BinarySingleNaN.
From Verif Require Import SemisepModel SemisepProofs KernelModel KernelSpec KernelGauss KernelGauss2 KernelLift MixSpec MixModel CovModel EndModel DampModel ExpModel PropKernel PropMix.
Import ListNotations.
Open Scope R_scope.

(** [E] is the exponential function for arguments up to [b] *)
Definition exp_upto (b : R) (E : R -> R) : Prop := forall x, x <= b -> E x = exp x.

Lemma exp_le_inv x y : exp x <= exp y -> x <= y.
Proof. intros H. apply Rnot_lt_le. intros L. apply exp_increasing in L. lra. Qed.

(** ** The complementary error function under the exponential *)
Section Erfc.
Variable log_erfc : R -> R.
Hypothesis HL : log_erfc_correct log_erfc.

Lemma erfc_two x : exp (log_erfc x) <= 2.
Proof.
  rewrite (erfc_value _ _ HL). pose proof L_pos. pose proof (Phi_gt x).
  apply Rmult_le_reg_r with L; [lra|]. unfold Rdiv. rewrite Rmult_assoc, Rinv_l by lra. lra.
Qed.
Lemma erfc_tail x : 0 <= x -> exp (log_erfc x) <= 2 * exp (- (x * x)).
Proof.
  intros X. rewrite (erfc_value _ _ HL). pose proof L_pos. pose proof (Phi_near x X) as [_ N]. pose proof L_sq as Q. pose proof PI2_3_2 as P.
  assert (P2 : 2 < PI) by (unfold PI2 in P; lra).
  unfold gk in N. pose proof (exp_pos (- (x * x))) as G. set (g := exp (- (x * x))) in *.
  apply Rmult_le_reg_r with L; [lra|]. unfold Rdiv at 1. rewrite Rmult_assoc, Rinv_l, Rmult_1_r by lra.
  eapply Rle_trans; [exact N|]. apply Rmult_le_reg_r with L; [lra|]. unfold Rdiv. rewrite Rmult_assoc, Rinv_l, Rmult_1_r by lra. nra.
Qed.
Lemma sq_half x : x / sqrt 2 * (x / sqrt 2) = x * x / 2.
Proof.
  assert (S : sqrt 2 * sqrt 2 = 2) by (apply sqrt_sqrt; lra). assert (0 < sqrt 2) by (apply sqrt_lt_R0; lra).
  replace (x / sqrt 2 * (x / sqrt 2)) with (x * x / (sqrt 2 * sqrt 2)) by (field; lra). rewrite S. reflexivity.
Qed.
Lemma arg_bound s u : 0 <= s -> s * s / 2 + s * u + log_erfc ((u + s) / sqrt 2) <= ln 2.
Proof.
  intros S. assert (0 < sqrt 2) by (apply sqrt_lt_R0; lra).
  apply exp_le_inv. rewrite (exp_ln 2) by lra. rewrite exp_plus.
  destruct (Rle_dec 0 (u + s)) as [H0|H0].
  - assert (X : 0 <= (u + s) / sqrt 2). { apply Rmult_le_pos; [exact H0|]. left. apply Rinv_0_lt_compat. assumption. }
    pose proof (erfc_tail _ X) as B. rewrite sq_half in B.
    apply Rle_trans with (exp (s * s / 2 + s * u) * (2 * exp (- ((u + s) * (u + s) / 2)))).
    { apply Rmult_le_compat_l; [left; apply exp_pos|exact B]. }
    replace (exp (s * s / 2 + s * u) * (2 * exp (- ((u + s) * (u + s) / 2)))) with (2 * (exp (s * s / 2 + s * u) * exp (- ((u + s) * (u + s) / 2)))) by ring.
    rewrite <- exp_plus. replace (s * s / 2 + s * u + - ((u + s) * (u + s) / 2)) with (- (u * u / 2)) by field.
    assert (exp (- (u * u / 2)) <= 1); [|lra]. rewrite <- exp_0.
    destruct (Req_dec u 0) as [->|U]; [right; f_equal; lra|left; apply exp_increasing; nra].
  - assert (A : exp (s * s / 2 + s * u) <= 1).
    { rewrite <- exp_0. assert (C : s * s / 2 + s * u <= 0) by nra. destruct C as [C|C]; [left; apply exp_increasing, C|right; f_equal; exact C]. }
    pose proof (erfc_two ((u + s) / sqrt 2)). pose proof (exp_pos (s * s / 2 + s * u)). pose proof (exp_pos (log_erfc ((u + s) / sqrt 2))). nra.
Qed.
Lemma ub a q s u : 0 <= s -> a - log_erfc q = s * s / 2 + s * u -> q = (u + s) / sqrt 2 -> a <= ln 2.
Proof. intros S A Q. pose proof (arg_bound s u S) as B. rewrite <- Q in B. lra. Qed.
End Erfc.

(** ** One component, and a pair of components *)
Lemma neg_div x T : x <= 0 -> 0 < T -> x / T <= 0.
Proof. intros X T0. pose proof (Rinv_0_lt_compat T T0). unfold Rdiv. nra. Qed.
Lemma sqrt2_pos : 0 < sqrt 2.
Proof. apply sqrt_lt_R0; lra. Qed.
Lemma ln2_pos : 0 < ln 2.
Proof. rewrite <- ln_1. apply ln_increasing; lra. Qed.

(** the arguments of the exponentials of shapes other than the Gaussian are not positive *)
Ltac nonpos :=
  match goal with
  | |- ?x / ?T - ?y / ?T <= 0 => replace (x / T - y / T) with ((x - y) / T) by (unfold Rdiv; ring); nonpos
  | |- - (?x / ?T) <= 0 => replace (- (x / T)) with ((- x) / T) by (unfold Rdiv; ring); nonpos
  | |- _ / _ <= 0 => apply neg_div; lra
  end.
Ltac same tac :=
  repeat match goal with
  | HE : exp_upto _ ?E |- context [?E ?x] => rewrite (HE x) by (tac tt)
  end; try reflexivity.

Section Plain.
Variable E : R -> R.
Hypothesis HE : exp_upto 0 E.
Lemma tophat_one T f c w D : 0 < T -> 0 < w -> e_slc1_tophat E T f c w D = slc1_tophat T f c w D.
Proof.
  intros T0 W. unfold e_slc1_tophat, slc1_tophat. cbv zeta. set (DT := D - c).
  destruct (Rlt_dec DT (- w)); [|destruct (Rlt_dec DT w)]; same ltac:(fun _ => nonpos).
Qed.
Lemma gamma_one T f c w D : 0 < T -> 0 < w -> e_slc1_gamma E T f c w D = slc1_gamma T f c w D.
Proof.
  intros T0 W. unfold e_slc1_gamma, slc1_gamma. cbv zeta. set (DT := D - (c - 2 * w)).
  destruct (Rle_dec DT 0); [|destruct (Rlt_dec _ EPS)]; same ltac:(fun _ => nonpos).
Qed.
Lemma exp_one T f c w D : 0 < T -> 0 < w -> e_slc1_exp E T f c w D = slc1_exp T f c w D.
Proof.
  intros T0 W. unfold e_slc1_exp, slc1_exp. cbv zeta. set (DT := D - (c - w)).
  destruct (Rle_dec DT 0); [|destruct (Rlt_dec _ EPS)]; same ltac:(fun _ => nonpos).
Qed.
Lemma tophat_pair T f1 c1 w1 f2 c2 w2 D : 0 < T -> 0 < w1 -> 0 < w2 -> e_sll1_tophat E T f1 c1 w1 f2 c2 w2 D = sll1_tophat T f1 c1 w1 f2 c2 w2 D.
Proof.
  intros T0 W1 W2. unfold e_sll1_tophat, sll1_tophat. cbv zeta. set (DT := D - (c1 - c2)).
  destruct (Rge_dec w1 w2);
  (destruct (Rlt_dec DT _); [same ltac:(fun _ => nonpos)|]; destruct (Rlt_dec DT _); [same ltac:(fun _ => nonpos)|];
   destruct (Rlt_dec DT _); [same ltac:(fun _ => nonpos)|]; destruct (Rlt_dec DT _); same ltac:(fun _ => nonpos)).
Qed.
Lemma gamma_pair T f1 c1 w1 f2 c2 w2 D : 0 < T -> 0 < w1 -> 0 < w2 -> e_sll1_gamma E T f1 c1 w1 f2 c2 w2 D = sll1_gamma T f1 c1 w1 f2 c2 w2 D.
Proof.
  intros T0 W1 W2. unfold e_sll1_gamma, sll1_gamma. cbv zeta. set (DT := D - (c1 - 2 * w1 - (c2 - 2 * w2))).
  destruct (Rle_dec DT 0); destruct (Rlt_dec _ EPS); same ltac:(fun _ => nonpos).
Qed.
Lemma exp_pair T f1 c1 w1 f2 c2 w2 D : 0 < T -> 0 < w1 -> 0 < w2 -> e_sll1_exp E T f1 c1 w1 f2 c2 w2 D = sll1_exp T f1 c1 w1 f2 c2 w2 D.
Proof.
  intros T0 W1 W2. unfold e_sll1_exp, sll1_exp. cbv zeta. set (DT := D - (c1 - w1 - (c2 - w2))).
  destruct (Rle_dec DT 0); destruct (Rlt_dec _ EPS); same ltac:(fun _ => nonpos).
Qed.
Lemma exp_gam_pair d T f1 c1 w1 f2 c2 w2 D : 0 < T -> 0 < w1 -> 0 < w2 -> e_mix_exp_gam_with E d T f1 c1 w1 f2 c2 w2 D = mix_exp_gam_with d T f1 c1 w1 f2 c2 w2 D.
Proof.
  intros T0 W1 W2. unfold e_mix_exp_gam_with, mix_exp_gam_with. cbv zeta. set (DT := D - (c1 - w1 - (c2 - 2 * w2))).
  destruct (Rle_dec 0 DT); destruct (Rlt_dec EPS _); same ltac:(fun _ => nonpos).
Qed.
End Plain.

Section Wide.
(** a top-hat against an exponential or a gamma response *)
Variable E : R -> R.
Variable b : R.
Hypothesis B0 : 0 <= b.
Hypothesis HE : exp_upto b E.
Ltac up := apply Rle_trans with 0; [nonpos|exact B0].
Lemma exp_top_pair T f1 c1 w1 f2 c2 w2 D : 0 < T -> 0 < w1 -> 0 < w2 -> w2 / T <= b -> e_mix_exp_top E T f1 c1 w1 f2 c2 w2 D = mix_exp_top T f1 c1 w1 f2 c2 w2 D.
Proof.
  intros T0 W1 W2 WB. unfold e_mix_exp_top, mix_exp_top. cbv zeta. set (DT := D - (c1 - w1 - c2)).
  destruct (Rle_dec DT (- w2)); [rewrite (HE (w2 / T) WB); same ltac:(fun _ => up)|].
  destruct (Rle_dec DT w2); destruct (Rlt_dec EPS _); same ltac:(fun _ => up).
Qed.
Lemma gam_top_pair T f1 c1 w1 f2 c2 w2 D : 0 < T -> 0 < w1 -> 0 < w2 -> w2 / T <= b -> e_mix_gam_top E T f1 c1 w1 f2 c2 w2 D = mix_gam_top T f1 c1 w1 f2 c2 w2 D.
Proof.
  intros T0 W1 W2 WB. unfold e_mix_gam_top, mix_gam_top. cbv zeta. set (DT := D - (c1 - 2 * w1 - c2)).
  destruct (Rle_dec DT (- w2)); [rewrite (HE (w2 / T) WB); same ltac:(fun _ => up)|].
  destruct (Rle_dec DT w2); destruct (Rlt_dec EPS _); same ltac:(fun _ => up).
Qed.
End Wide.

Section Gauss.
Variable log_erfc erfc : R -> R.
Hypothesis HL : log_erfc_correct log_erfc.
Variable E : R -> R.
Variable b : R.
Hypothesis B0 : ln 2 <= b.
Hypothesis HE : exp_upto b E.
Ltac gb s u :=
  match goal with |- ?a <= _ => match a with context [log_erfc ?q] =>
    apply (ub log_erfc HL a q s u);
    [apply Rmult_le_pos; [lra|left; apply Rinv_0_lt_compat; lra]
    | pose proof sqrt2_pos; field; repeat split; lra | pose proof sqrt2_pos; field; repeat split; lra] end end.
Ltac up s us := apply Rle_trans with (ln 2); [us s|exact B0].

Lemma gauss_one T f c w D : 0 < T -> 0 < w -> e_slc1_gauss E log_erfc T f c w D = slc1_gauss log_erfc T f c w D.
Proof.
  intros T0 W. unfold e_slc1_gauss, slc1_gauss. cbv zeta. set (DT := D - c).
  rewrite !HE; [reflexivity| |]; apply Rle_trans with (ln 2); try exact B0; [gb (w / T) (DT / w)|gb (w / T) (- DT / w)].
Qed.
Lemma gauss_array_one T f c w D : 0 < T -> 0 < w -> e_slc1_array_gauss E log_erfc T f c w D = slc1_array_gauss log_erfc T f c w D.
Proof.
  intros T0 W. unfold e_slc1_array_gauss, slc1_array_gauss. cbv zeta. set (DT := D - c).
  rewrite !HE; [reflexivity| |]; apply Rle_trans with (ln 2); try exact B0; [gb (w / T) (DT / w)|gb (w / T) (- DT / w)].
Qed.
Lemma gauss_pair T f1 c1 w1 f2 c2 w2 D : 0 < T -> 0 < w1 -> 0 < w2 -> e_sll1_gauss E log_erfc T f1 c1 w1 f2 c2 w2 D = sll1_gauss log_erfc T f1 c1 w1 f2 c2 w2 D.
Proof.
  intros T0 W1 W2. unfold e_sll1_gauss, sll1_gauss. cbv zeta. set (DT := D - (c1 - c2)).
  assert (W : 0 < sqrt (w1 * w1 + w2 * w2)) by (apply sqrt_lt_R0; nra). set (w := sqrt (w1 * w1 + w2 * w2)) in *.
  rewrite !HE; [reflexivity| |]; apply Rle_trans with (ln 2); try exact B0; [gb (w / T) (DT / w)|gb (w / T) (- DT / w)].
Qed.
Lemma gauss_array_pair T f1 c1 w1 f2 c2 w2 D : 0 < T -> 0 < w1 -> 0 < w2 -> e_sll1_array_gauss E log_erfc T f1 c1 w1 f2 c2 w2 D = sll1_array_gauss log_erfc T f1 c1 w1 f2 c2 w2 D.
Proof.
  intros T0 W1 W2. unfold e_sll1_array_gauss, sll1_array_gauss. cbv zeta. set (DT := D - (c1 - c2)).
  assert (W : 0 < sqrt (w1 * w1 + w2 * w2)) by (apply sqrt_lt_R0; nra). set (w := sqrt (w1 * w1 + w2 * w2)) in *.
  rewrite !HE; [reflexivity| |]; apply Rle_trans with (ln 2); try exact B0; [gb (w / T) (DT / w)|gb (w / T) (- DT / w)].
Qed.
Lemma neg_sq x w : 0 < w -> - x * x / (w * w) / 2 <= ln 2.
Proof.
  intros W. pose proof ln2_pos. apply Rle_trans with 0; [|lra]. pose proof (Rinv_0_lt_compat (w * w) ltac:(nra)).
  unfold Rdiv. pose proof (Rle_0_sqr x) as S. unfold Rsqr in S. nra.
Qed.
Ltac gcase T w DT w2 :=
  apply Rle_trans with (ln 2); [|exact B0];
  first [ apply neg_sq; lra | gb (w / T) (DT / w) | gb (w / T) (- DT / w) | gb (w / w2) (DT / w) ].
Lemma gau_exp_pair T f1 c1 w1 f2 c2 w2 D : 0 < T -> 0 < w1 -> 0 < w2 -> e_mix_gau_exp E log_erfc T f1 c1 w1 f2 c2 w2 D = mix_gau_exp log_erfc T f1 c1 w1 f2 c2 w2 D.
Proof.
  intros T0 W1 W2. unfold e_mix_gau_exp, mix_gau_exp. cbv zeta. set (DT := D - (c1 - (c2 - w2))).
  destruct (Rlt_dec EPS _); same ltac:(fun _ => gcase T w1 DT w2).
Qed.
Lemma gau_gam_pair T f1 c1 w1 f2 c2 w2 D : 0 < T -> 0 < w1 -> 0 < w2 -> w2 = T \/ EPS < Rabs (T - w2) ->
  e_mix_gau_gam E log_erfc T f1 c1 w1 f2 c2 w2 D = mix_gau_gam log_erfc T f1 c1 w1 f2 c2 w2 D.
Proof.
  intros T0 W1 W2 C. unfold e_mix_gau_gam, mix_gau_gam. cbv zeta. set (DT := D - (c1 - (c2 - 2 * w2))).
  destruct (Rlt_dec EPS _) as [|N]; [same ltac:(fun _ => gcase T w1 DT w2)|]. destruct C as [->|C]; [|contradiction]. same ltac:(fun _ => gcase T w1 DT T).
Qed.
Lemma gau_top_pair T f1 c1 w1 f2 c2 w2 D : 0 < T -> 0 < w1 -> 0 < w2 -> e_mix_gau_top E log_erfc erfc T f1 c1 w1 f2 c2 w2 D = mix_gau_top log_erfc erfc T f1 c1 w1 f2 c2 w2 D.
Proof.
  intros T0 W1 W2. unfold e_mix_gau_top, mix_gau_top. cbv zeta. set (DT := D - (c1 - c2)).
  same ltac:(fun _ => apply Rle_trans with (ln 2); [|exact B0];
    first [gb (w1 / T) ((w2 - DT) / w1) | gb (w1 / T) ((w2 + DT) / w1) | gb (w1 / T) ((- w2 + DT) / w1) | gb (w1 / T) ((- w2 - DT) / w1)]).
Qed.
End Gauss.

(** ** The routines *)
Lemma for_ext_in {St} n (f g : nat -> St -> St) : (forall i s, (i < n)%nat -> f i s = g i s) -> forall s, for_ 0 n f s = for_ 0 n g s.
Proof.
  intros H s. unfold for_. assert (A : forall i, In i (seq 0 n) -> (i < n)%nat) by (intros i I; apply in_seq in I; lia). revert s A.
  induction (seq 0 n) as [|i l IH]; intros s A; cbn; [reflexivity|]. rewrite H by (apply A; left; reflexivity). apply IH. intros j J. apply A. right. exact J.
Qed.

Section Families.
Variable amp : R -> R.
Variable icp : nat -> nat.
Variable ilp : nat -> nat -> nat.
Variable n : nat.
Variable pm : arr.
Variable nds : nat.
Section One.
Variables one one' : R -> R -> R -> R -> R -> R.
Hypothesis H : forall T f c w D, 0 < T -> 0 < w -> one T f c w D = one' T f c w D.
Lemma Slc_same t1 t2 l : Slc_of amp icp ilp n one pm t1 t2 nds l = Slc_of amp icp ilp n one' pm t1 t2 nds l.
Proof. unfold Slc_of. cbv zeta. apply for_ext. intros k s. rewrite H by apply exp_pos. reflexivity. Qed.
Lemma Slc_array_same t1 n1 t2 n2 l B : Slc_array_of amp icp ilp n one t1 n1 t2 n2 pm nds l B = Slc_array_of amp icp ilp n one' t1 n1 t2 n2 pm nds l B.
Proof. unfold Slc_array_of. cbv zeta. apply for_ext. intros k s. apply for_ext. intros i s1. apply for_ext. intros j s2. rewrite H by apply exp_pos. reflexivity. Qed.
End One.
Section Pair.
Variables pair pair' : R -> R -> R -> R -> R -> R -> R -> R -> R.
Hypothesis H : forall T f1 c1 w1 f2 c2 w2 D, 0 < T -> 0 < w1 -> 0 < w2 -> pair T f1 c1 w1 f2 c2 w2 D = pair' T f1 c1 w1 f2 c2 w2 D.
Lemma Sll2_same t1 t2 l1 l2 : Sll2_of amp icp ilp n pair pm t1 t2 nds l1 l2 = Sll2_of amp icp ilp n pair' pm t1 t2 nds l1 l2.
Proof. unfold Sll2_of. cbv zeta. apply for_ext. intros k1 s. apply for_ext. intros k2 s2. rewrite H by apply exp_pos. reflexivity. Qed.
Lemma Sll_same t1 t2 l : Sll_of amp icp ilp n pair pm t1 t2 nds l = Sll_of amp icp ilp n pair' pm t1 t2 nds l.
Proof. unfold Sll_of. apply Sll2_same. Qed.
Lemma Sll_array_same t1 n1 l B : Sll_array_of amp icp ilp n pair t1 n1 pm nds l B = Sll_array_of amp icp ilp n pair' t1 n1 pm nds l B.
Proof.
  unfold Sll_array_of. cbv zeta. apply for_ext. intros k1 s. apply for_ext. intros k2 s1. apply for_ext. intros i s2. apply for_ext. intros j s3.
  rewrite H by apply exp_pos. reflexivity.
Qed.
Lemma Sll2_array_same t1 n1 t2 n2 l1 l2 B : Sll2_array_of amp icp ilp n pair t1 n1 t2 n2 pm nds l1 l2 B = Sll2_array_of amp icp ilp n pair' t1 n1 t2 n2 pm nds l1 l2 B.
Proof.
  unfold Sll2_array_of. cbv zeta. apply for_ext. intros k1 s. apply for_ext. intros k2 s1. apply for_ext. intros i s2. apply for_ext. intros j s3.
  rewrite H by apply exp_pos. reflexivity.
Qed.
End Pair.
End Families.

(** the functions with E are the ones of the model when E is exp *)
Theorem C108_same_text log_erfc erfc type_tf flag icp ilp n ty pm nds b1 b2 :
  e_pointers exp log_erfc type_tf flag icp ilp n pm nds = pointers log_erfc type_tf flag icp ilp n pm nds
  /\ e_mixed_kernels exp log_erfc erfc icp ilp n ty pm nds b1 b2 = mixed_kernels log_erfc erfc icp ilp n ty pm nds b1 b2.
Proof. split; reflexivity. Qed.

Lemma kernels_same amp icp ilp n pm nds one one' onea onea' pair pair' paira paira' :
  (forall T f c w D, 0 < T -> 0 < w -> one T f c w D = one' T f c w D) ->
  (forall T f c w D, 0 < T -> 0 < w -> onea T f c w D = onea' T f c w D) ->
  (forall T f1 c1 w1 f2 c2 w2 D, 0 < T -> 0 < w1 -> 0 < w2 -> pair T f1 c1 w1 f2 c2 w2 D = pair' T f1 c1 w1 f2 c2 w2 D) ->
  (forall T f1 c1 w1 f2 c2 w2 D, 0 < T -> 0 < w1 -> 0 < w2 -> paira T f1 c1 w1 f2 c2 w2 D = paira' T f1 c1 w1 f2 c2 w2 D) ->
  Kernels
      (fun t1 t2 l => Slc_of amp icp ilp n one pm t1 t2 nds l)
      (fun t1 t2 l => Sll_of amp icp ilp n pair pm t1 t2 nds l)
      (fun t1 t2 l1 l2 => Sll2_of amp icp ilp n pair pm t1 t2 nds l1 l2)
      (fun t1 n1 t2 n2 l B => Slc_array_of amp icp ilp n onea t1 n1 t2 n2 pm nds l B)
      (fun t1 n1 l B => Sll_array_of amp icp ilp n paira t1 n1 pm nds l B)
      (fun t1 n1 t2 n2 l1 l2 B => Sll2_array_of amp icp ilp n paira t1 n1 t2 n2 pm nds l1 l2 B)
  = Kernels
      (fun t1 t2 l => Slc_of amp icp ilp n one' pm t1 t2 nds l)
      (fun t1 t2 l => Sll_of amp icp ilp n pair' pm t1 t2 nds l)
      (fun t1 t2 l1 l2 => Sll2_of amp icp ilp n pair' pm t1 t2 nds l1 l2)
      (fun t1 n1 t2 n2 l B => Slc_array_of amp icp ilp n onea' t1 n1 t2 n2 pm nds l B)
      (fun t1 n1 l B => Sll_array_of amp icp ilp n paira' t1 n1 pm nds l B)
      (fun t1 n1 t2 n2 l1 l2 B => Sll2_array_of amp icp ilp n paira' t1 n1 t2 n2 pm nds l1 l2 B).
Proof.
  intros A B C D. f_equal.
  - do 3 (apply functional_extensionality; intro). apply Slc_same, A.
  - do 3 (apply functional_extensionality; intro). apply Sll_same, C.
  - do 4 (apply functional_extensionality; intro). apply Sll2_same, C.
  - do 6 (apply functional_extensionality; intro). apply Slc_array_same, B.
  - do 4 (apply functional_extensionality; intro). apply Sll_array_same, D.
  - do 7 (apply functional_extensionality; intro). apply Sll2_array_same, D.
Qed.

(** ** The general model: whatever the parameters, times and data, no exponential is
    taken of a number above ln 2 ... *)
Theorem C108_general log_erfc E type_tf flag icp ilp n pm nds :
  log_erfc_correct log_erfc -> exp_upto (ln 2) E ->
  e_pointers E log_erfc type_tf flag icp ilp n pm nds = pointers log_erfc type_tf flag icp ilp n pm nds.
Proof.
  intros HL HE. assert (H0 : exp_upto 0 E). { intros x X. apply HE. pose proof ln2_pos. lra. }
  pose proof (Rle_refl (ln 2)) as B0. destruct type_tf as [|[|[|t]]].
  - apply kernels_same; intros; [apply (gauss_one log_erfc HL E (ln 2))|apply (gauss_array_one log_erfc HL E (ln 2))
      |apply (gauss_pair log_erfc HL E (ln 2))|apply (gauss_array_pair log_erfc HL E (ln 2))]; assumption.
  - apply kernels_same; intros; [apply (tophat_one E)|apply (tophat_one E)|apply (tophat_pair E)|apply (tophat_pair E)]; assumption.
  - apply kernels_same; intros; [apply (gamma_one E)|apply (gamma_one E)|apply (gamma_pair E)|apply (gamma_pair E)]; assumption.
  - apply kernels_same; intros; [apply (exp_one E)|apply (exp_one E)|apply (exp_pair E)|apply (exp_pair E)]; assumption.
Qed.
(** ... and none of a positive number if the responses are not Gaussian *)
Theorem C108_not_gaussian log_erfc E type_tf flag icp ilp n pm nds :
  type_tf <> 0%nat -> exp_upto 0 E ->
  e_pointers E log_erfc type_tf flag icp ilp n pm nds = pointers log_erfc type_tf flag icp ilp n pm nds.
Proof.
  intros T0 H0.
  destruct type_tf as [|[|[|t]]]; [contradiction| | |].
  - apply kernels_same; intros; [apply (tophat_one E)|apply (tophat_one E)|apply (tophat_pair E)|apply (tophat_pair E)]; assumption.
  - apply kernels_same; intros; [apply (gamma_one E)|apply (gamma_one E)|apply (gamma_pair E)|apply (gamma_pair E)]; assumption.
  - apply kernels_same; intros; [apply (exp_one E)|apply (exp_one E)|apply (exp_pair E)|apply (exp_pair E)]; assumption.
Qed.

(** ** The mixed model: the same, except that a top-hat together with a gamma or
    exponential response needs the exponential of its width over the damping time, and
    except for gamma scales inside the tolerance band (C64) *)
Definition no_wide_tophat (b taud : R) (n : nat) (ty : nat -> nat) (c : nat -> comp) : Prop :=
  (exists k, (k < n)%nat /\ (2 <= ty k)%nat) -> forall k, (k < n)%nat -> ty k = 1%nat -> width (c k) / taud <= b.

Section Mixed.
Variables log_erfc erfc : R -> R.
Hypothesis HL : log_erfc_correct log_erfc.
Variable E : R -> R.
Variable b : R.
Hypothesis B0 : ln 2 <= b.
Hypothesis HE : exp_upto b E.
Variable icp : nat -> nat.
Variable ilp : nat -> nat -> nat.
Variable n : nat.
Variable ty : nat -> nat.
Variable pm : arr.
Variable nds : nat.
Hypothesis Dg : digits n ty.
Notation taud := (damping pm icp nds).
Definition harmless (l : nat) : Prop :=
  no_wide_tophat b taud n ty (line exp pm ilp nds l)
  /\ forall k, (k < n)%nat -> ty k = 2%nat -> width (line exp pm ilp nds l k) = taud \/ EPS < Rabs (taud - width (line exp pm ilp nds l k)).

Lemma H0 : exp_upto 0 E.
Proof. intros x X. apply HE. pose proof ln2_pos. lra. Qed.
Lemma b0 : 0 <= b.
Proof. pose proof ln2_pos. lra. Qed.

Lemma one_scalar l k D : (k < n)%nat -> one_of icp ilp (nth (ty k) (e_FP_Slc E log_erfc) no_one) pm nds l k D = one_of icp ilp (nth (ty k) (FP_Slc log_erfc) no_one) pm nds l k D.
Proof.
  intros K. specialize (Dg k K). pose proof H0 as HZ. unfold one_of. cbv zeta.
  destruct (ty k) as [|[|[|[|t]]]]; [| | | |lia]; cbn [nth e_FP_Slc FP_Slc];
    [apply (gauss_one log_erfc HL E b)|apply tophat_one|apply gamma_one|apply exp_one]; try assumption; apply exp_pos.
Qed.
Lemma one_array l k D : (k < n)%nat -> one_of icp ilp (nth (ty k) (e_FP_Slc_array E log_erfc) no_one) pm nds l k D = one_of icp ilp (nth (ty k) (FP_Slc_array log_erfc) no_one) pm nds l k D.
Proof.
  intros K. specialize (Dg k K). pose proof H0 as HZ. unfold one_of. cbv zeta.
  destruct (ty k) as [|[|[|[|t]]]]; [| | | |lia]; cbn [nth e_FP_Slc_array FP_Slc_array];
    [apply (gauss_array_one log_erfc HL E b)|apply tophat_one|apply gamma_one|apply exp_one]; try assumption; apply exp_pos.
Qed.

Section Two.
Variables l1 l2 : nat.
Hypothesis H1 : harmless l1.
Hypothesis H2 : harmless l2.
Variables k1 k2 : nat.
Hypothesis K1 : (k1 < n)%nat.
Hypothesis K2 : (k2 < n)%nat.
Lemma gam_clear l k : harmless l -> (k < n)%nat -> ty k = 2%nat ->
  exp (pm (ilp nds l + 1 + k * 3 + 2)%nat) = exp (pm (icp nds + 2)%nat) \/ EPS < Rabs (exp (pm (icp nds + 2)%nat) - exp (pm (ilp nds l + 1 + k * 3 + 2)%nat)).
Proof.
  intros [_ C] K T2. replace (k * 3)%nat with (3 * k)%nat by lia. apply (C k K T2).
Qed.
Lemma top_narrow l k k' : harmless l -> (k < n)%nat -> ty k = 1%nat -> (k' < n)%nat -> (2 <= ty k')%nat ->
  exp (pm (ilp nds l + 1 + k * 3 + 2)%nat) / exp (pm (icp nds + 2)%nat) <= b.
Proof.
  intros [C _] K T1 K' T2. replace (k * 3)%nat with (3 * k)%nat by lia. apply (C (ex_intro _ k' (conj K' T2)) k K T1).
Qed.
Ltac close :=
  pose proof H0 as HZ; pose proof b0 as BZ;
  lazymatch goal with
  | |- e_sll1_gauss _ _ _ _ _ _ _ _ _ _ = _ => apply (gauss_pair log_erfc HL E b)
  | |- e_sll1_array_gauss _ _ _ _ _ _ _ _ _ _ = _ => apply (gauss_array_pair log_erfc HL E b)
  | |- e_mix_gau_top _ _ _ _ _ _ _ _ _ _ _ = _ => apply (gau_top_pair log_erfc erfc HL E b)
  | |- e_mix_gau_gam _ _ _ _ _ _ _ _ _ _ = _ => apply (gau_gam_pair log_erfc HL E b)
  | |- e_mix_gau_exp _ _ _ _ _ _ _ _ _ _ = _ => apply (gau_exp_pair log_erfc HL E b)
  | |- e_sll1_tophat _ _ _ _ _ _ _ _ _ = _ => apply (tophat_pair E HZ)
  | |- e_sll1_gamma _ _ _ _ _ _ _ _ _ = _ => apply (gamma_pair E HZ)
  | |- e_sll1_exp _ _ _ _ _ _ _ _ _ = _ => apply (exp_pair E HZ)
  | |- e_mix_exp_gam _ _ _ _ _ _ _ _ _ = _ => apply (exp_gam_pair E HZ)
  | |- e_mix_exp_gam_array _ _ _ _ _ _ _ _ _ = _ => apply (exp_gam_pair E HZ)
  | |- e_mix_exp_top _ _ _ _ _ _ _ _ _ = _ => apply (exp_top_pair E b BZ HE)
  | |- e_mix_gam_top _ _ _ _ _ _ _ _ _ = _ => apply (gam_top_pair E b BZ HE)
  end;
  try assumption; try apply exp_pos;
  lazymatch goal with
  | |- _ \/ _ => apply gam_clear; assumption
  | |- exp (pm (ilp nds l1 + _ + _ + _)%nat) / _ <= b => apply (top_narrow l1 k1 k2); (assumption || lia)
  | |- exp (pm (ilp nds l2 + _ + _ + _)%nat) / _ <= b => apply (top_narrow l2 k2 k1); (assumption || lia)
  end.
Lemma pair_scalar t1 t2 :
  pair_of icp ilp (nth (ty k1 * 4 + ty k2)%nat (e_FP_Sll E log_erfc erfc) no_pair) pm nds l1 l2 k1 k2 t1 t2
  = pair_of icp ilp (nth (ty k1 * 4 + ty k2)%nat (FP_Sll log_erfc erfc) no_pair) pm nds l1 l2 k1 k2 t1 t2.
Proof.
  pose proof (Dg k1 K1) as D1. pose proof (Dg k2 K2) as D2. unfold pair_of. cbv zeta.
  destruct (ty k1) as [|[|[|[|a]]]] eqn:A1; [| | | |lia]; (destruct (ty k2) as [|[|[|[|a2]]]] eqn:A2; [| | | |lia]);
    cbn [nth Nat.mul Nat.add e_FP_Sll FP_Sll]; unfold direct, swapped, swapped'; close.
Qed.
Lemma pair_array t1 t2 :
  pair_of icp ilp (nth (ty k1 * 4 + ty k2)%nat (e_FP_Sll_array E log_erfc erfc) no_pair) pm nds l1 l2 k1 k2 t1 t2
  = pair_of icp ilp (nth (ty k1 * 4 + ty k2)%nat (FP_Sll_array log_erfc erfc) no_pair) pm nds l1 l2 k1 k2 t1 t2.
Proof.
  pose proof (Dg k1 K1) as D1. pose proof (Dg k2 K2) as D2. unfold pair_of. cbv zeta.
  destruct (ty k1) as [|[|[|[|a]]]] eqn:A1; [| | | |lia]; (destruct (ty k2) as [|[|[|[|a2]]]] eqn:A2; [| | | |lia]);
    cbn [nth Nat.mul Nat.add e_FP_Sll_array FP_Sll_array]; unfold direct, swapped, swapped'; close.
Qed.
Lemma pair_array2 t1 t2 :
  pair_of icp ilp (nth (ty k1 * 4 + ty k2)%nat (e_FP_Sll2_array E log_erfc erfc) no_pair) pm nds l1 l2 k1 k2 t1 t2
  = pair_of icp ilp (nth (ty k1 * 4 + ty k2)%nat (FP_Sll2_array log_erfc erfc) no_pair) pm nds l1 l2 k1 k2 t1 t2.
Proof.
  pose proof (Dg k1 K1) as D1. pose proof (Dg k2 K2) as D2. unfold pair_of. cbv zeta.
  destruct (ty k1) as [|[|[|[|a]]]] eqn:A1; [| | | |lia]; (destruct (ty k2) as [|[|[|[|a2]]]] eqn:A2; [| | | |lia]);
    cbn [nth Nat.mul Nat.add e_FP_Sll2_array FP_Sll2_array]; unfold direct, swapped, swapped'; close.
Qed.
End Two.

Theorem C108_mixed b1 b2 :
  let K' := e_mixed_kernels E log_erfc erfc icp ilp n ty pm nds b1 b2 in
  let K := mixed_kernels log_erfc erfc icp ilp n ty pm nds b1 b2 in
  (forall t1 t2 l, k_lc K' t1 t2 l = k_lc K t1 t2 l)
  /\ (forall t1 n1 t2 n2 l B, k_lc_array K' t1 n1 t2 n2 l B = k_lc_array K t1 n1 t2 n2 l B)
  /\ (forall t1 t2 l, harmless l -> k_ll K' t1 t2 l = k_ll K t1 t2 l)
  /\ (forall t1 t2 l1 l2, harmless l1 -> harmless l2 -> k_ll2 K' t1 t2 l1 l2 = k_ll2 K t1 t2 l1 l2)
  /\ (forall t1 n1 l B, harmless l -> k_ll_array K' t1 n1 l B = k_ll_array K t1 n1 l B)
  /\ (forall t1 n1 t2 n2 l1 l2 B, harmless l1 -> harmless l2 -> k_ll2_array K' t1 n1 t2 n2 l1 l2 B = k_ll2_array K t1 n1 t2 n2 l1 l2 B).
Proof.
  cbv zeta. cbn [k_lc k_lc_array k_ll k_ll2 k_ll_array k_ll2_array e_mixed_kernels mixed_kernels]. repeat split.
  - intros. unfold e_Slc_mmap, Slc_mmap. apply for_ext_in. intros k s K. rewrite one_scalar by exact K. reflexivity.
  - intros. f_equal. unfold e_Slc_array_mmap, Slc_array_mmap. cbv zeta. apply for_ext_in. intros k [S0 S1] K.
    match goal with |- (_, ?x) = (_, ?y) => assert (X : x = y) end; [|rewrite X; reflexivity].
    apply for_ext. intros i s. apply for_ext. intros j s'. rewrite one_array by exact K. reflexivity.
  - intros. unfold e_Sll_mmap, Sll_mmap. apply for_ext_in. intros k1 s K1. apply for_ext_in. intros k2 s' K2. rewrite pair_scalar by assumption. reflexivity.
  - intros. unfold e_Sll2_mmap, Sll2_mmap. apply for_ext_in. intros k1 s K1. apply for_ext_in. intros k2 s' K2. rewrite pair_scalar by assumption. reflexivity.
  - intros. f_equal. unfold e_Sll_array_mmap, Sll_array_mmap. cbv zeta. apply for_ext_in. intros k1 s K1. apply for_ext_in. intros k2 [S0 S1] K2.
    match goal with |- (_, ?x) = (_, ?y) => assert (X : x = y) end; [|rewrite X; reflexivity].
    apply for_ext. intros i s0. apply for_ext. intros j s'. rewrite pair_array by assumption. reflexivity.
  - intros. f_equal. unfold e_Sll2_array_mmap, Sll2_array_mmap. cbv zeta. apply for_ext_in. intros k1 s K1. apply for_ext_in. intros k2 [S0 S1] K2.
    match goal with |- (_, ?x) = (_, ?y) => assert (X : x = y) end; [|rewrite X; reflexivity].
    apply for_ext. intros i s0. apply for_ext. intros j s'. rewrite pair_array2 by assumption. reflexivity.
Qed.
End Mixed.

(** ** ... which is a restriction: a line made of an exponential response of scale 1 and a
    top-hat of half width 1000 with damping time 1.  An exponential that is right up to
    709, the range of the doubles, is not enough for the covariance at two times 2000
    apart; the covariance itself is an ordinary number. *)
Definition pm31 : arr := fun i => match i with 9%nat => ln 1000 | _ => 0 end.
Definition ty31 : nat -> nat := fun k => match k with O => 3%nat | _ => 1%nat end.
Definition cut (b x : R) : R := if Rle_dec x b then exp x else 0.
Lemma cut_upto b : exp_upto b (cut b).
Proof. intros x X. unfold cut. destruct (Rle_dec x b); [reflexivity|contradiction]. Qed.

Lemma far_value E w D : 0 < w -> D + 1 <= - w ->
  e_mix_exp_top E 1 1 0 1 1 0 w D = / 2 * E (D + 1) * (E w - E (- w)) * / (2 * w).
Proof.
  intros W N. unfold e_mix_exp_top. cbv zeta. replace (D - (0 - 1 - 0)) with (D + 1) by ring. destruct (Rle_dec (D + 1) (- w)) as [_|N']; [|contradiction].
  replace ((D + 1) / 1) with (D + 1) by field. replace (w / 1) with w by field. replace (- w / 1) with (- w) by field. field. lra.
Qed.
Lemma near_pair E T f1 c1 w1 f2 c2 w2 D : exp_upto 0 E -> 0 < T -> 0 < w1 -> 0 < w2 -> - w2 < D - (c1 - w1 - c2) ->
  e_mix_exp_top E T f1 c1 w1 f2 c2 w2 D = mix_exp_top T f1 c1 w1 f2 c2 w2 D.
Proof.
  intros HE T0 W1 W2 N. unfold e_mix_exp_top, mix_exp_top. cbv zeta. set (DT := D - (c1 - w1 - c2)) in *.
  destruct (Rle_dec DT (- w2)); [lra|]. destruct (Rle_dec DT w2); destruct (Rlt_dec EPS _); same ltac:(fun _ => nonpos).
Qed.

Theorem C108_mixed_refuted log_erfc erfc :
  exists pm E, exp_upto 709 E
  /\ damping pm (fun _ => 0%nat) 0%nat = 1
  /\ stored exp pm 3 0 = Comp 1 0 1 /\ stored exp pm 3 1 = Comp 1 0 1000
  /\ e_Sll_mmap E log_erfc erfc (fun _ => 0%nat) (fun _ _ => 3%nat) 2 ty31 0 2000 pm 0 0
     <> Sll_mmap log_erfc erfc (fun _ => 0%nat) (fun _ _ => 3%nat) 2 ty31 0 2000 pm 0 0.
Proof.
  exists pm31, (cut 709). split; [apply cut_upto|]. split; [cbn; apply exp_0|]. apply and_assoc. split.
  { unfold stored; cbn; rewrite ?exp_0, ?(exp_ln 1000) by lra; split; reflexivity. }
  assert (X0 : exp_upto 0 (cut 709)) by (intros x X; apply cut_upto; lra).
  unfold e_Sll_mmap, Sll_mmap, for_. cbn [seq fold_left ty31 Nat.mul Nat.add nth e_FP_Sll FP_Sll]. unfold pair_of, direct, swapped. cbv zeta.
  cbn [Nat.mul Nat.add pm31]. rewrite exp_0, (exp_ln 1000) by lra.
  rewrite (exp_pair (cut 709) X0), (tophat_pair (cut 709) X0) by lra.
  rewrite (near_pair (cut 709) 1 1 0 1 1 0 1000 (2000 - 0) X0) by lra.
  change (mix_exp_top 1 1 0 1 1 0 1000 (0 - 2000)) with (e_mix_exp_top exp 1 1 0 1 1 0 1000 (0 - 2000)).
  rewrite !far_value by lra.
  assert (A : cut 709 1000 = 0) by (unfold cut; destruct (Rle_dec 1000 709); [lra|reflexivity]). rewrite A.
  rewrite (cut_upto 709 (0 - 2000 + 1)), (cut_upto 709 (Ropp 1000)) by lra.
  pose proof (exp_pos (0 - 2000 + 1)). pose proof (exp_pos 1000). intros Q. assert (0 < exp (0 - 2000 + 1) * exp 1000) by (apply Rmult_lt_0_compat; lra).
  set (x := exp (0 - 2000 + 1)) in *. set (y := exp 1000) in *. set (z := exp (Ropp 1000)) in *. lra.
Qed.

(** ** In doubles that branch gives NaN, for every exp of the C library that overflows
    above 710 and underflows to 0 below -746 *)
Record libm_exp (fexp : b64 -> b64) : Prop := {
  exp_large : forall x, is_finite x = true -> 710 <= B2R x -> fexp x = B754_infinity false;
  exp_small : forall x, is_finite x = true -> B2R x <= - 746 -> fexp x = B754_zero false;
  exp_neg : forall x, is_finite x = true -> B2R x <= 0 -> is_finite (fexp x) = true }.
Definition far_apart (taud wg2 DT : b64) : Prop :=
  (is_finite (fdiv DT taud) = true /\ B2R (fdiv DT taud) <= - 746)
  /\ (is_finite (fdiv wg2 taud) = true /\ 710 <= B2R (fdiv wg2 taud))
  /\ (is_finite (fdiv (Bopp wg2) taud) = true /\ B2R (fdiv (Bopp wg2) taud) <= 0).

Lemma far_nan fexp scale taud wg2 DT fg12 : libm_exp fexp -> far_apart taud wg2 DT -> is_finite (fmul scale taud) = true ->
  f_far fexp scale taud wg2 DT fg12 = B754_nan.
Proof.
  intros [EL ES EN] [[F1 Q1] [[F2 Q2] [F3 Q3]]] FS. unfold f_far. cbv zeta. rewrite (ES _ F1 Q1), (EL _ F2 Q2).
  pose proof (EN _ F3 Q3) as F4. destruct (fexp (fdiv (Bopp wg2) taud)) as [s| | |s m e h]; try discriminate;
  (destruct (fmul scale taud) as [s'| | |s' m' e' h']; try discriminate; cbn; destruct fg12; reflexivity).
Qed.
Theorem C108_overflow fexp taud wg1 wg2 DT fg12 : libm_exp fexp -> far_apart taud wg2 DT ->
  (is_finite (fmul (fdiv one (f_p1 taud wg1)) taud) = true -> f_exp_top_far fexp taud wg1 wg2 DT fg12 = B754_nan)
  /\ (is_finite (fmul (fdiv one (fmul (f_p1 taud wg1) (f_p1 taud wg1))) taud) = true -> f_gam_top_far fexp taud wg1 wg2 DT fg12 = B754_nan).
Proof. intros L F. split; intros S; apply far_nan; assumption. Qed.

(** ** Cases *)
(** an exponential that is not right above ln 2 and the Gaussian model: the variance of
    one line *)
Example C108_general_case (log_erfc : R -> R) : log_erfc_correct log_erfc ->
  k_ll (e_pointers (cut (ln 2)) log_erfc 0 false (fun _ => 0%nat) (fun _ _ => 3%nat) 2 pm31 0) 0 2000 0%nat
  = k_ll (pointers log_erfc 0 false (fun _ => 0%nat) (fun _ _ => 3%nat) 2 pm31 0) 0 2000 0%nat
  /\ cut (ln 2) 1 = 0.
Proof.
  intros HL. split; [rewrite (C108_general log_erfc (cut (ln 2))); [reflexivity|exact HL|apply cut_upto]|].
  unfold cut. destruct (Rle_dec 1 (ln 2)) as [L|]; [|reflexivity]. exfalso. pose proof ln_lt_2. 
  assert (exp 1 <= 2). { rewrite <- (exp_ln 2) by lra. destruct L as [L|L]; [left; apply exp_increasing, L|right; f_equal; exact L]. }
  pose proof (exp_ineq1 1 ltac:(lra)). lra.
Qed.
(** the line of the refutation meets the conditions of C108_mixed for an exponential
    right up to 1000 *)
Example C108_mixed_case (log_erfc erfc : R -> R) : log_erfc_correct log_erfc ->
  e_Sll_mmap (cut 1000) log_erfc erfc (fun _ => 0%nat) (fun _ _ => 3%nat) 2 ty31 0 2000 pm31 0 0
  = Sll_mmap log_erfc erfc (fun _ => 0%nat) (fun _ _ => 3%nat) 2 ty31 0 2000 pm31 0 0.
Proof.
  intros HL. assert (B : ln 2 <= 1000). { apply exp_le_inv. rewrite exp_ln by lra. pose proof (exp_ineq1 1000 ltac:(lra)). lra. }
  assert (Dg : digits 2 ty31) by (intros [|k] K; cbn; lia).
  destruct (C108_mixed log_erfc erfc HL (cut 1000) 1000 B (cut_upto 1000) (fun _ => 0%nat) (fun _ _ => 3%nat) 2 ty31 pm31 0 Dg (fun _ => 0) (fun _ => 0)) as (_ & _ & S & _).
  apply S. split.
  - intros _ [|[|k]] K T; [discriminate| |lia]. unfold line, stored. cbn. rewrite exp_0, exp_ln by lra. lra.
  - intros [|[|k]] K T; [|cbn in T; lia|lia]. left. cbn. reflexivity.
Qed.
(** damping time 1, a top-hat of half width 1000, two times 1999 apart *)
Definition d1 : b64 := one.
Definition d1000 : b64 := @B754_finite 53 1024 false 8796093022208000 (-43) eq_refl.
Definition m1999 : b64 := @B754_finite 53 1024 true 8791694975696896 (-42) eq_refl.
Example C108_overflow_case : far_apart d1 d1000 m1999 /\ is_finite (fmul (fdiv one (f_p1 d1 d1)) d1) = true /\ B2R d1000 = 1000 /\ B2R m1999 = - 1999.
Proof.
  assert (Q1 : fdiv m1999 d1 = m1999) by (apply B2SF_inj; vm_compute; reflexivity).
  assert (Q2 : fdiv d1000 d1 = d1000) by (apply B2SF_inj; vm_compute; reflexivity).
  assert (Q3 : fdiv (Bopp d1000) d1 = Bopp d1000) by (apply B2SF_inj; vm_compute; reflexivity).
  assert (V1 : B2R d1000 = 1000) by (unfold d1000, B2R, F2R; cbn; lra).
  assert (V2 : B2R m1999 = - 1999) by (unfold m1999, B2R, F2R; cbn; lra).
  unfold far_apart. rewrite Q1, Q2, Q3. rewrite B2R_Bopp, V1, V2. repeat split; try lra; vm_compute; reflexivity.
Qed.
Print Assumptions C108_same_text.
Print Assumptions C108_general.
Print Assumptions C108_not_gaussian.
Print Assumptions C108_mixed.
Print Assumptions C108_mixed_refuted.
Print Assumptions C108_overflow.
