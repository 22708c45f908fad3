(** C31-C35: the covariance functions between a continuum and its lines.

    Specification: KernelSpec.v (the damped random walk, transfer functions as
    sums of components, covariances as improper integrals).  [amp] is [exp] for
    the routines that store the logarithm of an amplitude and the identity for
    the [_linear] routines; the theorems hold for any decoding. *)
From Coq Require Import Reals Lra Lia Arith.
From Coquelicot Require Import Coquelicot.
From Verif Require Import SemisepModel SemisepProofs KernelCalc KernelSpec KernelModel KernelLift KernelTophat KernelExp KernelExp2 KernelExp3
  KernelGauss KernelGauss2 KernelSym KernelBand KernelBand2.
Open Scope R_scope.

(** the parameters as the routines find them *)
Notation damping pm icp nds := (exp (pm (icp nds + 2)%nat)).
Notation line amp pm ilp nds nls := (stored amp pm (ilp nds nls)).

(** a component is clear of the tolerance band of the special branch when its
    width differs from the damping time by at least the fraction EPS, or not at
    all *)
Definition clear (taud : R) (n : nat) (c : nat -> comp) : Prop :=
  forall k, (k < n)%nat -> EPS <= Rabs (taud - width (c k)) / taud \/ width (c k) = taud.

Section Statements.
Variable amp : R -> R.
Variable icp : nat -> nat.
Variable ilp : nat -> nat -> nat.
Variable n : nat.

Lemma width_pos pm s k : 0 < width (stored amp pm s k).
Proof. apply exp_pos. Qed.

(** ** C31 *)
Theorem C31_tophat_continuum_line pm tcon tline nds nls :
  cov_cl (response tophat n (line amp pm ilp nds nls)) (damping pm icp nds) tcon tline
    (Slc_tophat amp icp ilp n pm tcon tline nds nls).
Proof.
  unfold Slc_tophat. rewrite Slc_of_sum. apply cov_cl_sum. intros k _. cbv zeta. apply tophat_cl; apply exp_pos.
Qed.
Theorem C31_tophat_line_line pm t1 t2 nds nls1 nls2 :
  cov_ll (response tophat n (line amp pm ilp nds nls1)) (response tophat n (line amp pm ilp nds nls2)) (damping pm icp nds) t1 t2
    (Sll2_tophat amp icp ilp n pm t1 t2 nds nls1 nls2).
Proof.
  unfold Sll2_tophat. rewrite Sll2_of_sum.
  apply (cov_ll_sum tophat n _ n _ (damping pm icp nds) t1 t2 (fun k2 a => let c := line amp pm ilp nds nls2 k2 in
     slc1_tophat (damping pm icp nds) (area c) (centre c) (width c) (t2 - (t1 - a)))).
  - intros k2 a _. cbv zeta. apply tophat_cl; apply exp_pos.
  - intros k1 k2 _ _. cbv zeta. apply tophat_ll; apply exp_pos.
Qed.
Theorem C31_tophat_one_line pm t1 t2 nds nls :
  cov_ll (response tophat n (line amp pm ilp nds nls)) (response tophat n (line amp pm ilp nds nls)) (damping pm icp nds) t1 t2
    (Sll_tophat amp icp ilp n pm t1 t2 nds nls).
Proof. apply C31_tophat_line_line. Qed.

(** ** C32 *)
Theorem C32_exponential_continuum_line pm tcon tline nds nls :
  clear (damping pm icp nds) n (line amp pm ilp nds nls) ->
  cov_cl (response exponential n (line amp pm ilp nds nls)) (damping pm icp nds) tcon tline
    (Slc_exp amp icp ilp n pm tcon tline nds nls).
Proof.
  intros C. unfold Slc_exp. rewrite Slc_of_sum. apply cov_cl_sum. intros k K. cbv zeta.
  rewrite slc1_exp_exact by (try apply exp_pos; apply C, K). apply exp_cl; apply exp_pos.
Qed.
Theorem C32_exponential_line_line pm t1 t2 nds nls1 nls2 :
  clear (damping pm icp nds) n (line amp pm ilp nds nls1) -> clear (damping pm icp nds) n (line amp pm ilp nds nls2) ->
  cov_ll (response exponential n (line amp pm ilp nds nls1)) (response exponential n (line amp pm ilp nds nls2)) (damping pm icp nds) t1 t2
    (Sll2_exp amp icp ilp n pm t1 t2 nds nls1 nls2).
Proof.
  intros C1 C2. unfold Sll2_exp. rewrite Sll2_of_sum.
  apply (cov_ll_sum exponential n _ n _ (damping pm icp nds) t1 t2 (fun k2 a => let c := line amp pm ilp nds nls2 k2 in
     area c * cE (damping pm icp nds) (width c) (t2 - (t1 - a) - (centre c - width c)))).
  - intros k2 a _. cbv zeta. apply exp_cl; apply exp_pos.
  - intros k1 k2 K1 K2. cbv zeta. rewrite sll1_exp_exact by (first [apply exp_pos|apply C1, K1|apply C2, K2]). apply exp_ll; apply exp_pos.
Qed.
Theorem C32_exponential_one_line pm t1 t2 nds nls :
  clear (damping pm icp nds) n (line amp pm ilp nds nls) ->
  cov_ll (response exponential n (line amp pm ilp nds nls)) (response exponential n (line amp pm ilp nds nls)) (damping pm icp nds) t1 t2
    (Sll_exp amp icp ilp n pm t1 t2 nds nls).
Proof. intros C. apply C32_exponential_line_line; exact C. Qed.

Lemma sum_error m (f g : nat -> R) (w : nat -> R) k : (forall i, (i < m)%nat -> Rabs (f i - g i) <= w i * k) ->
  Rabs (sumn m f - sumn m g) <= k * sumn m w.
Proof.
  induction m as [|m IH]; intros H; cbn [sumn].
  - rewrite Rminus_diag_eq, Rabs_R0 by reflexivity. lra.
  - replace (sumn m f + f m - (sumn m g + g m)) with ((sumn m f - sumn m g) + (f m - g m)) by ring.
    eapply Rle_trans; [apply Rabs_triang|]. rewrite Rmult_plus_distr_l. apply Rplus_le_compat; [apply IH; intros; apply H; lia|].
    rewrite Rmult_comm. apply H. lia.
Qed.

Lemma sum_error' m (f g : nat -> R) (w : nat -> R) k : (forall i, (i < m)%nat -> Rabs (f i - g i) <= w i * k) ->
  Rabs (sumn m f - sumn m g) <= sumn m w * k.
Proof. intros H. rewrite (Rmult_comm _ k). apply sum_error, H. Qed.

(** inside the band, too, the value is within a few EPS of the covariance *)
Theorem C32_exponential_accuracy_continuum_line pm tcon tline nds nls :
  exists v, cov_cl (response exponential n (line amp pm ilp nds nls)) (damping pm icp nds) tcon tline v
    /\ Rabs (Slc_exp amp icp ilp n pm tcon tline nds nls - v) <= 2 * EPS * sumn n (fun k => Rabs (area (line amp pm ilp nds nls k))).
Proof.
  eexists. split.
  - apply cov_cl_sum. intros k _. apply exp_cl; apply exp_pos.
  - unfold Slc_exp. rewrite Slc_of_sum. apply sum_error. intros k _. cbv zeta. apply slc1_exp_error; apply exp_pos.
Qed.
Theorem C32_exponential_accuracy_line_line pm t1 t2 nds nls1 nls2 :
  exists v, cov_ll (response exponential n (line amp pm ilp nds nls1)) (response exponential n (line amp pm ilp nds nls2)) (damping pm icp nds) t1 t2 v
    /\ Rabs (Sll2_exp amp icp ilp n pm t1 t2 nds nls1 nls2 - v)
       <= 4 * EPS * sumn n (fun k1 => sumn n (fun k2 => Rabs (area (line amp pm ilp nds nls1 k1) * area (line amp pm ilp nds nls2 k2)))).
Proof.
  eexists. split.
  - apply (cov_ll_sum exponential n _ n _ (damping pm icp nds) t1 t2 (fun k2 a => let c := line amp pm ilp nds nls2 k2 in
     area c * cE (damping pm icp nds) (width c) (t2 - (t1 - a) - (centre c - width c)))).
    + intros k2 a _. cbv zeta. apply exp_cl; apply exp_pos.
    + intros k1 k2 K1 K2. cbv zeta. apply exp_ll; apply exp_pos.
  - unfold Sll2_exp. rewrite Sll2_of_sum. apply sum_error. intros k1 _. apply sum_error'. intros k2 _. cbv zeta.
    apply sll1_exp_error; apply exp_pos.
Qed.

(** ** C33 *)
Theorem C33_gamma_continuum_line pm tcon tline nds nls :
  clear (damping pm icp nds) n (line amp pm ilp nds nls) ->
  cov_cl (response gamma2 n (line amp pm ilp nds nls)) (damping pm icp nds) tcon tline
    (Slc_gamma amp icp ilp n pm tcon tline nds nls).
Proof.
  intros C. unfold Slc_gamma. rewrite Slc_of_sum. apply cov_cl_sum. intros k K. cbv zeta.
  rewrite slc1_gamma_exact by (try apply exp_pos; apply C, K). apply gamma_cl; apply exp_pos.
Qed.
Theorem C33_gamma_line_line pm t1 t2 nds nls1 nls2 :
  clear (damping pm icp nds) n (line amp pm ilp nds nls1) -> clear (damping pm icp nds) n (line amp pm ilp nds nls2) ->
  cov_ll (response gamma2 n (line amp pm ilp nds nls1)) (response gamma2 n (line amp pm ilp nds nls2)) (damping pm icp nds) t1 t2
    (Sll2_gamma amp icp ilp n pm t1 t2 nds nls1 nls2).
Proof.
  intros C1 C2. unfold Sll2_gamma. rewrite Sll2_of_sum.
  apply (cov_ll_sum gamma2 n _ n _ (damping pm icp nds) t1 t2 (fun k2 a => let c := line amp pm ilp nds nls2 k2 in
     area c * cG (damping pm icp nds) (width c) (t2 - (t1 - a) - (centre c - 2 * width c)))).
  - intros k2 a _. cbv zeta. apply gamma_cl; apply exp_pos.
  - intros k1 k2 K1 K2. cbv zeta. rewrite sll1_gamma_exact by (first [apply exp_pos|apply C1, K1|apply C2, K2]). apply gamma_ll; apply exp_pos.
Qed.
Theorem C33_gamma_one_line pm t1 t2 nds nls :
  clear (damping pm icp nds) n (line amp pm ilp nds nls) ->
  cov_ll (response gamma2 n (line amp pm ilp nds nls)) (response gamma2 n (line amp pm ilp nds nls)) (damping pm icp nds) t1 t2
    (Sll_gamma amp icp ilp n pm t1 t2 nds nls).
Proof. intros C. apply C33_gamma_line_line; exact C. Qed.
Theorem C33_gamma_accuracy_continuum_line pm tcon tline nds nls :
  exists v, cov_cl (response gamma2 n (line amp pm ilp nds nls)) (damping pm icp nds) tcon tline v
    /\ Rabs (Slc_gamma amp icp ilp n pm tcon tline nds nls - v) <= 6 * EPS * sumn n (fun k => Rabs (area (line amp pm ilp nds nls k))).
Proof.
  eexists. split.
  - apply cov_cl_sum. intros k _. apply gamma_cl; apply exp_pos.
  - unfold Slc_gamma. rewrite Slc_of_sum. apply sum_error. intros k _. cbv zeta. apply slc1_gamma_error; apply exp_pos.
Qed.
Theorem C33_gamma_accuracy_line_line pm t1 t2 nds nls1 nls2 :
  exists v, cov_ll (response gamma2 n (line amp pm ilp nds nls1)) (response gamma2 n (line amp pm ilp nds nls2)) (damping pm icp nds) t1 t2 v
    /\ Rabs (Sll2_gamma amp icp ilp n pm t1 t2 nds nls1 nls2 - v)
       <= 50 * EPS * sumn n (fun k1 => sumn n (fun k2 => Rabs (area (line amp pm ilp nds nls1 k1) * area (line amp pm ilp nds nls2 k2)))).
Proof.
  eexists. split.
  - apply (cov_ll_sum gamma2 n _ n _ (damping pm icp nds) t1 t2 (fun k2 a => let c := line amp pm ilp nds nls2 k2 in
     area c * cG (damping pm icp nds) (width c) (t2 - (t1 - a) - (centre c - 2 * width c)))).
    + intros k2 a _. cbv zeta. apply gamma_cl; apply exp_pos.
    + intros k1 k2 K1 K2. cbv zeta. apply gamma_ll; apply exp_pos.
  - unfold Sll2_gamma. rewrite Sll2_of_sum. apply sum_error. intros k1 _. apply sum_error'. intros k2 _. cbv zeta.
    apply sll1_gamma_error; apply exp_pos.
Qed.

(** ** C34: for any function that is the logarithm of the complementary error function *)
Theorem C34_gaussian_continuum_line log_erfc pm tcon tline nds nls : log_erfc_correct log_erfc ->
  cov_cl (response gaussian n (line amp pm ilp nds nls)) (damping pm icp nds) tcon tline
    (Slc_gauss log_erfc amp icp ilp n pm tcon tline nds nls).
Proof.
  intros HL. unfold Slc_gauss. rewrite Slc_of_sum. apply cov_cl_sum. intros k _. cbv zeta. apply gauss_cl; try apply exp_pos. exact HL.
Qed.
Theorem C34_gaussian_line_line log_erfc pm t1 t2 nds nls1 nls2 : log_erfc_correct log_erfc ->
  cov_ll (response gaussian n (line amp pm ilp nds nls1)) (response gaussian n (line amp pm ilp nds nls2)) (damping pm icp nds) t1 t2
    (Sll2_gauss log_erfc amp icp ilp n pm t1 t2 nds nls1 nls2).
Proof.
  intros HL. unfold Sll2_gauss. rewrite Sll2_of_sum.
  apply (cov_ll_sum gaussian n _ n _ (damping pm icp nds) t1 t2 (fun k2 a => let c := line amp pm ilp nds nls2 k2 in
     slc1_gauss log_erfc (damping pm icp nds) (area c) (centre c) (width c) (t2 - (t1 - a)))).
  - intros k2 a _. cbv zeta. apply gauss_cl; try apply exp_pos. exact HL.
  - intros k1 k2 _ _. cbv zeta. apply gauss_ll; try apply exp_pos. exact HL.
Qed.
Theorem C34_gaussian_one_line log_erfc pm t1 t2 nds nls : log_erfc_correct log_erfc ->
  cov_ll (response gaussian n (line amp pm ilp nds nls)) (response gaussian n (line amp pm ilp nds nls)) (damping pm icp nds) t1 t2
    (Sll_gauss log_erfc amp icp ilp n pm t1 t2 nds nls).
Proof. intros HL. apply C34_gaussian_line_line, HL. Qed.

(** ** C35: arrays *)
Lemma Slc_of_ext one one' pm tcon tline nds nls : (forall T f c w D, one T f c w D = one' T f c w D) ->
  Slc_of amp icp ilp n one pm tcon tline nds nls = Slc_of amp icp ilp n one' pm tcon tline nds nls.
Proof. intros H. rewrite !Slc_of_sum. apply sumn_ext. intros. apply H. Qed.
Lemma Sll2_of_ext p p' pm t1 t2 nds a b : (forall T f1 c1 w1 f2 c2 w2 D, p T f1 c1 w1 f2 c2 w2 D = p' T f1 c1 w1 f2 c2 w2 D) ->
  Sll2_of amp icp ilp n p pm t1 t2 nds a b = Sll2_of amp icp ilp n p' pm t1 t2 nds a b.
Proof. intros H. rewrite !Sll2_of_sum. apply sumn_ext. intros. apply sumn_ext. intros. apply H. Qed.

(** row-major blocks; the block of one line against itself is only filled on and
    below the diagonal *)
Definition block (rows cols : nat) (S : arr) (v : nat -> nat -> R) : Prop :=
  forall i j, (i < rows)%nat -> (j < cols)%nat -> S (i * cols + j)%nat = v i j.
Definition lower_block (rows : nat) (S before : arr) (v : nat -> nat -> R) : Prop :=
  forall i j, (i < rows)%nat -> (j < rows)%nat -> S (i * rows + j)%nat = if (j <=? i)%nat then v i j else before (i * rows + j)%nat.

Theorem C35_gaussian_arrays log_erfc pm nds nls nls2 t1 n1 t2 n2 Smat :
  block n1 n2 (Slc_array_gauss log_erfc amp icp ilp n t1 n1 t2 n2 pm nds nls Smat)
    (fun i j => Slc_gauss log_erfc amp icp ilp n pm (t1 i) (t2 j) nds nls)
  /\ block n1 n2 (Sll2_array_gauss log_erfc amp icp ilp n t1 n1 t2 n2 pm nds nls nls2 Smat)
    (fun i j => Sll2_gauss log_erfc amp icp ilp n pm (t1 i) (t2 j) nds nls nls2)
  /\ lower_block n1 (Sll_array_gauss log_erfc amp icp ilp n t1 n1 pm nds nls Smat) Smat
    (fun i j => Sll_gauss log_erfc amp icp ilp n pm (t1 i) (t1 j) nds nls).
Proof.
  repeat apply conj; intros i j I J.
  - unfold Slc_array_gauss, Slc_gauss. rewrite Slc_array_entry by assumption. apply Slc_of_ext. intros. apply slc1_array_gauss_eq.
  - unfold Sll2_array_gauss, Sll2_gauss. rewrite Sll2_array_entry by assumption. apply Sll2_of_ext. intros. apply sll1_array_gauss_eq.
  - unfold Sll_array_gauss, Sll_gauss. rewrite Sll_array_entry by assumption. destruct (j <=? i)%nat; [|reflexivity].
    apply Sll2_of_ext. intros. apply sll1_array_gauss_eq.
Qed.
Theorem C35_tophat_arrays pm nds nls nls2 t1 n1 t2 n2 Smat :
  block n1 n2 (Slc_array_tophat amp icp ilp n t1 n1 t2 n2 pm nds nls Smat) (fun i j => Slc_tophat amp icp ilp n pm (t1 i) (t2 j) nds nls)
  /\ block n1 n2 (Sll2_array_tophat amp icp ilp n t1 n1 t2 n2 pm nds nls nls2 Smat) (fun i j => Sll2_tophat amp icp ilp n pm (t1 i) (t2 j) nds nls nls2)
  /\ lower_block n1 (Sll_array_tophat amp icp ilp n t1 n1 pm nds nls Smat) Smat (fun i j => Sll_tophat amp icp ilp n pm (t1 i) (t1 j) nds nls).
Proof.
  repeat apply conj; intros i j I J.
  - unfold Slc_array_tophat. rewrite Slc_array_entry by assumption. reflexivity.
  - unfold Sll2_array_tophat. rewrite Sll2_array_entry by assumption. reflexivity.
  - unfold Sll_array_tophat. rewrite Sll_array_entry by assumption. reflexivity.
Qed.
Theorem C35_gamma_arrays pm nds nls nls2 t1 n1 t2 n2 Smat :
  block n1 n2 (Slc_array_gamma amp icp ilp n t1 n1 t2 n2 pm nds nls Smat) (fun i j => Slc_gamma amp icp ilp n pm (t1 i) (t2 j) nds nls)
  /\ block n1 n2 (Sll2_array_gamma amp icp ilp n t1 n1 t2 n2 pm nds nls nls2 Smat) (fun i j => Sll2_gamma amp icp ilp n pm (t1 i) (t2 j) nds nls nls2)
  /\ lower_block n1 (Sll_array_gamma amp icp ilp n t1 n1 pm nds nls Smat) Smat (fun i j => Sll_gamma amp icp ilp n pm (t1 i) (t1 j) nds nls).
Proof.
  repeat apply conj; intros i j I J.
  - unfold Slc_array_gamma. rewrite Slc_array_entry by assumption. reflexivity.
  - unfold Sll2_array_gamma. rewrite Sll2_array_entry by assumption. reflexivity.
  - unfold Sll_array_gamma. rewrite Sll_array_entry by assumption. reflexivity.
Qed.
Theorem C35_exponential_arrays pm nds nls nls2 t1 n1 t2 n2 Smat :
  block n1 n2 (Slc_array_exp amp icp ilp n t1 n1 t2 n2 pm nds nls Smat) (fun i j => Slc_exp amp icp ilp n pm (t1 i) (t2 j) nds nls)
  /\ block n1 n2 (Sll2_array_exp amp icp ilp n t1 n1 t2 n2 pm nds nls nls2 Smat) (fun i j => Sll2_exp amp icp ilp n pm (t1 i) (t2 j) nds nls nls2)
  /\ lower_block n1 (Sll_array_exp amp icp ilp n t1 n1 pm nds nls Smat) Smat (fun i j => Sll_exp amp icp ilp n pm (t1 i) (t1 j) nds nls).
Proof.
  repeat apply conj; intros i j I J.
  - unfold Slc_array_exp. rewrite Slc_array_entry by assumption. reflexivity.
  - unfold Sll2_array_exp. rewrite Sll2_array_entry by assumption. reflexivity.
  - unfold Sll_array_exp. rewrite Sll_array_entry by assumption. reflexivity.
Qed.

(** C35: symmetry *)
Lemma Sll2_swap pair pm t1 t2 nds a b :
  (forall k1 k2, (k1 < n)%nat -> (k2 < n)%nat -> let c1 := line amp pm ilp nds a k1 in let c2 := line amp pm ilp nds b k2 in
     pair (damping pm icp nds) (area c1) (centre c1) (width c1) (area c2) (centre c2) (width c2) (t1 - t2)
     = pair (damping pm icp nds) (area c2) (centre c2) (width c2) (area c1) (centre c1) (width c1) (- (t1 - t2))) ->
  Sll2_of amp icp ilp n pair pm t1 t2 nds a b = Sll2_of amp icp ilp n pair pm t2 t1 nds b a.
Proof.
  intros H. rewrite !Sll2_of_sum, sumn_swap. apply sumn_ext. intros k2 K2. apply sumn_ext. intros k1 K1. cbv zeta.
  replace (t2 - t1) with (- (t1 - t2)) by ring. apply H; assumption.
Qed.
Theorem C35_gaussian_symmetric log_erfc pm t1 t2 nds a b :
  Sll2_gauss log_erfc amp icp ilp n pm t1 t2 nds a b = Sll2_gauss log_erfc amp icp ilp n pm t2 t1 nds b a.
Proof. apply Sll2_swap. intros. apply sll1_gauss_sym. Qed.
Theorem C35_tophat_symmetric pm t1 t2 nds a b :
  Sll2_tophat amp icp ilp n pm t1 t2 nds a b = Sll2_tophat amp icp ilp n pm t2 t1 nds b a.
Proof. apply Sll2_swap. intros. apply sll1_tophat_sym; apply exp_pos. Qed.
(** for exponential and gamma responses one case must be excluded: a width inside
    the tolerance band and times exactly at the peak of a pair of components *)
Theorem C35_exponential_symmetric pm t1 t2 nds a b :
  (forall k1 k2, (k1 < n)%nat -> (k2 < n)%nat ->
     let c1 := line amp pm ilp nds a k1 in let c2 := line amp pm ilp nds b k2 in
     t1 - t2 <> (centre c1 - width c1) - (centre c2 - width c2))
  \/ (clear (damping pm icp nds) n (line amp pm ilp nds a) /\ clear (damping pm icp nds) n (line amp pm ilp nds b)) ->
  Sll2_exp amp icp ilp n pm t1 t2 nds a b = Sll2_exp amp icp ilp n pm t2 t1 nds b a.
Proof.
  intros H. apply Sll2_swap. intros k1 k2 K1 K2. cbv zeta. apply sll1_exp_sym; try apply exp_pos.
  destruct H as [H|[H1 H2]]; [right; apply (H k1 k2 K1 K2)|left; split; [apply H1, K1|apply H2, K2]].
Qed.
Theorem C35_gamma_symmetric pm t1 t2 nds a b :
  (forall k1 k2, (k1 < n)%nat -> (k2 < n)%nat ->
     let c1 := line amp pm ilp nds a k1 in let c2 := line amp pm ilp nds b k2 in
     t1 - t2 <> (centre c1 - 2 * width c1) - (centre c2 - 2 * width c2))
  \/ (clear (damping pm icp nds) n (line amp pm ilp nds a) /\ clear (damping pm icp nds) n (line amp pm ilp nds b)) ->
  Sll2_gamma amp icp ilp n pm t1 t2 nds a b = Sll2_gamma amp icp ilp n pm t2 t1 nds b a.
Proof.
  intros H. apply Sll2_swap. intros k1 k2 K1 K2. cbv zeta. apply sll1_gamma_sym; try apply exp_pos.
  destruct H as [H|[H1 H2]]; [right; apply (H k1 k2 K1 K2)|left; split; [apply H1, K1|apply H2, K2]].
Qed.
End Statements.

(** ** Concrete cases *)
(** two top-hats of amplitude 1 and 2, centred at 0 and 10, half-widths 1, damping
    time 1: covariance of the continuum at time 0 and the line at time 0 *)
Definition pm_ex : arr := fun i => match i with 7%nat => ln 2 | 8%nat => 10 | _ => 0 end.
Example C31_case :
  cov_cl (response tophat 2 (stored exp pm_ex 3)) 1 0 0 (1 - exp (-1) + 2 * ((exp (-9) - exp (-11)) / 2)).
Proof.
  pose proof (C31_tophat_continuum_line exp (fun _ => 0%nat) (fun _ _ => 3%nat) 2 pm_ex 0 0 0 0) as H.
  cbn [pm_ex Nat.add] in H. rewrite exp_0 in H.
  assert (E : Slc_tophat exp (fun _ => 0%nat) (fun _ _ => 3%nat) 2 pm_ex 0 0 0 0 = 1 - exp (-1) + 2 * ((exp (-9) - exp (-11)) / 2)).
  { unfold Slc_tophat. rewrite Slc_of_sum. cbn [sumn]. unfold stored. cbn [Nat.add Nat.mul pm_ex area centre width]. unfold slc1_tophat. rewrite exp_0, (exp_ln 2) by lra.
    destruct (Rlt_dec (0 - 0 - 0) (- (1))); [lra|]. destruct (Rlt_dec (0 - 0 - 0) 1); [|lra].
    destruct (Rlt_dec (0 - 0 - 10) (- (1))); [|lra].
    replace (- (0 - 0 - 0 + 1) / 1) with (-1) by field. replace ((0 - 0 - 0 - 1) / 1) with (-1) by field.
    replace ((0 - 0 - 10 + 1) / 1) with (-9) by field. replace ((0 - 0 - 10 - 1) / 1) with (-11) by field. field. }
  rewrite E in H. exact H.
Qed.
(** one exponential response whose scale equals the damping time *)
Example C32_case : clear 1 1 (stored exp (fun _ => 0) 3)
  /\ cov_cl (response exponential 1 (stored exp (fun _ => 0) 3)) 1 0 0 (exp (-1) * (1 + 1/2)).
Proof.
  assert (C : clear (exp 0) 1 (stored exp (fun _ => 0) 3)) by (intros k _; right; reflexivity).
  pose proof (C32_exponential_continuum_line exp (fun _ => 0%nat) (fun _ _ => 3%nat) 1 (fun _ => 0) 0 0 0 0 C) as H.
  cbv beta in H. rewrite exp_0 in C, H. split; [exact C|].
  assert (E : Slc_exp exp (fun _ => 0%nat) (fun _ _ => 3%nat) 1 (fun _ => 0) 0 0 0 0 = exp (-1) * (1 + 1/2)).
  { unfold Slc_exp. rewrite Slc_of_sum. cbn [sumn]. unfold stored. cbn [Nat.add Nat.mul area centre width]. unfold slc1_exp. rewrite exp_0.
    destruct (Rle_dec (0 - 0 - (0 - 1)) 0); [lra|]. replace ((1 - 1) / 1) with 0 by field. rewrite Rabs_R0.
    destruct (Rlt_dec 0 EPS) as [|N]; [|exfalso; apply N; unfold EPS; lra].
    replace (- (0 - 0 - (0 - 1)) / 1) with (-1) by field. field. }
  rewrite E in H. exact H.
Qed.
(** one gamma response whose scale is twice the damping time *)
Definition pm_two : arr := fun i => match i with 6%nat => ln 2 | _ => 0 end.
Example C33_case : clear 1 1 (stored exp pm_two 3)
  /\ cov_cl (response gamma2 1 (stored exp pm_two 3)) 1 0 0 (exp (-4) + exp (-2) * (- (-2 + 1) + (6 + 1) / 9)).
Proof.
  assert (C : clear (exp 0) 1 (stored exp pm_two 3)).
  { intros k K. left. replace k with 0%nat by lia. unfold stored. cbn [Nat.add Nat.mul pm_two width]. rewrite exp_ln, exp_0 by lra.
    rewrite Rabs_left by lra. unfold EPS. lra. }
  pose proof (C33_gamma_continuum_line exp (fun _ => 0%nat) (fun _ _ => 3%nat) 1 pm_two 0 0 0 0 C) as H.
  cbn [Nat.add pm_two] in H. rewrite exp_0 in C, H. split; [exact C|].
  assert (E : Slc_gamma exp (fun _ => 0%nat) (fun _ _ => 3%nat) 1 pm_two 0 0 0 0 = exp (-4) + exp (-2) * (- (-2 + 1) + (6 + 1) / 9)).
  { unfold Slc_gamma. rewrite Slc_of_sum. cbn [sumn]. unfold stored. cbn [Nat.add Nat.mul pm_two area centre width]. unfold slc1_gamma. rewrite exp_0, (exp_ln 2) by lra.
    destruct (Rle_dec (0 - 0 - (0 - 2 * 2)) 0); [lra|]. replace ((1 - 2) / 1) with (-1) by field. rewrite Rabs_left by lra.
    destruct (Rlt_dec (- -1) EPS) as [N|]; [exfalso; unfold EPS in N; lra|].
    replace (- (0 - 0 - (0 - 2 * 2)) / 1) with (-4) by field. replace (- (0 - 0 - (0 - 2 * 2)) / 2) with (-2) by field. field. }
  rewrite E in H. exact H.
Qed.
(** the hypothesis of C34 can be met *)
Example C34_case : log_erfc_correct (fun x => ln ((sqrt PI / 2 - RInt (fun t => exp (- (t * t))) 0 x) / (sqrt PI / 2))).
Proof. exact log_erfc_exists. Qed.
(** two lines, one component each, clear of the band: 2 by 1 blocks *)
Example C35_case : clear 1 1 (stored exp pm_two 3) /\ clear 1 1 (stored exp pm_two 7).
Proof.
  split; intros k K; replace k with 0%nat by lia; unfold stored; cbn [Nat.add Nat.mul pm_two width].
  - left. rewrite exp_ln by lra. rewrite Rabs_left by lra. unfold EPS. lra.
  - right. apply exp_0.
Qed.

(** ** Inside the band *)
(** the value is not the covariance: damping time 1, width 1 - 10^-6, lag 10^6 *)
Definition near_one : R := 1 - / 1000000.
Definition pm_near (c : R) : arr := fun i => match i with 4%nat => 1 | 5%nat => c | 6%nat => ln near_one | _ => 0 end.
Lemma near_band : Rabs ((1 - near_one) / 1) < EPS.
Proof. unfold near_one, EPS. rewrite Rabs_pos_eq; lra. Qed.
Theorem C32_band_exact_refuted : exists pm tline,
  ~ cov_cl (response exponential 1 (stored (fun x => x) pm 3)) (exp (pm 2%nat)) 0 tline
      (Slc_exp (fun x => x) (fun _ => 0%nat) (fun _ _ => 3%nat) 1 pm 0 tline 0 0).
Proof.
  exists (pm_near near_one), 1000000. intros H.
  assert (W0 : 0 < near_one) by (unfold near_one; lra).
  assert (G : cov_cl (response exponential 1 (stored (fun x => x) (pm_near near_one) 3)) (exp 0) 0 1000000 (sumn 1 (fun k =>
    let c := stored (fun x => x) (pm_near near_one) 3 k in area c * cE (exp 0) (width c) (1000000 - 0 - (centre c - width c))))).
  { apply cov_cl_sum. intros k _. apply exp_cl; apply exp_pos. }
  pose proof (cov_cl_unique _ _ _ _ _ _ H G) as E. clear H G. revert E.
  unfold Slc_exp. rewrite Slc_of_sum. cbn [sumn]. unfold stored. cbn [Nat.add Nat.mul pm_near area centre width].
  rewrite exp_ln, exp_0 by exact W0.
  unfold slc1_exp. cbv zeta. replace (1000000 - 0 - (near_one - near_one)) with 1000000 by ring.
  destruct (Rle_dec 1000000 0) as [|_]; [lra|]. destruct (Rlt_dec _ EPS) as [_|N]; [|exfalso; apply N, near_band].
  unfold cE. unfold glue. destruct (Rle_dec 1000000 0) as [|_]; [lra|].
  unfold cE_r. destruct (Req_EM_T 1 near_one) as [Q|_]; [unfold near_one in Q; lra|].
  unfold ep2, ep. set (y := exp (- (1000000) / 1)).
  replace (exp (1000000 / - (1))) with y by (unfold y; f_equal; field). set (z := exp (1000000 / - near_one)).
  assert (Y : 0 < y) by apply exp_pos. assert (Z : 0 < z) by apply exp_pos. intros E.
  replace (1 / ((1 - near_one) / 1)) with 1000000 in E by (unfold near_one; field).
  replace (-1 / ((1 - near_one) / 1)) with (-1000000) in E by (unfold near_one; field).
  assert (P : 0 < 1 / ((1 + near_one) / 1) < 1).
  { replace (1 / ((1 + near_one) / 1)) with (/ (1 + near_one)) by (unfold near_one; field). split; [apply Rinv_0_lt_compat; lra|].
    rewrite <- Rinv_1. apply Rinv_lt_contravar; unfold near_one; lra. }
  set (p := 1 / ((1 + near_one) / 1)) in *. assert (A1 : 0 < y * p) by (apply Rmult_lt_0_compat; lra). assert (A2 : 0 < z * (1000000 - p)) by (apply Rmult_lt_0_compat; lra). lra.
Qed.
Theorem C33_band_exact_refuted : exists pm tline,
  ~ cov_cl (response gamma2 1 (stored (fun x => x) pm 3)) (exp (pm 2%nat)) 0 tline
      (Slc_gamma (fun x => x) (fun _ => 0%nat) (fun _ _ => 3%nat) 1 pm 0 tline 0 0).
Proof.
  exists (pm_near (2 * near_one)), 2000000. intros H.
  assert (W0 : 0 < near_one) by (unfold near_one; lra).
  assert (G : cov_cl (response gamma2 1 (stored (fun x => x) (pm_near (2 * near_one)) 3)) (exp 0) 0 2000000 (sumn 1 (fun k =>
    let c := stored (fun x => x) (pm_near (2 * near_one)) 3 k in area c * cG (exp 0) (width c) (2000000 - 0 - (centre c - 2 * width c))))).
  { apply cov_cl_sum. intros k _. apply gamma_cl; apply exp_pos. }
  pose proof (cov_cl_unique _ _ _ _ _ _ H G) as E. clear H G. revert E.
  unfold Slc_gamma. rewrite Slc_of_sum. cbn [sumn]. unfold stored. cbn [Nat.add Nat.mul pm_near area centre width].
  rewrite exp_ln, exp_0 by exact W0.
  unfold slc1_gamma. cbv zeta. replace (2000000 - 0 - (2 * near_one - 2 * near_one)) with 2000000 by ring.
  destruct (Rle_dec 2000000 0) as [|_]; [lra|]. destruct (Rlt_dec _ EPS) as [_|N]; [|exfalso; apply N, near_band].
  unfold cG. unfold glue. destruct (Rle_dec 2000000 0) as [|_]; [lra|].
  unfold cG_r. destruct (Req_EM_T 1 near_one) as [Q|_]; [unfold near_one in Q; lra|].
  unfold ep2, ep. set (y := exp (- (2000000) / 1)).
  replace (exp (2000000 / - (1))) with y by (unfold y; f_equal; field). set (z := exp (2000000 / - near_one)).
  assert (Y : 0 < y) by apply exp_pos. assert (Z : 0 < z) by apply exp_pos. intros E.
  assert (P : 0 < / (1 + near_one) < 1).
  { split; [apply Rinv_0_lt_compat; lra|]. rewrite <- Rinv_1. apply Rinv_lt_contravar; unfold near_one; lra. }
  assert (N : 1 < / near_one). { rewrite <- Rinv_1 at 1. apply Rinv_lt_contravar; unfold near_one; lra. }
  set (p := / (1 + near_one)) in *. set (v := / near_one) in *.
  replace (1 / ((1 - near_one) / 1 * ((1 - near_one) / 1))) with 1000000000000 in E by (unfold near_one; field).
  replace (-1 / ((1 - near_one) / 1 * ((1 - near_one) / 1))) with (-1000000000000) in E by (unfold near_one; field).
  replace (-1 / (near_one * ((1 - near_one) / 1))) with (-1000000 * v) in E by (unfold v, near_one; field).
  replace (1 / (near_one * ((1 + near_one) / 1))) with (p * v) in E by (unfold p, v; field; lra).
  replace (1 / ((1 + near_one) / 1 * ((1 + near_one) / 1))) with (p * p) in E by (unfold p; field; lra).
  replace (2000000 / 1 * (2000000 / 1) / 2 + ((1 + near_one) / 1 * 2000000 / 1 + 1) / ((1 + near_one) / 1) / ((1 + near_one) / 1))
    with (2000000000000 + 2000000 * p + p * p) in E by (unfold p; field; lra).
  assert (PP : 0 < p * p < 1) by (split; nra). assert (PV : 0 < p * v < v) by (split; nra). nra.
Qed.
(** the line-line covariance is not symmetric inside the band at the peak:
    damping time 1, widths 1/2 and 1 - 10^-6 *)
Definition pm_pair (k : R) : arr := fun i => match i with
  | 4%nat => 1 | 5%nat => k * (1/2) | 6%nat => ln (1/2)
  | 8%nat => 1 | 9%nat => k * near_one | 10%nat => ln near_one | _ => 0 end.
Definition lines2 (nds nls : nat) : nat := match nls with O => 3%nat | _ => 7%nat end.
Lemma half_clear : ~ Rabs ((1 - 1/2) / 1) < EPS.
Proof. unfold EPS. rewrite Rabs_pos_eq; lra. Qed.
Theorem C35_exponential_symmetric_refuted : exists pm t1 t2,
  Sll2_exp (fun x => x) (fun _ => 0%nat) lines2 1 pm t1 t2 0 0 1 <> Sll2_exp (fun x => x) (fun _ => 0%nat) lines2 1 pm t2 t1 0 1 0.
Proof.
  exists (pm_pair 1), 0, 0. unfold Sll2_exp. rewrite !Sll2_of_sum. cbn [sumn].
  unfold stored. cbn [lines2 Nat.add Nat.mul pm_pair area centre width]. rewrite !exp_ln, exp_0 by (unfold near_one; lra).
  unfold sll1_exp. cbv zeta. rewrite !Rmult_1_l.
  replace (0 - 0 - (1 / 2 - 1 / 2 - (near_one - near_one))) with 0 by ring.
  replace (0 - 0 - (near_one - near_one - (1 / 2 - 1 / 2))) with 0 by ring.
  destruct (Rle_dec 0 0) as [_|]; [|lra].
  destruct (Rlt_dec _ EPS) as [_|N]; [|exfalso; apply N, near_band].
  destruct (Rlt_dec _ EPS) as [N|_]; [exfalso; apply half_clear, N|].
  replace (0 / 1) with 0 by field. replace (0 / (1 / 2)) with 0 by field. rewrite exp_0. unfold near_one. lra.
Qed.
Theorem C35_gamma_symmetric_refuted : exists pm t1 t2,
  Sll2_gamma (fun x => x) (fun _ => 0%nat) lines2 1 pm t1 t2 0 0 1 <> Sll2_gamma (fun x => x) (fun _ => 0%nat) lines2 1 pm t2 t1 0 1 0.
Proof.
  exists (pm_pair 2), 0, 0. unfold Sll2_gamma. rewrite !Sll2_of_sum. cbn [sumn].
  unfold stored. cbn [lines2 Nat.add Nat.mul pm_pair area centre width]. rewrite !exp_ln, exp_0 by (unfold near_one; lra).
  unfold sll1_gamma. cbv zeta.
  replace (0 - 0 - (2 * (1 / 2) - 2 * (1 / 2) - (2 * near_one - 2 * near_one))) with 0 by ring.
  replace (0 - 0 - (2 * near_one - 2 * near_one - (2 * (1 / 2) - 2 * (1 / 2)))) with 0 by ring.
  destruct (Rle_dec 0 0) as [_|]; [|lra].
  destruct (Rlt_dec _ EPS) as [_|N]; [|exfalso; apply N, near_band].
  destruct (Rlt_dec _ EPS) as [N|_]; [exfalso; apply half_clear, N|].
  replace (0 / 1) with 0 by field. replace (0 / (1 / 2)) with 0 by field. rewrite exp_0. unfold near_one. lra.
Qed.

Print Assumptions C31_tophat_continuum_line.
Print Assumptions C31_tophat_line_line.
Print Assumptions C31_tophat_one_line.
Print Assumptions C32_exponential_continuum_line.
Print Assumptions C32_exponential_line_line.
Print Assumptions C32_exponential_one_line.
Print Assumptions C32_exponential_accuracy_continuum_line.
Print Assumptions C32_exponential_accuracy_line_line.
Print Assumptions C32_band_exact_refuted.
Print Assumptions C33_gamma_continuum_line.
Print Assumptions C33_gamma_line_line.
Print Assumptions C33_gamma_one_line.
Print Assumptions C33_gamma_accuracy_continuum_line.
Print Assumptions C33_gamma_accuracy_line_line.
Print Assumptions C33_band_exact_refuted.
Print Assumptions C34_gaussian_continuum_line.
Print Assumptions C34_gaussian_line_line.
Print Assumptions C34_gaussian_one_line.
Print Assumptions C35_gaussian_arrays.
Print Assumptions C35_tophat_arrays.
Print Assumptions C35_gamma_arrays.
Print Assumptions C35_exponential_arrays.
Print Assumptions C35_gaussian_symmetric.
Print Assumptions C35_tophat_symmetric.
Print Assumptions C35_exponential_symmetric.
Print Assumptions C35_gamma_symmetric.
Print Assumptions C35_exponential_symmetric_refuted.
Print Assumptions C35_gamma_symmetric_refuted.
