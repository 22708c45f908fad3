(** C65, C67: the covariances used to split a line into the responses of its
    components.  Specification: KernelSpec.v, MixSpec.v and PropCov.v. *)
From Coq Require Import Reals Lra Lia Arith List Bool.
From Coquelicot Require Import Coquelicot.
From Verif Require Import SemisepModel SemisepProofs KernelCalc KernelSpec KernelModel KernelLift KernelSym KernelTophat KernelExp KernelExp2 KernelExp3 KernelGauss KernelGauss2 PropKernel
  CovModel CovProofs CovProofs2 PropCov DecompModel DecompKernel DecompSums DecompMat MixModel MixPairs MixLift PropMix.
From Verif Require MixSpec.
Import ListNotations.
Open Scope R_scope.

(** ** Specification *)
(** v is the covariance of a target at time t with curve d of the data at time s: the
    target is the continuum (c = 0) or the part [part j] of line j (c = 1 + j). *)
Definition target_cov (part psi : nat -> R -> R) (taud : R) (c d : nat) (t s v : R) : Prop :=
  match c, d with
  | O, O => v = exp (- Rabs (t - s) / taud)
  | O, S l => cov_cl (psi l) taud t s v
  | S j, O => cov_cl (part j) taud s t v
  | S j, S l => cov_ll (part j) (psi l) taud t s v
  end.
(** v is the variance of a target *)
Definition target_var (part : nat -> R -> R) (taud : R) (c : nat) (t v : R) : Prop :=
  match c with O => v = 1 | S j => cov_ll (part j) (part j) taud t t v end.
(** a matrix with a row for every target and a column for every data point *)
Definition holds_target_cov (part psi : nat -> R -> R) (taud : R) (rows cols : list nat) (trow tcol : nat -> nat -> R) (M : arr) : Prop :=
  forall a b, (a < list_sum rows)%nat -> (b < list_sum cols)%nat ->
  exists c i d m, locate rows a = Some (c, i) /\ locate cols b = Some (d, m)
    /\ target_cov part psi taud c d (trow c i) (tcol d m) (M (a * list_sum cols + b)%nat).
(** a matrix with the variances of the targets on its diagonal *)
Definition holds_target_var (part : nat -> R -> R) (taud : R) (rows : list nat) (trow : nat -> nat -> R) (M : arr) : Prop :=
  forall a, (a < list_sum rows)%nat ->
  exists c i, locate rows a = Some (c, i) /\ target_var part taud c (trow c i) (M (a * list_sum rows + a)%nat).
(** Gamma and exponential responses: the rates 1/width and 1/taud are equal or differ by
    at least the tolerance of the program. *)
Definition rates_apart (taud : R) (c : comp) : Prop := EPS <= Rabs (/ width c - / taud) \/ width c = taud.
(** when the routines for one component are exact *)
Definition resolved (log_erfc : R -> R) (type_tf : nat) (taud : R) (c : comp) : Prop :=
  match type_tf with 0 => log_erfc_correct log_erfc | 1 => True | _ => rates_apart taud c end%nat.

(** ** From entries to matrices *)
Section Generic.
Variable ncon : nat.
Variable tcon : arr.
Variable nl : nat.
Variable nline : nat -> nat.
Variable tline : nat -> arr.
Variable pm : arr.
Variable idx_con : nat.
Variable Slc Slc1 : R -> R -> nat -> R.
Variable Sll1 : R -> R -> nat -> R.
Variable Sll21 : R -> R -> nat -> nat -> R.
Variable Sself : R -> R -> nat -> R.
Variable part psi : nat -> R -> R.
Notation taud := (tau pm idx_con).
Hypothesis Hcl : forall t s j, (j < nl)%nat -> cov_cl (psi j) taud t s (Slc t s j).
Hypothesis Hcl1 : forall t s j, (j < nl)%nat -> cov_cl (part j) taud t s (Slc1 t s j).
Hypothesis Hll1 : forall t s j l, (j < nl)%nat -> (l < nl)%nat -> cov_ll (part j) (psi l) taud t s (Sll21 t s j l).
Hypothesis Heq : forall t s j, Sll1 t s j = Sll21 t s j j.
Hypothesis Hself : forall t j, (j < nl)%nat -> cov_ll (part j) (part j) taud t t (Sself t t j).
Notation sizes := (ncon :: map nline (seq 0 nl)).
Notation n := (list_sum sizes).
Variable nrec : nat -> nat.
Variable trec : arr.
Notation rsizes := (map nrec (seq 0 (S nl))).
Notation nr := (list_sum rsizes).
Lemma cross_single U : let U' := set_covar_Umat_line_single ncon tcon nl nline tline pm idx_con Slc Slc1 Sll1 Sll21 n nrec trec U in
  holds_target_cov part psi taud rsizes sizes (rtime nrec trec) (time tcon tline) U' /\ unchanged_from (nr * n) U U'.
Proof.
  cbv zeta. rewrite n_total. destruct (Umat_single_spec ncon tcon nl nline tline pm idx_con Slc Slc1 Sll1 Sll21 nrec trec U) as [F E].
  set (U' := set_covar_Umat_line_single _ _ _ _ _ _ _ _ _ _ _ _ _ _ _) in *. split.
  - intros a b A B. destruct (rsurj nl nrec a A) as (p & P1 & P2 & P3), (surj ncon nl nline b B) as (q & Q1 & Q2 & Q3).
    exists (fst p), (snd p), (fst q), (snd q). split; [exact P3|]. split; [exact Q3|].
    pose proof (E p q P1 Q1) as E1. unfold adr2 in E1. rewrite P2, Q2, <- n_total in E1. rewrite E1, rtime_T.
    destruct P1 as [P1 _], Q1 as [Q1 _]. change (time tcon tline (fst q) (snd q)) with (T tcon tline q).
    unfold single_value, target_cov. destruct (fst p) as [|j], (fst q) as [|l].
    + reflexivity.
    + apply Hcl. lia.
    + apply Hcl1. lia.
    + destruct (Nat.eqb_spec j l); [subst; rewrite Heq|]; apply Hll1; lia.
  - intros x X. apply F. rewrite <- nr_total. exact X.
Qed.
Lemma recon_single A : let A' := set_covar_Amat_line_single nl pm idx_con Slc Sll1 Sll21 Sself nrec trec A in
  holds_target_var part taud rsizes (rtime nrec trec) A' /\ unchanged_from (nr * nr) A A'.
Proof.
  cbv zeta. destruct (Amat_single_spec nl pm idx_con Slc Sll1 Sll21 Sself nrec trec A) as [F E].
  set (A' := set_covar_Amat_line_single _ _ _ _ _ _ _ _ _ _) in *. split.
  - intros a Ha. destruct (rsurj nl nrec a Ha) as (p & P1 & P2 & P3). exists (fst p), (snd p). split; [exact P3|].
    pose proof (E p p P1 P1) as E1. unfold adr2 in E1. rewrite P2, <- nr_total in E1. rewrite E1, rtime_T, self_eq.
    destruct P1 as [P1 _]. unfold target_var. destruct (fst p) as [|j].
    + rewrite Rminus_diag_eq, Rabs_R0 by reflexivity. unfold Rdiv. rewrite Ropp_0, Rmult_0_l. apply exp_0.
    + apply Hself. lia.
  - intros x X. apply F. rewrite <- nr_total. exact X.
Qed.
End Generic.

(** ** C65: components of one shape *)
Section Plain.
Variable log_erfc : R -> R.
Variable type_tf : nat.
Variable flag : bool.
Variable icp : nat -> nat.
Variable ilp : nat -> nat -> nat.
Variable ncomp : nat.
Variable pm : arr.
Variable nds : nat.
Notation one := (single_pointers log_erfc type_tf flag icp ilp ncomp pm nds).
Notation whole := (pointers log_erfc type_tf flag icp ilp ncomp pm nds).
Notation component j k := (stored (decode flag) pm (ilp nds j) k).
Notation psi := (fun j => response (shape_of type_tf) ncomp (stored (decode flag) pm (ilp nds j))).
Notation part k := (fun j => shape_of type_tf (component j k)).
Notation taud := (exp (pm (icp nds + 2)%nat)).

(** component k of line j with the continuum, with a whole line, with itself *)
Theorem C65_component_covariances tc tl t1 t2 j l k :
  resolved log_erfc type_tf taud (component j k) -> (forall k2, (k2 < ncomp)%nat -> resolved log_erfc type_tf taud (component l k2)) ->
  cov_cl (part k j) taud tc tl (s_lc one tc tl j k)
  /\ cov_ll (part k j) (psi l) taud t1 t2 (s_ll2 one t1 t2 j l k)
  /\ (j = l -> cov_ll (part k j) (psi j) taud t1 t2 (s_ll one t1 t2 j k))
  /\ cov_ll (part k j) (part k j) taud t1 t2 (s_self one t1 t2 j k).
Proof.
  intros G1 G2. split; [apply single_lc; exact G1|]. split; [apply single_ll2; assumption|].
  split; [intros ->; rewrite single_ll_is; apply single_ll2; assumption|apply single_self; exact G1].
Qed.
(** the covariances of the components add up to those of the line; for gamma and
    exponential responses both tolerances must be passed *)
Theorem C65_components_add_up tc tl t1 t2 j l :
  (forall m k, m = j \/ m = l -> (k < ncomp)%nat -> (2 <= type_tf)%nat -> rates_apart taud (component m k)) ->
  ((2 <= type_tf)%nat -> clear taud ncomp (stored (decode flag) pm (ilp nds j)) /\ clear taud ncomp (stored (decode flag) pm (ilp nds l))) ->
  sumn ncomp (fun k => s_lc one tc tl j k) = k_lc whole tc tl j
  /\ sumn ncomp (fun k => s_ll2 one t1 t2 j l k) = k_ll2 whole t1 t2 j l
  /\ (j = l -> sumn ncomp (fun k => s_ll one t1 t2 j k) = k_ll whole t1 t2 j).
Proof.
  intros G C.
  assert (Sj : forall k, (k < ncomp)%nat -> same_forms type_tf taud (component j k)).
  { intros k K T. split; [apply G; auto|]. destruct (C T) as [Cj _]. apply Cj, K. }
  assert (Sl : forall k, (k < ncomp)%nat -> same_forms type_tf taud (component l k)).
  { intros k K T. split; [apply G; auto|]. destruct (C T) as [_ Cl]. apply Cl, K. }
  split; [apply sum_lc, Sj|]. split; [apply sum_ll2; assumption|].
  intros E. subst l. rewrite whole_ll_is, <- (sum_ll2 log_erfc type_tf flag icp ilp ncomp pm nds t1 t2 j j Sj Sj). apply sumn_ext. intros k _. apply single_ll_is.
Qed.

(** The two matrices of the decomposition for component kgau, any number of lines and
    points: rows are the reconstructed points of the continuum and of component kgau of
    every line. *)
Variable ncon : nat.
Variable tcon : arr.
Variable nl : nat.
Variable nline : nat -> nat.
Variable tline : nat -> arr.
Variable nrec : nat -> nat.
Variable trec : arr.
Notation sizes := (ncon :: map nline (seq 0 nl)).
Notation rsizes := (map nrec (seq 0 (S nl))).
Notation n := (list_sum sizes).
Notation nr := (list_sum rsizes).
Hypothesis G : good log_erfc type_tf flag taud ncomp nl pm (ilp nds).
Hypothesis G1 : forall j k, (j < nl)%nat -> (k < ncomp)%nat -> resolved log_erfc type_tf taud (component j k).
Theorem C65_matrices kgau U U' A A' : (kgau < ncomp)%nat ->
  set_covar_Umat_line_single ncon tcon nl nline tline pm (icp nds) (k_lc whole) (fun t s j => s_lc one t s j kgau)
     (fun t s j => s_ll one t s j kgau) (fun t s j l => s_ll2 one t s j l kgau) n nrec trec U = U' ->
  set_covar_Amat_line_single nl pm (icp nds) (k_lc whole) (fun t s j => s_ll one t s j kgau) (fun t s j l => s_ll2 one t s j l kgau)
     (fun t s j => s_self one t s j kgau) nrec trec A = A' ->
  holds_target_cov (part kgau) psi taud rsizes sizes (rtime nrec trec) (time tcon tline) U' /\ unchanged_from (nr * n) U U'
  /\ holds_target_var (part kgau) taud rsizes (rtime nrec trec) A' /\ unchanged_from (nr * nr) A A'.
Proof.
  intros Kg <- <-. destruct (kernel_facts log_erfc type_tf flag icp ilp ncomp pm nds nl G) as (H1 & _ & _ & _).
  apply and_assoc. split.
  - apply (cross_single ncon tcon nl nline tline pm (icp nds) _ _ _ _ (part kgau) psi H1).
    + intros t s j J. apply single_lc. apply G1; assumption.
    + intros t s j l J L. apply single_ll2; [apply G1; assumption|intros; apply G1; assumption].
    + reflexivity.
  - apply (recon_single nl pm (icp nds) _ _ _ _ (part kgau)). intros t j J. apply single_self. apply G1; assumption.
Qed.
End Plain.
Print Assumptions C65_component_covariances.
Print Assumptions C65_components_add_up.
Print Assumptions C65_matrices.

(** ** The tolerance has a dimension: 1/width - 1/taud is compared with 1e-5, so at long
    time scales well separated widths are taken for equal.  Damping time 10^6, one
    exponential response of area 1 and width 2*10^5: the routine for the whole line is
    exact, the routine for its only component gives more than 1.9, whereas no covariance
    with a response of area 1 exceeds 1. *)
Definition pm_long (i : nat) : R := match i with 2%nat => ln 1000000 | 5%nat => 200000 | 6%nat => ln 200000 | _ => 0 end.
Lemma pm_long_comp : stored exp pm_long 3 0 = Comp 1 200000 200000.
Proof. unfold stored. cbn [Nat.add Nat.mul pm_long]. rewrite exp_0, exp_ln by lra. reflexivity. Qed.
Theorem C65_time_unit_refuted : exists (pm : arr) (tc tl v : R),
  let taud := exp (pm 2%nat) in
  let whole := pointers (fun _ => 0) 3 false (fun _ => 0%nat) (fun _ _ => 3%nat) 1 pm 0 in
  let one := single_pointers (fun _ => 0) 3 false (fun _ => 0%nat) (fun _ _ => 3%nat) 1 pm 0 in
  clear taud 1 (stored exp pm 3)
  /\ cov_cl (response exponential 1 (stored exp pm 3)) taud tc tl v /\ k_lc whole tc tl 0 = v /\ v <= 1
  /\ cov_cl (exponential (stored exp pm 3 0)) taud tc tl v /\ 19 / 10 < s_lc one tc tl 0 0.
Proof.
  exists pm_long, 0, 1000000. eexists. cbv zeta. cbn [pm_long]. rewrite exp_ln by lra.
  assert (C : clear 1000000 1 (stored exp pm_long 3)).
  { intros k K. replace k with 0%nat by lia. rewrite pm_long_comp. cbn [width]. left. unfold EPS. rewrite Rabs_pos_eq by lra. lra. }
  split; [exact C|].
  pose proof (C32_exponential_continuum_line exp (fun _ => 0%nat) (fun _ _ => 3%nat) 1 pm_long 0 1000000 0 0) as H.
  cbn [Nat.add pm_long] in H. rewrite exp_ln in H by lra. specialize (H C). split; [exact H|]. split; [reflexivity|].
  assert (V : Slc_exp exp (fun _ => 0%nat) (fun _ _ => 3%nat) 1 pm_long 0 1000000 0 0 = exp (-1) / (4 / 5) + exp (-5) * (- 1 / (4 / 5) + 1 / (6 / 5))).
  { unfold Slc_exp. rewrite Slc_of_sum. cbn [sumn Nat.add]. cbv zeta. rewrite pm_long_comp. cbn [area centre width pm_long]. rewrite exp_ln by lra.
    unfold slc1_exp. destruct (Rle_dec (1000000 - 0 - (200000 - 200000)) 0); [lra|].
    replace ((1000000 - 200000) / 1000000) with (4 / 5) by field. rewrite Rabs_pos_eq by lra.
    destruct (Rlt_dec (4 / 5) EPS) as [X|_]; [unfold EPS in X; lra|].
    replace ((1000000 + 200000) / 1000000) with (6 / 5) by field.
    replace (- (1000000 - 0 - (200000 - 200000)) / 1000000) with (-1) by field.
    replace (- (1000000 - 0 - (200000 - 200000)) / 200000) with (-5) by field. field. }
  pose proof (exp_pos (-5)) as E5. assert (E1 : / 3 <= exp (-1) <= / 2).
  { replace (-1) with (- (1)) by ring. rewrite exp_Ropp. split; apply Rinv_le_contravar; try lra; [apply exp_pos|apply exp_le_3|]. pose proof (exp_ineq1 1 ltac:(lra)). lra. }
  rewrite V. split; [lra|]. split.
  - rewrite <- V. eapply wl_ext; [|exact H]. intros a. cbv beta. unfold response. cbn [sumn]. ring.
  - unfold single_pointers. cbn [s_lc]. rewrite Slc_single_val. cbv zeta. rewrite pm_long_comp. cbn [area centre width one_single Nat.add pm_long].
    rewrite exp_ln by lra. unfold slc1s_exp. cbv zeta. destruct (Rle_dec (1000000 - 0 - (200000 - 200000)) 0); [lra|].
    replace ((1000000 - 200000) / 1000000 / 200000) with (/ 250000) by field. rewrite Rabs_pos_eq by lra.
    destruct (Rlt_dec (/ 250000) EPS) as [_|X]; [|exfalso; apply X; unfold EPS; lra].
    replace (- (1000000 - 0 - (200000 - 200000)) / 1000000) with (-1) by field.
    replace (exp (-1) * (1000000 - 0 - (200000 - 200000) + 1 / ((1000000 + 200000) / 1000000 / 200000)) * (1 / 200000))
      with (exp (-1) * (5 + 5 / 6)) by field.
    lra.
Qed.
Print Assumptions C65_time_unit_refuted.

(** A case meeting the hypotheses of the theorems: damping time 1, two exponential
    components of widths 1 and 1/2 in one line. *)
Definition pm_parts (i : nat) : R := match i with 9%nat => ln (/ 2) | _ => 0 end.
Lemma pm_parts_comp k : (k < 2)%nat -> stored exp pm_parts 3 k = Comp 1 0 (match k with O => 1 | _ => / 2 end).
Proof. intros K. unfold stored. destruct k as [|[|k]]; [| |lia]; cbn [Nat.add Nat.mul pm_parts]; rewrite exp_0; [reflexivity|]. rewrite exp_ln by lra. reflexivity. Qed.
Example C65_case :
  (forall k, (k < 2)%nat -> resolved (fun _ => 0) 3 1 (stored exp pm_parts 3 k)) /\ clear 1 2 (stored exp pm_parts 3)
  /\ cov_cl (exponential (stored exp pm_parts 3 1)) 1 0 0 (2 * exp (- / 2) - 4 / 3 * exp (-1)).
Proof.
  assert (R0 : forall k, (k < 2)%nat -> resolved (fun _ => 0) 3 1 (stored exp pm_parts 3 k)).
  { intros k K. cbn [resolved]. unfold rates_apart. rewrite pm_parts_comp by exact K. cbn [width]. destruct k; [right; reflexivity|left].
    replace (/ / 2 - / 1) with 1 by field. rewrite Rabs_R1. unfold EPS. lra. }
  split; [exact R0|]. split.
  - intros k K. rewrite pm_parts_comp by exact K. cbn [width]. destruct k; [right; reflexivity|left]. unfold EPS. rewrite Rabs_pos_eq by lra. lra.
  - destruct (C65_component_covariances (fun _ => 0) 3 false (fun _ => 0%nat) (fun _ _ => 3%nat) 2 pm_parts 0 0 0 0 0 0 0 1) as [H _].
    + cbn [Nat.add pm_parts]. rewrite exp_0. apply R0. lia.
    + cbn [Nat.add pm_parts]. rewrite exp_0. exact R0.
    + cbn [Nat.add pm_parts shape_of decode] in H. rewrite exp_0 in H.
      match type of H with cov_cl _ _ _ _ ?v => replace v with (2 * exp (- / 2) - 4 / 3 * exp (-1)) in H end; [exact H|].
      unfold single_pointers. cbn [s_lc]. rewrite Slc_single_val. cbv zeta. rewrite pm_parts_comp by lia. cbn [area centre width one_single Nat.add pm_parts].
      rewrite exp_0. unfold slc1s_exp. cbv zeta. destruct (Rle_dec (0 - 0 - (0 - / 2)) 0); [lra|].
      replace ((1 - / 2) / 1 / / 2) with 1 by field. rewrite Rabs_R1. destruct (Rlt_dec 1 EPS) as [X|_]; [unfold EPS in X; lra|].
      replace (- (0 - 0 - (0 - / 2)) / 1) with (- / 2) by field. replace (- (0 - 0 - (0 - / 2)) / / 2) with (-1) by field. field.
Qed.

(** ** C67: components of different shapes *)
Section Mixed.
Variables log_erfc erfc : R -> R.
Hypothesis HL : log_erfc_correct log_erfc.
Hypothesis HE : MixSpec.erfc_correct erfc.
Variable type_tf : nat.
Variable icp : nat -> nat.
Variable ilp : nat -> nat -> nat.
Variable ncomp : nat.
Variable ty : nat -> nat.
Variable pm : arr.
Variable nds : nat.
Notation one := (single_pointers_mmap log_erfc erfc type_tf false icp ilp ncomp ty pm nds).
Notation component j k := (stored exp pm (ilp nds j) k).
Notation psi := (fun j => MixSpec.mixed_response ncomp ty (stored exp pm (ilp nds j))).
Notation part k := (fun j => MixSpec.shape_of (ty k) (component j k)).
Notation taud := (exp (pm (icp nds + 2)%nat)).

Lemma mix_lc_val tc tl j k : s_lc one tc tl j k = one_val icp ilp (nth (ty k) (FP_Slc log_erfc) no_one) pm nds j k (tl - tc).
Proof. cbn [single_pointers_mmap s_lc]. unfold Slc_single_mmap. rewrite Rplus_0_l. apply one_of_val. Qed.
Lemma mix_ll2_val t1 t2 j l k : s_ll2 one t1 t2 j l k
  = sumn ncomp (fun k2 => pair_val icp ilp (nth (ty k * 4 + ty k2) (FP_Sll log_erfc erfc) no_pair) pm nds j l k k2 t1 t2).
Proof. cbn [single_pointers_mmap s_ll2]. unfold Sll2_single_mmap. rewrite for_acc, Rplus_0_l. apply sumn_ext. intros. apply pair_of_val. Qed.
Lemma mix_lc tc tl j k : (k < ncomp)%nat -> digits ncomp ty -> clear_scales taud ncomp ty (stored exp pm (ilp nds j)) ->
  cov_cl (part k j) taud tc tl (s_lc one tc tl j k).
Proof.
  intros K Dg C. rewrite mix_lc_val. unfold one_val. cbv zeta.
  specialize (Dg k K). specialize (C k K). cbv beta. set (c := component j k) in *.
  assert (W : 0 < width c) by apply exp_pos. pose proof (exp_pos (pm (icp nds + 2)%nat)) as T0.
  destruct (ty k) as [|[|[|[|t]]]]; [| | | |lia]; cbn [nth FP_Slc MixSpec.shape_of].
  - apply gauss_cl; assumption.
  - apply tophat_cl; assumption.
  - rewrite slc1_gamma_exact; [apply gamma_cl; assumption|assumption|assumption|].
    destruct (C ltac:(lia)) as [E|E]; [right|left]; assumption.
  - rewrite slc1_exp_exact; [apply exp_cl; assumption|assumption|assumption|].
    destruct (C ltac:(lia)) as [E|E]; [right|left]; assumption.
Qed.
Lemma mix_ll2 t1 t2 j l k : (k < ncomp)%nat -> digits ncomp ty ->
  clear_scales' taud ncomp ty (stored exp pm (ilp nds j)) -> clear_scales' taud ncomp ty (stored exp pm (ilp nds l)) ->
  cov_ll (part k j) (psi l) taud t1 t2 (s_ll2 one t1 t2 j l k).
Proof.
  intros K Dg C1 C2. rewrite mix_ll2_val. cbv beta.
  exists (fun a => sumn ncomp (fun k2 => inner log_erfc taud (ty k2) (component l k2) (t2 - (t1 - a)))). split.
  - intros a. apply (mixed_cl_sum ncomp ty (stored exp pm (ilp nds l)) taud (t1 - a) t2 (fun k2 => inner log_erfc taud (ty k2) (component l k2) (t2 - (t1 - a)))).
    intros k2 K2. apply inner_cl; try assumption; try apply exp_pos. apply Dg, K2.
  - eapply wl_ext; [|apply wl_sum; intros k2 K2;
      apply (pair_ll log_erfc erfc HL HE taud (exp_pos _) (component j k) (component l k2) (exp_pos _) (exp_pos _) t1 t2 (ty k) (ty k2) (Dg k K) (Dg k2 K2) (C1 k K) (C2 k2 K2))].
    intros a. cbv beta. rewrite <- sumn_scal. reflexivity.
Qed.

(** component k of line j with the continuum and with a whole line (negative responses
    are refused for this model, src/read.c:474) *)
Theorem C67_component_covariances tc tl t1 t2 j l k : (k < ncomp)%nat -> digits ncomp ty ->
  clear_scales' taud ncomp ty (stored exp pm (ilp nds j)) -> clear_scales' taud ncomp ty (stored exp pm (ilp nds l)) ->
  cov_cl (part k j) taud tc tl (s_lc one tc tl j k)
  /\ cov_ll (part k j) (psi l) taud t1 t2 (s_ll2 one t1 t2 j l k)
  /\ (j = l -> cov_ll (part k j) (psi j) taud t1 t2 (s_ll one t1 t2 j k)).
Proof.
  intros K Dg C1 C2. split; [|split].
  - apply mix_lc; try assumption. intros k' K' T. destruct (C1 k' K' T) as [E|[_ E]]; [left|right]; exact E.
  - apply mix_ll2; assumption.
  - intros E. subst l. apply mix_ll2; assumption.
Qed.
(** they add up to the covariances of the line, without condition *)
Theorem C67_components_add_up tc tl t1 t2 j l :
  sumn ncomp (fun k => s_lc one tc tl j k) = Slc_mmap log_erfc icp ilp ncomp ty tc tl pm nds j
  /\ sumn ncomp (fun k => s_ll2 one t1 t2 j l k) = Sll2_mmap log_erfc erfc icp ilp ncomp ty t1 t2 pm nds j l
  /\ sumn ncomp (fun k => s_ll one t1 t2 j k) = Sll_mmap log_erfc erfc icp ilp ncomp ty t1 t2 pm nds j.
Proof.
  assert (H : forall t1 t2 j l, sumn ncomp (fun k => s_ll2 one t1 t2 j l k) = Sll2_mmap log_erfc erfc icp ilp ncomp ty t1 t2 pm nds j l).
  { intros. rewrite Sll2_mmap_sum. apply sumn_ext. intros k _. apply mix_ll2_val. }
  split; [rewrite Slc_mmap_sum; apply sumn_ext; intros k _; apply mix_lc_val|]. split; [apply H|].
  rewrite Sll_mmap_is, <- H. reflexivity.
Qed.

(** the matrices; for the variances the shape of the component must be type_tf *)
Variable ncon : nat.
Variable tcon : arr.
Variable nl : nat.
Variable nline : nat -> nat.
Variable tline : nat -> arr.
Variable nrec : nat -> nat.
Variable trec : arr.
Notation sizes := (ncon :: map nline (seq 0 nl)).
Notation rsizes := (map nrec (seq 0 (S nl))).
Notation n := (list_sum sizes).
Notation nr := (list_sum rsizes).
Theorem C67_matrices kgau U U' A A' : (kgau < ncomp)%nat -> digits ncomp ty ->
  (forall j, (j < nl)%nat -> clear_scales' taud ncomp ty (stored exp pm (ilp nds j))) ->
  set_covar_Umat_line_single ncon tcon nl nline tline pm (icp nds) (fun t s j => Slc_mmap log_erfc icp ilp ncomp ty t s pm nds j)
     (fun t s j => s_lc one t s j kgau) (fun t s j => s_ll one t s j kgau) (fun t s j l => s_ll2 one t s j l kgau) n nrec trec U = U' ->
  set_covar_Amat_line_single nl pm (icp nds) (fun t s j => Slc_mmap log_erfc icp ilp ncomp ty t s pm nds j)
     (fun t s j => s_ll one t s j kgau) (fun t s j l => s_ll2 one t s j l kgau) (fun t s j => s_self one t s j kgau) nrec trec A = A' ->
  holds_target_cov (part kgau) psi taud rsizes sizes (rtime nrec trec) (time tcon tline) U' /\ unchanged_from (nr * n) U U'
  /\ unchanged_from (nr * nr) A A'
  /\ (ty kgau = type_tf -> (forall j, (j < nl)%nat -> (2 <= type_tf)%nat -> rates_apart taud (component j kgau)) ->
      holds_target_var (part kgau) taud rsizes (rtime nrec trec) A').
Proof.
  intros K Dg C <- <-.
  assert (C0 : forall j, (j < nl)%nat -> clear_scales taud ncomp ty (stored exp pm (ilp nds j))).
  { intros j J k' K' T. destruct (C j J k' K' T) as [E|[_ E]]; [left|right]; exact E. }
  apply and_assoc. split; [|split].
  - apply (cross_single ncon tcon nl nline tline pm (icp nds) _ _ _ _ (part kgau) psi).
    + intros t s j J. exact (C61_mixed_continuum_line log_erfc HL icp ilp ncomp ty pm t s nds j Dg (C0 j J)).
    + intros t s j J. apply mix_lc; auto.
    + intros t s j l J L. apply mix_ll2; auto.
    + reflexivity.
  - destruct (Amat_single_spec nl pm (icp nds) (fun t s j => Slc_mmap log_erfc icp ilp ncomp ty t s pm nds j) (fun t s j => s_ll one t s j kgau)
      (fun t s j l => s_ll2 one t s j l kgau) (fun t s j => s_self one t s j kgau) nrec trec A) as [F _].
    intros x X. apply F. rewrite <- nr_total. exact X.
  - intros E R. apply (recon_single nl pm (icp nds) _ _ _ _ (part kgau)). intros t j J. cbn [single_pointers_mmap s_self].
    specialize (Dg kgau K). specialize (R j J).
    pose proof (single_self log_erfc type_tf false icp ilp ncomp pm nds t t j kgau) as S. cbn [decode] in S.
    rewrite E in *. destruct type_tf as [|[|[|[|tt]]]]; [| | | |lia]; cbn [MixSpec.shape_of shape_of] in *; apply S; cbn [good1]; auto; apply R; lia.
Qed.
End Mixed.
Print Assumptions C67_component_covariances.
Print Assumptions C67_components_add_up.
Print Assumptions C67_matrices.

(** A shape string of the mixed model has at least two digits, type_tf is one number:
    for "13" and type_tf 3 the variance of the top-hat component (all amplitudes, widths
    and the damping time 1) is taken to be that of an exponential response. *)
Theorem C67_variance_refuted : exists (log_erfc erfc : R -> R) (type_tf : nat) (ty : nat -> nat) (pm : arr) (v : R),
  let one := single_pointers_mmap log_erfc erfc type_tf false (fun _ => 0%nat) (fun _ _ => 3%nat) 2 ty pm 0 in
  log_erfc_correct log_erfc /\ MixSpec.erfc_correct erfc /\ digits 2 ty /\ clear_scales' (exp (pm 2%nat)) 2 ty (stored exp pm 3)
  /\ (forall k, (k < 2)%nat -> (2 <= type_tf)%nat -> rates_apart (exp (pm 2%nat)) (stored exp pm 3 k))
  /\ cov_ll (tophat (stored exp pm 3 0)) (tophat (stored exp pm 3 0)) (exp (pm 2%nat)) 0 0 v
  /\ s_self one 0 0 0 0 < v.
Proof.
  destruct C61_contracts as (le & er & HL & HE). exists le, er, 3%nat, ty13, (fun _ => 0), ((1 + exp (-2)) / 2). cbv zeta.
  split; [exact HL|]. split; [exact HE|]. split; [exact digits13|].
  split; [intros k _ _; left; reflexivity|]. split; [intros k _ _; right; reflexivity|]. split.
  - pose proof (single_self le 1 false (fun _ => 0%nat) (fun _ _ => 3%nat) 2 (fun _ => 0) 0 0 0 0 0 I) as H.
    cbn [shape_of decode] in H. match type of H with cov_ll _ _ _ _ _ ?v => replace v with ((1 + exp (-2)) / 2) in H end; [exact H|].
    unfold single_pointers. cbn [s_self]. rewrite Sll_single2_val. cbv zeta. unfold stored. cbn [area centre width pair_single]. rewrite exp_0.
    rewrite sll1_tophat_diff by lra. cbv zeta.
    replace (0 - 0 - (0 - 0) + 1 + 1) with 2 by ring. replace (0 - 0 - (0 - 0) + 1 - 1) with 0 by ring.
    replace (0 - 0 - (0 - 0) - 1 + 1) with 0 by ring. replace (0 - 0 - (0 - 0) - 1 - 1) with (- (2)) by ring.
    rewrite (E2_even 1 2), (E2_pos 1 2), (E2_neg 1 0) by lra. replace (- (2) / 1) with (-2) by field. replace (0 / 1) with 0 by field. rewrite ?exp_0. field.
  - unfold single_pointers_mmap, single_pointers. cbn [s_self]. rewrite Sll_single2_val. cbv zeta. unfold stored. cbn [area centre width pair_single]. rewrite exp_0.
    rewrite sll1s_exp_exact by (lra || (right; reflexivity)).
    replace (0 - 0 - (0 - 1 - (0 - 1))) with 0 by ring.
    unfold lE. rewrite (glue_l _ _ 0 (Rle_refl 0)). unfold lE_l. destruct (Req_EM_T 1 1) as [_|N]; [|exfalso; apply N; reflexivity]. rewrite ep2_0.
    replace (0 / 1) with 0 by field. rewrite ?exp_0. pose proof (exp_pos (-2)). lra.
Qed.
Print Assumptions C67_variance_refuted.

(** A case meeting the hypotheses of the matrices' theorem: string "13", component 1 and
    type_tf 3, one line of three points, two continuum points, two points reconstructed of each. *)
Example C67_case log_erfc erfc : log_erfc_correct log_erfc -> MixSpec.erfc_correct erfc ->
  let one := single_pointers_mmap log_erfc erfc 3 false (fun _ => 0%nat) (fun _ _ => 3%nat) 2 ty13 (fun _ => 0) 0 in
  holds_target_var (fun _ => exponential (stored exp (fun _ => 0) 3 1)) 1 [2; 2]%nat (fun c i => INR (2 * c + i))
    (set_covar_Amat_line_single 1 (fun _ => 0) 0 (fun t s j => Slc_mmap log_erfc (fun _ => 0%nat) (fun _ _ => 3%nat) 2 ty13 t s (fun _ => 0) 0 j)
     (fun t s j => s_ll one t s j 1) (fun t s j l => s_ll2 one t s j l 1) (fun t s j => s_self one t s j 1) (fun _ => 2%nat) INR (fun _ => 0)).
Proof.
  intros HL HE one.
  destruct (C67_matrices log_erfc erfc HL HE 3 (fun _ => 0%nat) (fun _ _ => 3%nat) 2 ty13 (fun _ => 0) 0 2 INR 1 (fun _ => 3%nat) (fun _ => INR) (fun _ => 2%nat) INR
    1 (fun _ => 0) _ (fun _ => 0) _ ltac:(lia) digits13 ltac:(intros j _ k _ _; left; reflexivity) eq_refl eq_refl) as (_ & _ & _ & H).
  specialize (H eq_refl ltac:(intros; right; reflexivity)). cbv beta in H. rewrite exp_0 in H.
  intros a Ha. destruct (H a Ha) as (c & i & L & V). exists c, i. split; [exact L|].
  assert (c < 2)%nat. { cbn [map seq locate] in L. repeat (destruct (_ <? _)%nat; [injection L; intros; subst; lia|]). discriminate L. }
  replace (INR (2 * c + i)) with (rtime (fun _ => 2%nat) INR c i); [exact V|].
  unfold rtime. f_equal. destruct c as [|[|c]]; [reflexivity|reflexivity|lia].
Qed.
