(** The covariances of one component: as values of the closed forms, as integrals,
    and as terms of the covariance of the whole line. *)
From Coq Require Import Reals Lra Lia Arith.
From Coquelicot Require Import Coquelicot.
From Verif Require Import SemisepModel SemisepProofs KernelCalc KernelSpec KernelModel KernelLift KernelTophat KernelExp KernelExp2 KernelExp3
  KernelGauss KernelGauss2 CovModel PropKernel PropCov DecompModel DecompKernel.
Open Scope R_scope.

Section Sums.
Variable amp : R -> R.
Variable icp : nat -> nat.
Variable ilp : nat -> nat -> nat.
Variable n : nat.
Lemma Slc_single_val one pm tcon tline nds nls k :
  Slc_single_of amp icp ilp one pm tcon tline nds nls k
  = let c := line amp pm ilp nds nls k in one (damping pm icp nds) (area c) (centre c) (width c) (tline - tcon).
Proof. unfold Slc_single_of, stored. cbv zeta. cbn [area centre width]. rewrite Rplus_0_l, Nat.add_0_r. reflexivity. Qed.
Lemma Sll2_single_val pair pm t1 t2 nds a b k :
  Sll2_single_of amp icp ilp n pair pm t1 t2 nds a b k
  = sumn n (fun k2 => let c1 := line amp pm ilp nds a k in let c2 := line amp pm ilp nds b k2 in
      pair (damping pm icp nds) (area c1) (centre c1) (width c1) (area c2) (centre c2) (width c2) (t1 - t2)).
Proof.
  unfold Sll2_single_of. cbv zeta. rewrite for_acc, Rplus_0_l. apply sumn_ext. intros k2 _. unfold stored. cbn [area centre width].
  rewrite !Nat.add_0_r, !(Nat.mul_comm 3). reflexivity.
Qed.
Lemma Sll_single2_val pair pm t1 t2 nds a k :
  Sll_single2_of amp icp ilp pair pm t1 t2 nds a k
  = let c := line amp pm ilp nds a k in
    pair (damping pm icp nds) (area c) (centre c) (width c) (area c) (centre c) (width c) (t1 - t2).
Proof. unfold Sll_single2_of, stored. cbv zeta. cbn [area centre width]. rewrite Rplus_0_l, Nat.add_0_r, (Nat.mul_comm 3). reflexivity. Qed.
End Sums.

(** one component as a response of one component *)
Lemma response_one shape (c : comp) a : response shape 1 (fun _ => c) a = shape c a.
Proof. unfold response. cbn [sumn]. ring. Qed.

(** when the closed forms of one component are exact *)
Definition good1 (log_erfc : R -> R) (type_tf : nat) (taud : R) (c : comp) : Prop :=
  match type_tf with 0 => log_erfc_correct log_erfc | 1 => True | _ => clear_inverse taud (width c) end%nat.

Lemma one_single_cl log_erfc type_tf T c tc tl : 0 < T -> 0 < width c -> good1 log_erfc type_tf T c ->
  cov_cl (shape_of type_tf c) T tc tl (one_single log_erfc type_tf T (area c) (centre c) (width c) (tl - tc)).
Proof.
  intros T0 W G. destruct type_tf as [|[|[|t]]]; cbn [good1 shape_of one_single] in *.
  - apply gauss_cl; assumption.
  - apply tophat_cl; assumption.
  - rewrite slc1s_gamma_exact by assumption. apply gamma_cl; assumption.
  - rewrite slc1s_exp_exact by assumption. apply exp_cl; assumption.
Qed.
(** the inner integral, common to all first components *)
Definition inner1 (log_erfc : R -> R) (type_tf : nat) (T : R) (c : comp) (x : R) : R :=
  match type_tf with
  | 0%nat => slc1_gauss log_erfc T (area c) (centre c) (width c) x
  | 1%nat => slc1_tophat T (area c) (centre c) (width c) x
  | 2%nat => area c * cG T (width c) (x - (centre c - 2 * width c))
  | _ => area c * cE T (width c) (x - (centre c - width c))
  end.
Lemma inner1_cl log_erfc type_tf T c tc tl : 0 < T -> 0 < width c -> good1 log_erfc type_tf T c ->
  cov_cl (shape_of type_tf c) T tc tl (inner1 log_erfc type_tf T c (tl - tc)).
Proof.
  intros T0 W G. destruct type_tf as [|[|[|t]]]; cbn [good1 shape_of inner1] in *.
  - apply gauss_cl; assumption.
  - apply tophat_cl; assumption.
  - apply gamma_cl; assumption.
  - apply exp_cl; assumption.
Qed.
Lemma pair_single_ll log_erfc type_tf T c1 c2 t1 t2 : 0 < T -> 0 < width c1 -> 0 < width c2 ->
  good1 log_erfc type_tf T c1 -> good1 log_erfc type_tf T c2 ->
  whole_line (fun a => shape_of type_tf c1 a * inner1 log_erfc type_tf T c2 (t2 - (t1 - a)))
    (pair_single log_erfc type_tf T (area c1) (centre c1) (width c1) (area c2) (centre c2) (width c2) (t1 - t2)).
Proof.
  intros T0 W1 W2 G1 G2. destruct type_tf as [|[|[|t]]]; cbn [good1 shape_of inner1 pair_single] in *.
  - apply gauss_ll; assumption.
  - apply tophat_ll; assumption.
  - rewrite sll1s_gamma_exact by assumption. apply gamma_ll; assumption.
  - rewrite sll1s_exp_exact by assumption. apply exp_ll; assumption.
Qed.

(** the closed forms of one component and of the whole line agree *)
Definition same_forms (type_tf : nat) (T : R) (c : comp) : Prop :=
  (2 <= type_tf)%nat -> clear_inverse T (width c) /\ clear_of_band T (width c).
Lemma one_same log_erfc type_tf T c D : 0 < T -> 0 < width c -> same_forms type_tf T c ->
  one_single log_erfc type_tf T (area c) (centre c) (width c) D
  = match type_tf with 0 => slc1_gauss log_erfc | 1 => slc1_tophat | 2 => slc1_gamma | _ => slc1_exp end%nat T (area c) (centre c) (width c) D.
Proof.
  intros T0 W G. unfold same_forms in G. destruct type_tf as [|[|[|t]]]; cbn [one_single]; try reflexivity; destruct G as [G1 G2]; try lia.
  - rewrite slc1s_gamma_exact, slc1_gamma_exact by assumption. reflexivity.
  - rewrite slc1s_exp_exact, slc1_exp_exact by assumption. reflexivity.
Qed.
Lemma pair_same log_erfc type_tf T c1 c2 D : 0 < T -> 0 < width c1 -> 0 < width c2 -> same_forms type_tf T c1 -> same_forms type_tf T c2 ->
  pair_single log_erfc type_tf T (area c1) (centre c1) (width c1) (area c2) (centre c2) (width c2) D
  = match type_tf with 0 => sll1_gauss log_erfc | 1 => sll1_tophat | 2 => sll1_gamma | _ => sll1_exp end%nat
      T (area c1) (centre c1) (width c1) (area c2) (centre c2) (width c2) D.
Proof.
  intros T0 W1 W2 G1 G2. unfold same_forms in *. destruct type_tf as [|[|[|t]]]; cbn [pair_single]; try reflexivity; destruct G1, G2; try lia.
  - rewrite sll1s_gamma_exact, sll1_gamma_exact by assumption. reflexivity.
  - rewrite sll1s_exp_exact, sll1_exp_exact by assumption. reflexivity.
Qed.

(** one component with a sum of components *)
Lemma cov_ll_one psi1 shape m c2 taud t1 t2 (inner : nat -> R -> R) (v : nat -> R) :
  (forall k2 a, (k2 < m)%nat -> cov_cl (shape (c2 k2)) taud (t1 - a) t2 (inner k2 a)) ->
  (forall k2, (k2 < m)%nat -> whole_line (fun a => psi1 a * inner k2 a) (v k2)) ->
  cov_ll psi1 (response shape m c2) taud t1 t2 (sumn m v).
Proof.
  intros H1 H2. exists (fun a => sumn m (fun k2 => inner k2 a)). split.
  - intros a. apply (cov_cl_sum shape m c2 taud (t1 - a) t2 (fun k2 => inner k2 a)). intros; apply H1; auto.
  - eapply wl_ext; [|apply wl_sum; intros k2 K2; apply (H2 k2 K2)].
    intros a. cbv beta. rewrite <- sumn_scal. reflexivity.
Qed.

Section Selected.
Variable log_erfc : R -> R.
Variable type_tf : nat.
Variable flag : bool.
Variable icp : nat -> nat.
Variable ilp : nat -> nat -> nat.
Variable ncomp : nat.
Variable pm : arr.
Variable nds : nat.
Notation K := (single_pointers log_erfc type_tf flag icp ilp ncomp pm nds).
Notation W := (pointers log_erfc type_tf flag icp ilp ncomp pm nds).
Notation cmp j := (stored (decode flag) pm (ilp nds j)).
Notation taud := (exp (pm (icp nds + 2)%nat)).
Lemma single_lc tc tl j k : good1 log_erfc type_tf taud (cmp j k) -> cov_cl (shape_of type_tf (cmp j k)) taud tc tl (s_lc K tc tl j k).
Proof.
  intros G. unfold single_pointers. cbn [s_lc]. fold (decode flag). rewrite Slc_single_val. cbv zeta.
  apply one_single_cl; try apply exp_pos. exact G.
Qed.
Lemma single_ll2 t1 t2 j l k : good1 log_erfc type_tf taud (cmp j k) -> (forall k2, (k2 < ncomp)%nat -> good1 log_erfc type_tf taud (cmp l k2)) ->
  cov_ll (shape_of type_tf (cmp j k)) (response (shape_of type_tf) ncomp (cmp l)) taud t1 t2 (s_ll2 K t1 t2 j l k).
Proof.
  intros G1 G2. unfold single_pointers. cbn [s_ll2]. fold (decode flag). rewrite Sll2_single_val.
  apply (cov_ll_one _ _ _ _ _ _ _ (fun k2 a => inner1 log_erfc type_tf taud (cmp l k2) (t2 - (t1 - a)))).
  - intros k2 a K2. apply inner1_cl; try apply exp_pos. apply G2, K2.
  - intros k2 K2. cbv zeta. apply pair_single_ll; try apply exp_pos; [exact G1|apply G2, K2].
Qed.
Lemma single_self t1 t2 j k : good1 log_erfc type_tf taud (cmp j k) ->
  cov_ll (shape_of type_tf (cmp j k)) (shape_of type_tf (cmp j k)) taud t1 t2 (s_self K t1 t2 j k).
Proof.
  intros G. unfold single_pointers. cbn [s_self]. fold (decode flag). rewrite Sll_single2_val. cbv zeta.
  exists (fun a => inner1 log_erfc type_tf taud (cmp j k) (t2 - (t1 - a))). split.
  - intros a. apply inner1_cl; try apply exp_pos. exact G.
  - apply pair_single_ll; try apply exp_pos; exact G.
Qed.
Lemma sum_lc tc tl j : (forall k, (k < ncomp)%nat -> same_forms type_tf taud (cmp j k)) ->
  sumn ncomp (fun k => s_lc K tc tl j k) = k_lc W tc tl j.
Proof.
  intros G. rewrite (sumn_ext ncomp _ (fun k => match type_tf with 0 => slc1_gauss log_erfc | 1 => slc1_tophat | 2 => slc1_gamma | _ => slc1_exp end%nat
    taud (area (cmp j k)) (centre (cmp j k)) (width (cmp j k)) (tl - tc))).
  - unfold pointers. fold (decode flag). destruct type_tf as [|[|[|t]]]; cbn [k_lc];
      unfold Slc_gauss, Slc_tophat, Slc_gamma, Slc_exp; rewrite Slc_of_sum; reflexivity.
  - intros k L. unfold single_pointers. cbn [s_lc]. fold (decode flag). rewrite Slc_single_val. cbv zeta. apply one_same; try apply exp_pos. apply G, L.
Qed.
Lemma sum_ll2 t1 t2 j l : (forall k, (k < ncomp)%nat -> same_forms type_tf taud (cmp j k)) ->
  (forall k, (k < ncomp)%nat -> same_forms type_tf taud (cmp l k)) ->
  sumn ncomp (fun k => s_ll2 K t1 t2 j l k) = k_ll2 W t1 t2 j l.
Proof.
  intros G1 G2. rewrite (sumn_ext ncomp _ (fun k1 => sumn ncomp (fun k2 => match type_tf with 0 => sll1_gauss log_erfc | 1 => sll1_tophat | 2 => sll1_gamma | _ => sll1_exp end%nat
    taud (area (cmp j k1)) (centre (cmp j k1)) (width (cmp j k1)) (area (cmp l k2)) (centre (cmp l k2)) (width (cmp l k2)) (t1 - t2)))).
  - unfold pointers. fold (decode flag). destruct type_tf as [|[|[|t]]]; cbn [k_ll2];
      unfold Sll2_gauss, Sll2_tophat, Sll2_gamma, Sll2_exp; rewrite Sll2_of_sum; reflexivity.
  - intros k L. unfold single_pointers. cbn [s_ll2]. fold (decode flag). rewrite Sll2_single_val. apply sumn_ext. intros k2 L2. cbv zeta.
    apply pair_same; try apply exp_pos; [apply G1, L|apply G2, L2].
Qed.
Lemma single_ll_is t1 t2 j k : s_ll K t1 t2 j k = s_ll2 K t1 t2 j j k.
Proof. reflexivity. Qed.
Lemma whole_ll_is t1 t2 j : k_ll W t1 t2 j = k_ll2 W t1 t2 j j.
Proof. unfold pointers. destruct type_tf as [|[|[|t]]]; reflexivity. Qed.
End Selected.
