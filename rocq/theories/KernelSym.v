(** Exchanging the two lines and the two times; lags inside the tolerance band. *)
From Coq Require Import Reals Lra Lia.
From Coquelicot Require Import Coquelicot.
From Verif Require Import SemisepModel SemisepProofs KernelCalc KernelSpec KernelModel KernelLift KernelTophat KernelExp KernelExp2 KernelExp3.
Open Scope R_scope.

Lemma sll1_gauss_sym le T f1 c1 w1 f2 c2 w2 D :
  sll1_gauss le T f1 c1 w1 f2 c2 w2 D = sll1_gauss le T f2 c2 w2 f1 c1 w1 (- D).
Proof.
  unfold sll1_gauss. cbv zeta. rewrite (Rplus_comm (w2 * w2)). set (A := sqrt (w1 * w1 + w2 * w2)).
  set (x := D - (c1 - c2)). replace (- D - (c2 - c1)) with (- x) by (unfold x; ring).
  rewrite Ropp_involutive. replace (- (- x / A - A / T) / sqrt 2) with ((x / A + A / T) / sqrt 2) by (unfold Rdiv; ring).
  replace ((- x / A + A / T) / sqrt 2) with (- (x / A - A / T) / sqrt 2) by (unfold Rdiv; ring). ring.
Qed.
Lemma E2_even T x : 0 < T -> E2 T (- x) = E2 T x.
Proof.
  intros T0. destruct (Rle_dec x 0) as [L|L].
  - rewrite E2_pos, E2_neg by lra. rewrite Ropp_involutive. ring.
  - rewrite E2_neg, E2_pos by lra. ring.
Qed.
Lemma sll1_tophat_sym T f1 c1 w1 f2 c2 w2 D : 0 < T -> 0 < w1 -> 0 < w2 ->
  sll1_tophat T f1 c1 w1 f2 c2 w2 D = sll1_tophat T f2 c2 w2 f1 c1 w1 (- D).
Proof.
  intros T0 W1 W2. rewrite !sll1_tophat_diff by assumption. cbv zeta. set (x := D - (c1 - c2)).
  replace (- D - (c2 - c1) + w2 + w1) with (- (x - w1 - w2)) by (unfold x; ring).
  replace (- D - (c2 - c1) + w2 - w1) with (- (x + w1 - w2)) by (unfold x; ring).
  replace (- D - (c2 - c1) - w2 + w1) with (- (x - w1 + w2)) by (unfold x; ring).
  replace (- D - (c2 - c1) - w2 - w1) with (- (x + w1 + w2)) by (unfold x; ring).
  rewrite !E2_even by exact T0. ring.
Qed.

Lemma lE_swap_0 T t1 t2 : 0 < T -> 0 < t1 -> 0 < t2 -> lE T t1 t2 0 = lE T t2 t1 0.
Proof.
  intros T0 W1 W2. unfold lE. rewrite (glue_l _ _ 0 (Rle_refl 0)), (glue_l _ _ 0 (Rle_refl 0)), (lE_0 T t1 t2) by assumption.
  unfold lE_r, lE_l. destruct (Req_EM_T T t1); rewrite !ep2_0;
    rewrite ?(Rplus_comm t2 t1); [reflexivity|]. rewrite (Rmult_comm ((T + t2) / T)). reflexivity.
Qed.
Lemma lG_swap_0 T t1 t2 : 0 < T -> 0 < t1 -> 0 < t2 -> lG T t1 t2 0 = lG T t2 t1 0.
Proof.
  intros T0 W1 W2. unfold lG. rewrite (glue_l _ _ 0 (Rle_refl 0)), (glue_l _ _ 0 (Rle_refl 0)), (lG_0 T t1 t2) by assumption.
  unfold lG_r, lG_l, lG_r_of, lG_l_of. destruct (Req_EM_T T t1); rewrite !ep2_0;
    rewrite ?(Rplus_comm t2 t1); [reflexivity|].
  replace ((T + t2) / T * ((T + t2) / T) * ((T - t1) / T) * ((T - t1) / T))
    with ((T - t1) / T * ((T - t1) / T) * ((T + t2) / T) * ((T + t2) / T)) by ring. reflexivity.
Qed.

(** away from the peak no hypothesis on the band is needed *)
Lemma sll1_exp_sym_off T f1 c1 w1 f2 c2 w2 D : D <> (c1 - w1) - (c2 - w2) ->
  sll1_exp T f1 c1 w1 f2 c2 w2 D = sll1_exp T f2 c2 w2 f1 c1 w1 (- D).
Proof.
  intros N. unfold sll1_exp. cbv zeta. rewrite (Rplus_comm w2 w1). set (x := D - (c1 - w1 - (c2 - w2))).
  replace (- D - (c2 - w2 - (c1 - w1))) with (- x) by (unfold x; ring).
  destruct (Rle_dec x 0), (Rle_dec (- x) 0); try (exfalso; apply N; unfold x in *; lra).
  - rewrite Ropp_involutive, (Rmult_comm f1 f2), (Rmult_comm ((T + w1) / T) ((T - w2) / T)). reflexivity.
  - rewrite Ropp_involutive, (Rmult_comm f1 f2), (Rmult_comm ((T + w2) / T) ((T - w1) / T)). reflexivity.
Qed.
Lemma sll1_gamma_sym_off T f1 c1 w1 f2 c2 w2 D : D <> (c1 - 2 * w1) - (c2 - 2 * w2) ->
  sll1_gamma T f1 c1 w1 f2 c2 w2 D = sll1_gamma T f2 c2 w2 f1 c1 w1 (- D).
Proof.
  intros N. unfold sll1_gamma. cbv zeta. rewrite (Rplus_comm w2 w1). set (x := D - (c1 - 2 * w1 - (c2 - 2 * w2))).
  replace (- D - (c2 - 2 * w2 - (c1 - 2 * w1))) with (- x) by (unfold x; ring).
  destruct (Rle_dec x 0), (Rle_dec (- x) 0); try (exfalso; apply N; unfold x in *; lra);
    rewrite (Rmult_comm f1 f2); f_equal; destruct (Rlt_dec _ EPS);
    rewrite ?Ropp_involutive.
  - unfold Rdiv; ring.
  - replace ((T + w1) / T * ((T + w1) / T) * ((T - w2) / T) * ((T - w2) / T))
      with ((T - w2) / T * ((T - w2) / T) * ((T + w1) / T) * ((T + w1) / T)) by ring. unfold Rdiv; ring.
  - unfold Rdiv; ring.
  - replace ((T + w2) / T * ((T + w2) / T) * ((T - w1) / T) * ((T - w1) / T))
      with ((T - w1) / T * ((T - w1) / T) * ((T + w2) / T) * ((T + w2) / T)) by ring. unfold Rdiv; ring.
Qed.
Lemma sll1_exp_sym T f1 c1 w1 f2 c2 w2 D : 0 < T -> 0 < w1 -> 0 < w2 ->
  (clear_of_band T w1 /\ clear_of_band T w2) \/ D <> (c1 - w1) - (c2 - w2) ->
  sll1_exp T f1 c1 w1 f2 c2 w2 D = sll1_exp T f2 c2 w2 f1 c1 w1 (- D).
Proof.
  intros T0 W1 W2 H. destruct (Req_dec D ((c1 - w1) - (c2 - w2))) as [E|N]; [|apply sll1_exp_sym_off, N].
  destruct H as [[B1 B2]|H]; [|contradiction].
  rewrite !sll1_exp_exact by assumption.
  replace (D - (c1 - w1 - (c2 - w2))) with 0 by lra. replace (- D - (c2 - w2 - (c1 - w1))) with 0 by lra.
  rewrite (lE_swap_0 T w1 w2) by assumption. ring.
Qed.
Lemma sll1_gamma_sym T f1 c1 w1 f2 c2 w2 D : 0 < T -> 0 < w1 -> 0 < w2 ->
  (clear_of_band T w1 /\ clear_of_band T w2) \/ D <> (c1 - 2 * w1) - (c2 - 2 * w2) ->
  sll1_gamma T f1 c1 w1 f2 c2 w2 D = sll1_gamma T f2 c2 w2 f1 c1 w1 (- D).
Proof.
  intros T0 W1 W2 H. destruct (Req_dec D ((c1 - 2 * w1) - (c2 - 2 * w2))) as [E|N]; [|apply sll1_gamma_sym_off, N].
  destruct H as [[B1 B2]|H]; [|contradiction].
  rewrite !sll1_gamma_exact by assumption.
  replace (D - (c1 - 2 * w1 - (c2 - 2 * w2))) with 0 by lra. replace (- D - (c2 - 2 * w2 - (c1 - 2 * w1))) with 0 by lra.
  rewrite (lG_swap_0 T w1 w2) by assumption. ring.
Qed.

(** uniqueness of the covariances *)
Lemma cov_cl_unique psi taud tc tl u v : cov_cl psi taud tc tl u -> cov_cl psi taud tc tl v -> u = v.
Proof. apply wl_unique. Qed.
Lemma cov_ll_unique p1 p2 taud t1 t2 u v : cov_ll p1 p2 taud t1 t2 u -> cov_ll p1 p2 taud t1 t2 v -> u = v.
Proof.
  intros (i & Hi & Wi) (j & Hj & Wj). apply (wl_unique (fun a => p1 a * i a)); [exact Wi|].
  eapply wl_ext; [|exact Wj]. intros a. cbv beta. rewrite (cov_cl_unique _ _ _ _ _ _ (Hi a) (Hj a)). reflexivity.
Qed.
