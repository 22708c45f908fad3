(** C73: the normalization of the reconstructed driving curve.  Real arithmetic, no
    rounding. *)
From Coq Require Import Reals List Arith Lia Lra Psatz.
From Verif Require Import SemisepModel SemisepProofs LikeProofs VmapModel.
Import ListNotations.
Open Scope R_scope.

(** ** What the statements are about *)
(** y' is y shifted and stretched by a positive factor to mean 0 and root mean square s,
    the errors ye' are ye times the factor; positions from n on are as they were *)
Definition normalized (n : nat) (s : R) (y ye y' ye' : nat -> R) : Prop :=
  sumn n y' = 0 /\ sumn n (fun i => y' i ^ 2) = INR n * s ^ 2 /\
  (exists a b, 0 < b /\ forall i, (i < n)%nat -> y' i = b * (y i - a) /\ ye' i = b * ye i) /\
  (forall i, (n <= i)%nat -> y' i = y i /\ ye' i = ye i).
Definition constant (n : nat) (y : nat -> R) : Prop := forall i j, (i < n)%nat -> (j < n)%nat -> y i = y j.

(** ** Proofs *)
Lemma sum_loop n (y : arr) : for_ 0 n (fun i m => m + y i) 0 = sumn n y.
Proof.
  pose proof (for_inv R (fun k m => m = sumn k y) 0 n (fun i m => m + y i) 0 eq_refl) as G. cbv beta in G.
  apply G. intros i s _ ->. reflexivity.
Qed.
Lemma center_loop n (y : arr) c :
  let s := for_ 0 n (fun i s => let '(y, std) := s in let y := upd y i (y i - c) in (y, std + y i * y i)) (y, 0) in
  (forall i, fst s i = if (i <? n)%nat then y i - c else y i) /\ snd s = sumn n (fun i => (y i - c) * (y i - c)).
Proof.
  cbv zeta. set (body := fun i s => let '(y, std) := s in let y := upd y i (y i - c) in (y, std + y i * y i)).
  pose proof (for_inv (arr * R) (fun k s => (forall i, fst s i = if (i <? k)%nat then y i - c else y i) /\ snd s = sumn k (fun i => (y i - c) * (y i - c))) 0 n body (y, 0)) as G.
  cbv beta in G. apply G.
  - split; [intros i; reflexivity|reflexivity].
  - intros k [a b] K [H1 H2]. cbn [fst snd] in *. unfold body. cbn [fst snd].
    assert (E : a k = y k) by (rewrite H1; destruct (Nat.ltb_spec k k); [lia|reflexivity]). split.
    + intros i. destruct (Nat.eq_dec i k) as [->|N].
      * rewrite upd_same, E. destruct (Nat.ltb_spec k (S k)); [reflexivity|lia].
      * rewrite upd_other by exact N. rewrite H1. destruct (Nat.ltb_spec i k), (Nat.ltb_spec i (S k)); try reflexivity; lia.
    + rewrite !upd_same, E, H2. reflexivity.
Qed.
Lemma scale_loop n (y ye : arr) s :
  let r := for_ 0 n (fun i p => let '(y, ye) := p in (upd y i (y i / s), upd ye i (ye i / s))) (y, ye) in
  forall i, fst r i = (if (i <? n)%nat then y i / s else y i) /\ snd r i = (if (i <? n)%nat then ye i / s else ye i).
Proof.
  cbv zeta. set (body := fun i p => let '(y, ye) := p in (upd y i (y i / s), upd ye i (ye i / s))).
  pose proof (for_inv (arr * arr) (fun k r => forall i, fst r i = (if (i <? k)%nat then y i / s else y i) /\ snd r i = (if (i <? k)%nat then ye i / s else ye i)) 0 n body (y, ye)) as G.
  cbv beta in G. apply G.
  - intros i. split; reflexivity.
  - intros k [a b] K H i. cbn [fst snd] in *. unfold body. cbn [fst snd].
    assert (E : a k = y k /\ b k = ye k) by (destruct (H k) as [-> ->]; destruct (Nat.ltb_spec k k); [lia|auto]). destruct E as [E1 E2].
    destruct (Nat.eq_dec i k) as [->|N].
    + rewrite !upd_same, E1, E2. destruct (Nat.ltb_spec k (S k)); [auto|lia].
    + rewrite !upd_other by exact N. destruct (H i) as [-> ->]. destruct (Nat.ltb_spec i k), (Nat.ltb_spec i (S k)); try (split; reflexivity); lia.
Qed.
Lemma squares_zero n (f : nat -> R) : sumn n (fun i => f i * f i) = 0 -> forall i, (i < n)%nat -> f i = 0.
Proof.
  assert (P : forall k, 0 <= sumn k (fun i => f i * f i)) by (induction k; cbn [sumn]; [lra|nra]).
  induction n as [|n IH]; intros E i I; [lia|]. cbn [sumn] in E. specialize (P n). assert (0 <= f n * f n) by nra.
  destruct (Nat.eq_dec i n) as [->|]; [nra|apply IH; [lra|lia]].
Qed.
Lemma squares_ge n (f : nat -> R) : 0 <= sumn n (fun i => f i * f i).
Proof. induction n; cbn [sumn]; [lra|nra]. Qed.
Lemma sum_const n c : sumn n (fun _ => c) = INR n * c.
Proof. induction n; [cbn; ring|]. cbn [sumn]. rewrite IHn, S_INR. ring. Qed.
Lemma sum_minus n f c : sumn n (fun i => f i - c) = sumn n f - INR n * c.
Proof. induction n; [cbn; ring|]. cbn [sumn]. rewrite IHn, S_INR. ring. Qed.
Lemma mean_const n y : (1 <= n)%nat -> (constant n y <-> forall i, (i < n)%nat -> y i - sumn n y / INR n = 0).
Proof.
  intros N. assert (0 < INR n) by (apply lt_0_INR; lia). split.
  - intros C i I. rewrite (sumn_ext n y (fun _ => y i)) by (intros j J; apply C; auto). rewrite sum_const. field. lra.
  - intros H' i j I J. pose proof (H' i I). pose proof (H' j J). lra.
Qed.

Theorem C73_normalized : forall y ye n s y' ye', 0 < s -> light_curve_normalize y ye n s = Some (y', ye') -> normalized n s y ye y' ye'.
Proof.
  intros y ye n s y' ye' S0. unfold light_curve_normalize. destruct (Nat.eqb_spec n 0) as [|N]; [discriminate|].
  rewrite sum_loop. set (c := sumn n y / INR n). pose proof (center_loop n y c) as CL. cbv zeta in CL.
  destruct (for_ 0 n _ (y, 0)) as [y1 v]. destruct CL as [C1 C2]. cbn [fst snd] in C1, C2. subst v.
  set (v := sumn n (fun i => (y i - c) * (y i - c))). set (k := sqrt (v / INR n) / s).
  destruct (Req_EM_T k 0) as [|K]; [discriminate|]. intros E. injection E as E.
  pose proof (scale_loop n y1 ye k) as SL. cbv zeta in SL. rewrite E in SL. cbn [fst snd] in SL.
  assert (NP : 0 < INR n) by (apply lt_0_INR; lia).
  assert (V0 : 0 <= v) by (apply (squares_ge n (fun i => y i - c))).
  assert (VN : 0 <= v / INR n) by (apply Rmult_le_pos; [exact V0|left; apply Rinv_0_lt_compat, NP]).
  assert (KP : 0 < k). { assert (0 <= k) by (apply Rmult_le_pos; [apply sqrt_pos|left; apply Rinv_0_lt_compat, S0]). lra. }
  assert (KK : k * k * (s * s) = v / INR n).
  { unfold k. transitivity (sqrt (v / INR n) * sqrt (v / INR n)); [field; lra|apply sqrt_sqrt, VN]. }
  assert (Y : forall i, (i < n)%nat -> y' i = / k * (y i - c) /\ ye' i = / k * ye i).
  { intros i I. destruct (SL i) as [-> ->]. destruct (Nat.ltb_spec i n); [|lia]. rewrite C1. destruct (Nat.ltb_spec i n); [|lia]. unfold Rdiv. split; ring. }
  split; [|split; [|split]].
  - rewrite (sumn_ext n _ (fun i => / k * (y i - c))) by (intros i I; apply Y, I). rewrite sumn_scal, sum_minus. unfold c. field. lra.
  - rewrite (sumn_ext n _ (fun i => / (k * k) * ((y i - c) * (y i - c)))) by (intros i I; rewrite (proj1 (Y i I)); field; lra).
    rewrite sumn_scal. fold v. apply Rmult_eq_reg_l with (k * k); [|nra]. rewrite <- Rmult_assoc, Rinv_r by nra.
    transitivity (INR n * (v / INR n)); [field; lra|rewrite <- KK; ring].
  - exists c, (/ k). split; [apply Rinv_0_lt_compat, KP|exact Y].
  - intros i I. destruct (SL i) as [-> ->]. rewrite C1. destruct (Nat.ltb_spec i n); [lia|auto].
Qed.
Print Assumptions C73_normalized.

(** A division by zero happens for a constant curve (or none) and for no other. *)
Theorem C73_fails : forall y ye n s, 0 < s -> (light_curve_normalize y ye n s = None <-> n = 0%nat \/ constant n y).
Proof.
  intros y ye n s S0. unfold light_curve_normalize. destruct (Nat.eqb_spec n 0) as [->|N]; [split; auto|].
  rewrite sum_loop. set (c := sumn n y / INR n). pose proof (center_loop n y c) as CL. cbv zeta in CL.
  destruct (for_ 0 n _ (y, 0)) as [y1 v]. destruct CL as [_ C2]. cbn [fst snd] in C2. subst v.
  assert (NP : 0 < INR n) by (apply lt_0_INR; lia).
  pose proof (squares_ge n (fun i => y i - c)) as V0. cbv beta in V0. set (v := sumn n (fun i => (y i - c) * (y i - c))) in *.
  assert (VN : 0 <= v / INR n) by (apply Rmult_le_pos; [exact V0|left; apply Rinv_0_lt_compat, NP]).
  assert (M : v = 0 <-> constant n y).
  { rewrite (mean_const n y) by lia. fold c. split.
    - intros E. apply (squares_zero n (fun i => y i - c)). exact E.
    - intros H. unfold v. rewrite (sumn_ext n _ (fun _ => 0)) by (intros i I; rewrite H by exact I; ring). rewrite sum_const. ring. }
  assert (Q : sqrt (v / INR n) / s = 0 <-> v = 0).
  { split.
    - intros E. apply Rmult_integral in E. destruct E as [E|E]; [|exfalso; revert E; apply Rinv_neq_0_compat; lra].
      apply sqrt_eq_0 in E; [|exact VN]. apply Rmult_integral in E. destruct E as [E|E]; [exact E|exfalso; revert E; apply Rinv_neq_0_compat; lra].
    - intros ->. unfold Rdiv. rewrite Rmult_0_l, sqrt_0. ring. }
  destruct (Req_EM_T _ 0) as [E|E].
  - split; [intros _; right; apply M, Q, E|reflexivity].
  - split; [discriminate|]. intros [?|C]; [lia|]. exfalso. apply E, Q, M, C.
Qed.
Print Assumptions C73_fails.

(** 0, 2: mean 1, to -0.1, 0.1; the third position belongs to the next curve *)
Example C73_case : exists y' ye', light_curve_normalize (fun i => INR (2 * i)) (fun _ => 1) 2 (1 / 10) = Some (y', ye')
  /\ normalized 2 (1 / 10) (fun i => INR (2 * i)) (fun _ => 1) y' ye' /\ y' 2%nat = 4.
Proof.
  destruct (light_curve_normalize (fun i => INR (2 * i)) (fun _ => 1) 2 (1 / 10)) as [[y' ye']|] eqn:E.
  - exists y', ye'. assert (S0 : 0 < 1 / 10) by lra. pose proof (C73_normalized _ _ _ _ _ _ S0 E) as H. split; [reflexivity|]. split; [exact H|].
    destruct H as (_ & _ & _ & H). rewrite (proj1 (H 2%nat ltac:(lia))). cbn. ring.
  - apply C73_fails in E; [|lra]. destruct E as [E|E]; [lia|]. specialize (E 0%nat 1%nat ltac:(lia) ltac:(lia)). cbn in E. lra.
Qed.
