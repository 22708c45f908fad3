(** C26, C27, C28: the fast solver for damped-random-walk covariances.
    Real arithmetic, no rounding. *)
From Coq Require Import Reals List Arith Lia Lra Psatz.
From Verif Require Import SemisepModel SemisepProofs SemisepProofs2 MatBridge SemisepProofs3.
Import ListNotations.
Open Scope R_scope.

(** ** What the statements are about, independent of the program *)

(** Covariance of measurements at times t with errors err: a damped random walk
    of variance s2 and time scale tau, plus independent errors err_i and a
    common systematic error. *)
Definition covariance (s2 tau syserr : R) (t err : nat -> R) (i j : nat) : R :=
  s2 * exp (- (Rabs (t i - t j) / tau)) + (if Nat.eqb i j then err i ^ 2 + syserr ^ 2 else 0).

(** Times in order; two equal neighbouring times only if the first has noise. *)
Definition proper_times (n : nat) (syserr : R) (t err : nat -> R) : Prop :=
  forall i, (S i < n)%nat -> t i < t (S i) \/ (t i = t (S i) /\ (err i <> 0 \/ syserr <> 0)).

(** C z = y, all n components. *)
Definition solution (n : nat) (C : nat -> nat -> R) (z y : nat -> R) : Prop :=
  forall i, (i < n)%nat -> sumn n (fun j => C i j * z j) = y i.

Lemma cov_Cq : forall s2 tau syserr t err i j,
  covariance s2 tau syserr t err i j = Cq t err s2 (1 / tau) syserr i j.
Proof.
  intros. unfold covariance, Cq, noise. f_equal.
  - f_equal. apply (f_equal exp). unfold Rdiv. ring.
  - destruct (Nat.eqb i j); ring.
Qed.
Lemma sol_Cq : forall n s2 tau syserr t err z y,
  (forall i, (i < n)%nat -> sumn n (fun j => Cq t err s2 (1 / tau) syserr i j * z j) = y i) ->
  solution n (covariance s2 tau syserr t err) z y.
Proof. intros * H i I. rewrite <- (H i I). apply sumn_ext. intros. rewrite cov_Cq. reflexivity. Qed.

Section S.
  Variables (n : nat) (s2 tau syserr : R) (t err : nat -> R).
  Hypothesis n1 : (1 <= n)%nat.
  Hypothesis s2_pos : 0 < s2.
  Hypothesis tau_pos : 0 < tau.
  Hypothesis times : proper_times n syserr t err.
  Lemma pt_sorted : forall i, (S i < n)%nat -> t i <= t (S i).
  Proof. intros i I. destruct (times i I) as [|[H _]]; lra. Qed.
  Lemma pt_noisy : forall i, (S i < n)%nat -> t i < t (S i) \/ 0 < noise err syserr i.
  Proof. intros i I. destruct (times i I) as [|[_ H]]; [left; lra|]. right. unfold noise. destruct H; nra. Qed.
  Lemma c1_pos' : 0 < 1 / tau.
  Proof. apply Rdiv_lt_0_compat; lra. Qed.
End S.

(** ** C26 *)

Theorem C26_vector : forall n s2 tau syserr t err y z0 W0 D0 phi0,
  (1 <= n)%nat -> 0 < s2 -> 0 < tau -> proper_times n syserr t err ->
  let '(W, D, phi) := compute_semiseparable_drw t n s2 (1 / tau) err syserr W0 D0 phi0 in
  solution n (covariance s2 tau syserr t err) (multiply_matvec_semiseparable_drw y W D phi n s2 z0) y.
Proof.
  intros n s2 tau syserr t err y z0 W0 D0 phi0 N S T P.
  pose proof (drw_loop t err s2 (1 / tau) syserr n W0 D0 phi0 N) as DL.
  destruct (compute_semiseparable_drw t n s2 (1 / tau) err syserr W0 D0 phi0) as [[W D] phi].
  apply sol_Cq.
  apply (solves t err s2 (1 / tau) syserr S n (pt_sorted n syserr t err P) (c1_pos' tau T) (pt_noisy n syserr t err P)).
  set (z := multiply_matvec_semiseparable_drw y W D phi n s2 z0).
  intros i I.
  pose proof (mat_solve t err s2 (1 / tau) syserr n 1 N W D phi DL (fun i _ => i) y z0 0 (Nat.lt_0_succ 0)) as G.
  cbv zeta in G. unfold z.
  assert (E : forall k, multiply_mat_semi (fun i _ => i) y W D phi n 1 s2 z0 (k * 1 + 0)%nat =
    multiply_matvec_semiseparable_drw y W D phi n s2 z0 k).
  { intros k. rewrite matvec_general. unfold multiply_mat_semi. unfold for_. simpl fold_left.
    rewrite mbwd_general, mfwd_general.
    assert (IX : (fun i0 : nat => (i0 * 1 + 0)%nat) = (fun i0 => i0)) by (apply FunctionalExtensionality.functional_extensionality; intros; lia).
    rewrite IX. replace (k * 1 + 0)%nat with k by lia. reflexivity. }
  rewrite <- E. rewrite (G i I). f_equal. f_equal. apply gsum_ext; [exact N|]. intros k K. apply E.
Qed.
Print Assumptions C26_vector.

Theorem C26_matrix : forall n m s2 tau syserr t err Y Z0 W0 D0 phi0,
  (1 <= n)%nat -> 0 < s2 -> 0 < tau -> proper_times n syserr t err ->
  let '(W, D, phi) := compute_semiseparable_drw t n s2 (1 / tau) err syserr W0 D0 phi0 in
  (forall j, (j < m)%nat -> solution n (covariance s2 tau syserr t err)
     (fun i => multiply_mat_semiseparable_drw Y W D phi n m s2 Z0 (i * m + j)%nat) (fun i => Y (i * m + j)%nat)) /\
  (forall j, (j < m)%nat -> solution n (covariance s2 tau syserr t err)
     (fun i => multiply_mat_transposeB_semiseparable_drw Y W D phi n m s2 Z0 (i * m + j)%nat) (fun i => Y (j * n + i)%nat)).
Proof.
  intros n m s2 tau syserr t err Y Z0 W0 D0 phi0 N S T P.
  pose proof (drw_loop t err s2 (1 / tau) syserr n W0 D0 phi0 N) as DL.
  destruct (compute_semiseparable_drw t n s2 (1 / tau) err syserr W0 D0 phi0) as [[W D] phi].
  assert (G : forall src j, (j < m)%nat -> forall i, (i < n)%nat ->
    sumn n (fun k => Cq t err s2 (1 / tau) syserr i k * multiply_mat_semi src Y W D phi n m s2 Z0 (k * m + j)%nat) = Y (src i j)).
  { intros src j J i I.
    exact (solves t err s2 (1 / tau) syserr S n (pt_sorted n syserr t err P) (c1_pos' tau T) (pt_noisy n syserr t err P) _ _
      (mat_solve t err s2 (1 / tau) syserr n m N W D phi DL src Y Z0 j J) i I). }
  split; intros j J; apply sol_Cq; intros i I.
  - exact (G (fun i j => (i * m + j)%nat) j J i I).
  - rewrite Nat.add_comm. exact (G (fun i j => (i + j * n)%nat) j J i I).
Qed.
Print Assumptions C26_matrix.

(** The two LAPACK routines are assumed to do what their manual says
    ([dtrtri_spec], [dlauum_spec]); both assumptions hold of the routines
    defined below, so they can be met. *)
Theorem C26_inverse : forall dtrtri dlauum n s2 tau syserr t err W0 D0 phi0 A0,
  dtrtri_spec dtrtri -> dlauum_spec dlauum ->
  (1 <= n)%nat -> 0 < s2 -> 0 < tau -> proper_times n syserr t err ->
  let A := fst (fst (inverse_semiseparable dtrtri dlauum t n s2 (1 / tau) err syserr W0 D0 phi0 A0)) in
  let C := covariance s2 tau syserr t err in
  forall i j, (i < n)%nat -> (j < n)%nat ->
    sumn n (fun k => C i k * A (k * n + j)%nat) = (if Nat.eqb i j then 1 else 0) /\
    sumn n (fun k => A (i * n + k)%nat * C k j) = (if Nat.eqb i j then 1 else 0).
Proof.
  intros tri lau n s2 tau syserr t err W0 D0 phi0 A0 HT HL N S T P.
  pose proof (inverse_ok tri lau HT HL t err s2 (1 / tau) syserr n N S (pt_sorted n syserr t err P) (c1_pos' tau T)
    (pt_noisy n syserr t err P) W0 D0 phi0 A0) as G.
  destruct (inverse_semiseparable tri lau t n s2 (1 / tau) err syserr W0 D0 phi0 A0) as [[A ld] [[W D] phi]].
  cbn [fst]. destruct G as (G1 & G2 & _).
  assert (R1 : forall i j, (i < n)%nat -> (j < n)%nat ->
    sumn n (fun k => covariance s2 tau syserr t err i k * A (k * n + j)%nat) = delta i j).
  { intros i j I J. rewrite <- (G1 i j I J). apply sumn_ext. intros. rewrite cov_Cq. reflexivity. }
  intros i j I J. split; [apply R1; auto|].
  exact (right_left (g := fun i j => A (i * n + j)%nat) R1 I J).
Qed.
Print Assumptions C26_inverse.

(** ** C27 *)

Theorem C27_lndet : forall dtrtri dlauum n s2 tau syserr t err W0 D0 phi0 A0,
  dtrtri_spec dtrtri -> dlauum_spec dlauum ->
  (1 <= n)%nat -> 0 < s2 -> 0 < tau -> proper_times n syserr t err ->
  let '(_, lndet, (W, D, phi)) := inverse_semiseparable dtrtri dlauum t n s2 (1 / tau) err syserr W0 D0 phi0 A0 in
  0 < detn n (covariance s2 tau syserr t err) /\
  lndet = ln (detn n (covariance s2 tau syserr t err)) /\
  sumn n (fun i => ln (D i)) = ln (detn n (covariance s2 tau syserr t err)).
Proof.
  intros tri lau n s2 tau syserr t err W0 D0 phi0 A0 HT HL N S T P.
  pose proof (inverse_ok tri lau HT HL t err s2 (1 / tau) syserr n N S (pt_sorted n syserr t err P) (c1_pos' tau T)
    (pt_noisy n syserr t err P) W0 D0 phi0 A0) as G.
  destruct (inverse_semiseparable tri lau t n s2 (1 / tau) err syserr W0 D0 phi0 A0) as [[A ld] [[W D] phi]].
  destruct G as (_ & _ & G & GD).
  assert (E : detn n (covariance s2 tau syserr t err) = detn n (Cq t err s2 (1 / tau) syserr)).
  { apply detn_ext. intros. apply cov_Cq. }
  rewrite E.
  destruct (lndet_ok t err s2 (1 / tau) syserr n N S (pt_sorted n syserr t err P) (c1_pos' tau T) (pt_noisy n syserr t err P)) as [L1 L2].
  split; [exact L1|]. split; [congruence|]. rewrite <- L2. apply sumn_ext. intros i I. destruct (GD i I) as (_ & -> & _). reflexivity.
Qed.
Print Assumptions C27_lndet.

(** ** C28 *)

Theorem C28_pivots : forall n s2 tau syserr t err W0 D0 phi0,
  (1 <= n)%nat -> 0 < s2 -> 0 < tau -> proper_times n syserr t err ->
  let '(W, D, phi) := compute_semiseparable_drw t n s2 (1 / tau) err syserr W0 D0 phi0 in
  forall i, (i < n)%nat -> 0 < D i.
Proof.
  intros n s2 tau syserr t err W0 D0 phi0 N S T P.
  pose proof (drw_loop t err s2 (1 / tau) syserr n W0 D0 phi0 N) as DL.
  destruct (compute_semiseparable_drw t n s2 (1 / tau) err syserr W0 D0 phi0) as [[W D] phi].
  intros i I. destruct (DL i I) as (_ & -> & _).
  apply (Dq_pos t err s2 (1 / tau) syserr S n (pt_sorted n syserr t err P) (c1_pos' tau T) (pt_noisy n syserr t err P)); auto.
Qed.
Print Assumptions C28_pivots.

Theorem C28_positive_definite : forall n s2 tau syserr t err x,
  0 < s2 -> 0 < tau -> proper_times n syserr t err ->
  (exists i, (i < n)%nat /\ x i <> 0) ->
  0 < sumn n (fun i => sumn n (fun j => x i * covariance s2 tau syserr t err i j * x j)).
Proof.
  intros n s2 tau syserr t err x S T P X.
  rewrite (sumn_ext n _ (fun i => sumn n (fun j => x i * Cq t err s2 (1 / tau) syserr i j * x j))).
  - assert (N : (1 <= n)%nat) by (destruct X as (i & I & _); lia).
    apply (posdef t err s2 (1 / tau) syserr n N S (pt_sorted n syserr t err P) (c1_pos' tau T) (pt_noisy n syserr t err P)); auto.
  - intros. apply sumn_ext. intros. rewrite cov_Cq. reflexivity.
Qed.
Print Assumptions C28_positive_definite.

(** Without the condition the second pivot can vanish: two equal times, no error. *)
Theorem C28_ties_without_error_refuted : exists n s2 tau syserr t err,
  (1 <= n)%nat /\ 0 < s2 /\ 0 < tau /\ (forall i, (S i < n)%nat -> t i <= t (S i)) /\
  forall W0 D0 phi0, let '(W, D, phi) := compute_semiseparable_drw t n s2 (1 / tau) err syserr W0 D0 phi0 in
  D 1%nat = 0.
Proof.
  exists 2%nat, 1, 1, 0, (fun _ => 0), (fun _ => 0). split; [lia|]. split; [lra|]. split; [lra|]. split; [intros; lra|].
  intros. unfold compute_semiseparable_drw, drw_phi, for_, drw_step, upd. simpl.
  replace (- (1 / 1) * (0 - 0)) with 0 by field. rewrite exp_0. field.
Qed.
Print Assumptions C28_ties_without_error_refuted.

(** ** The hypotheses can be met *)

(** Forward substitution for column j of the inverse of a lower triangle. *)
Fixpoint fsub (n : nat) (A : arr) (j k : nat) : list R :=
  match k with
  | O => []
  | S k' => let p := fsub n A j k' in
            p ++ [(delta k' j - sumn k' (fun q => A (k' * n + q)%nat * nth q p 0)) / A (k' * n + k')%nat]
  end.
Definition fs (n : nat) (A : arr) (i j : nat) : R := nth i (fsub n A j (S i)) 0.
Definition ref_dtrtri (n : nat) (A : arr) : arr := fun x => fs n A (x / n) (x mod n).
Definition ref_dlauum (n : nat) (A : arr) : arr :=
  fun x => sumn n (fun k => low n A k (x / n) * low n A k (x mod n)).

Lemma flat_div : forall n i j, (j < n)%nat -> ((i * n + j) / n = i)%nat /\ ((i * n + j) mod n = j)%nat.
Proof.
  intros n i j J. split.
  - rewrite Nat.div_add_l by lia. rewrite Nat.div_small; lia.
  - rewrite Nat.add_comm, Nat.mod_add by lia. apply Nat.mod_small; lia.
Qed.
Lemma fsub_len : forall n A j k, length (fsub n A j k) = k.
Proof. induction k; simpl; [reflexivity|]. rewrite app_length. simpl. lia. Qed.
Lemma fsub_nth : forall n A j k q, (q < k)%nat -> nth q (fsub n A j k) 0 = fs n A q j.
Proof.
  induction k; intros q Q; [lia|]. destruct (Nat.eq_dec q k) as [->|NE]; [reflexivity|].
  simpl. rewrite app_nth1 by (rewrite fsub_len; lia). apply IHk. lia.
Qed.
Lemma fs_eq : forall n A i j, fs n A i j = (delta i j - sumn i (fun q => A (i * n + q)%nat * fs n A q j)) / A (i * n + i)%nat.
Proof.
  intros. unfold fs at 1. simpl. rewrite app_nth2 by (rewrite fsub_len; lia). rewrite fsub_len, Nat.sub_diag. simpl.
  f_equal. f_equal. apply sumn_ext. intros q Q. rewrite fsub_nth by lia. reflexivity.
Qed.
Lemma fs_upper : forall n A j i, (i < j)%nat -> fs n A i j = 0.
Proof.
  intros n A j i. induction i as [i IH] using lt_wf_ind. intros H. rewrite fs_eq.
  unfold delta. destruct (Nat.eqb_spec i j); [lia|].
  rewrite (sumn_ext i _ (fun _ => 0)); [rewrite sumn_zero; unfold Rdiv; ring|].
  intros q Q. rewrite IH by lia. ring.
Qed.
Example dtrtri_exists : dtrtri_spec ref_dtrtri.
Proof.
  intros n A NZ i j I J.
  rewrite (sumn_ext n _ (fun k => low n A i k * fs n A k j)).
  2: { intros k K. f_equal. unfold low. destruct (Nat.leb_spec j k).
       - unfold ref_dtrtri. destruct (flat_div n k j J) as [-> ->]. reflexivity.
       - symmetry. apply fs_upper. auto. }
  rewrite (sumn_split n (S i)) by lia. rewrite (sumn_ext (n - S i) _ (fun _ => 0)), sumn_zero.
  2: { intros k K. unfold low. destruct (Nat.leb_spec (S i + k) i); [lia|]. ring. }
  simpl. rewrite (sumn_ext i _ (fun q => A (i * n + q)%nat * fs n A q j)).
  2: { intros q Q. unfold low. destruct (Nat.leb_spec q i); [reflexivity|lia]. }
  unfold low. rewrite Nat.leb_refl. rewrite (fs_eq n A i j). field. apply NZ. auto.
Qed.
Example dlauum_exists : dlauum_spec ref_dlauum.
Proof.
  intros n A i j H. unfold ref_dlauum. destruct (flat_div n i j) as [-> ->]; [lia|]. reflexivity.
Qed.

(** Three measurements, two of them at the same time with an error. *)
Definition ex_t : nat -> R := fun i => match i with 0%nat => 0 | 1%nat => 1 | _ => 1 end.
Definition ex_e : nat -> R := fun i => match i with 1%nat => 1 / 2 | _ => 0 end.
Example C26_28_example : proper_times 3 0 ex_t ex_e.
Proof.
  intros i I. destruct i as [|[|i]]; [left; unfold ex_t; simpl; lra| |lia].
  right. unfold ex_t, ex_e. split; [reflexivity|]. left. lra.
Qed.
Example C26_example : solution 3 (covariance 1 1 0 ex_t ex_e)
  (let '(W, D, phi) := compute_semiseparable_drw ex_t 3 1 (1 / 1) ex_e 0 (fun _ => 0) (fun _ => 0) (fun _ => 0) in
   multiply_matvec_semiseparable_drw (fun i => INR i) W D phi 3 1 (fun _ => 0)) INR.
Proof.
  pose proof (C26_vector 3 1 1 0 ex_t ex_e INR (fun _ => 0) (fun _ => 0) (fun _ => 0) (fun _ => 0)) as G.
  destruct (compute_semiseparable_drw ex_t 3 1 (1 / 1) ex_e 0 (fun _ => 0) (fun _ => 0) (fun _ => 0)) as [[W D] phi].
  apply G; [lia|lra|lra|exact C26_28_example].
Qed.
(** The determinant in the statement: two points a distance 1 apart. *)
Example C27_example : detn 2 (covariance 1 1 0 (fun i => INR i) (fun _ => 0)) = 1 - exp (-1) ^ 2.
Proof.
  assert (N : forall i, (S i < 2)%nat -> INR i < INR (S i) \/ 0 < noise (fun _ => 0) 0 i).
  { intros i _. left. rewrite S_INR. lra. }
  rewrite (detn_ext (g := Cq INR (fun _ => 0) 1 (1 / 1) 0)) by (intros; apply cov_Cq).
  rewrite (det_ok INR (fun _ => 0) 1 (1 / 1) 0 2 (Nat.lt_0_succ 1) Rlt_0_1); [| intros i I; rewrite S_INR; lra | lra | exact N].
  unfold prodn, Dq, Sq, Wof, Dof, noise, phq, ee. simpl.
  replace (- (1 / 1) * (1 - 0)) with (-1) by field. field.
Qed.
