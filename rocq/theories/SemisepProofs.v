(** Proofs about the fast solver. *)
From Coq Require Import Reals List Arith Lia Lra Psatz.
From Verif Require Import SemisepModel.
Import ListNotations.
Open Scope R_scope.

Lemma upd_same : forall a i v, upd a i v i = v.
Proof. intros. unfold upd. rewrite Nat.eqb_refl. reflexivity. Qed.
Lemma upd_other : forall a i v k, k <> i -> upd a i v k = a k.
Proof. intros. unfold upd. destruct (Nat.eqb_spec k i); [congruence|reflexivity]. Qed.

Lemma for_inv : forall St (P : nat -> St -> Prop) lo n body (s : St), P lo s ->
  (forall i s, (lo <= i < lo + n)%nat -> P i s -> P (S i) (body i s)) ->
  P (lo + n)%nat (for_ lo n body s).
Proof.
  intros St P lo n body. revert lo. induction n as [|n IH]; intros lo s H0 Hs; unfold for_; simpl.
  - rewrite Nat.add_0_r. exact H0.
  - replace (lo + S n)%nat with (S lo + n)%nat by lia. apply IH.
    + apply Hs; [lia|exact H0].
    + intros i s' Hi. apply Hs. lia.
Qed.
Lemma for_down_inv : forall St (P : nat -> St -> Prop) n body (s : St), P n s ->
  (forall i s, (i < n)%nat -> P (S i) s -> P i (body i s)) -> P O (for_down n body s).
Proof.
  intros St P n body. induction n as [|n IH]; intros s H0 Hs; simpl; [exact H0|].
  apply IH; [apply Hs; [lia|exact H0]|]. intros i s' Hi. apply Hs. lia.
Qed.

(** Finite sums. *)
Fixpoint sumn (n : nat) (f : nat -> R) : R := match n with O => 0 | S k => sumn k f + f k end.
Lemma sumn_ext : forall n f g, (forall i, (i < n)%nat -> f i = g i) -> sumn n f = sumn n g.
Proof. induction n; intros f g H; simpl; [reflexivity|]. rewrite (IHn f g), H; auto. Qed.
Lemma sumn_scal : forall n c f, sumn n (fun i => c * f i) = c * sumn n f.
Proof. induction n; intros; simpl; [ring|]. rewrite IHn. ring. Qed.
Lemma sumn_plus : forall n f g, sumn n (fun i => f i + g i) = sumn n f + sumn n g.
Proof. induction n; intros; simpl; [ring|]. rewrite IHn. ring. Qed.
Lemma sumn_zero : forall n, sumn n (fun _ => 0) = 0.
Proof. induction n; simpl; [reflexivity|]. rewrite IHn. ring. Qed.
Lemma sumn_swap : forall n m f, sumn n (fun i => sumn m (fun j => f i j)) = sumn m (fun j => sumn n (fun i => f i j)).
Proof.
  induction n; intros m f; simpl; [rewrite sumn_zero; reflexivity|].
  rewrite IHn, <- sumn_plus. reflexivity.
Qed.
Lemma sumn_single : forall n k f, (k < n)%nat -> (forall i, (i < n)%nat -> i <> k -> f i = 0) -> sumn n f = f k.
Proof.
  induction n; intros k f H Z; simpl; [lia|]. destruct (Nat.eq_dec k n) as [->|E].
  - rewrite (sumn_ext n f (fun _ => 0)); [rewrite sumn_zero; ring|]. intros; apply Z; lia.
  - rewrite (IHn k f); [|lia|intros; apply Z; lia]. rewrite (Z n); [ring|lia|lia].
Qed.
Lemma sumn_split : forall n k f, (k <= n)%nat -> sumn n f = sumn k f + sumn (n - k) (fun i => f (k + i)%nat).
Proof.
  induction n; intros k f H; simpl.
  - assert (k = 0)%nat by lia. subst. simpl. ring.
  - destruct (Nat.eq_dec k (S n)) as [->|E].
    + rewrite Nat.sub_diag. simpl. ring.
    + rewrite (IHn k f) by lia. replace (match k with O => S n | S l => (n - l)%nat end) with (S (n - k)) by (destruct k; lia).
      simpl. replace (k + (n - k))%nat with n by lia. ring.
Qed.
Lemma sumn_ge0 : forall n f, (forall i, (i < n)%nat -> 0 <= f i) -> 0 <= sumn n f.
Proof. induction n; intros f H; simpl; [lra|]. assert (0 <= f n) by (apply H; lia). assert (0 <= sumn n f) by (apply IHn; intros; apply H; lia). lra. Qed.

Section Drw.
  Variables (t sigma : arr) (a1 c1 syserr : R).
  Definition noise (i : nat) : R := sigma i * sigma i + syserr * syserr.
  (** e i j: correlation of two points, for i after j. *)
  Definition ee (i j : nat) : R := exp (- c1 * (t i - t j)).
  Definition phq (i : nat) : R := match i with O => 0 | S k => ee (S k) k end.
  Definition Dof (i : nat) (s : R) : R := noise i + a1 - a1 * a1 * s.
  Definition Wof (i : nat) (s : R) : R := 1 / Dof i s * (1 - a1 * s).
  Fixpoint Sq (i : nat) : R :=
    match i with
    | O => 0
    | S k => phq (S k) * phq (S k) * (Sq k + Dof k (Sq k) * Wof k (Sq k) * Wof k (Sq k))
    end.
  Definition Dq i := Dof i (Sq i).
  Definition Wq i := Wof i (Sq i).

  Lemma drw_loop : forall n W0 D0 phi0, (1 <= n)%nat ->
    let '(W, D, phi) := compute_semiseparable_drw t n a1 c1 sigma syserr W0 D0 phi0 in
    forall i, (i < n)%nat -> W i = Wq i /\ D i = Dq i /\ phi i = phq i.
  Proof.
    intros n W0 D0 phi0 N. unfold compute_semiseparable_drw.
    assert (PH : forall i, (i < n)%nat -> drw_phi t n c1 phi0 i = phq i).
    { unfold drw_phi.
      set (body := fun i phi => upd phi i (exp (- c1 * (t i - t (i - 1)%nat)))).
      pose proof (for_inv _ (fun i phi => forall k, (k < i)%nat -> phi k = phq k) 1 (n - 1) body (upd phi0 0 0)) as G.
      cbv beta in G. replace (1 + (n - 1))%nat with n in G by lia. apply G.
      - intros k K. assert (k = 0)%nat by lia. subst. apply upd_same.
      - intros i s Hi IH k K. unfold body. destruct (Nat.eq_dec k i) as [->|E].
        + rewrite upd_same. destruct i; [lia|]. simpl. rewrite Nat.sub_0_r. reflexivity.
        + rewrite upd_other by auto. apply IH. lia. }
    set (D1 := upd D0 0 (sigma 0%nat * sigma 0%nat + syserr * syserr + a1)).
    set (W1 := upd W0 0 (1 / D1 0%nat)).
    assert (G : forall Sf Wf Df, for_ 1 (n - 1) (drw_step a1 sigma syserr (drw_phi t n c1 phi0)) (0, W1, D1) = (Sf, Wf, Df) ->
       forall k, (k < n)%nat -> Wf k = Wq k /\ Df k = Dq k).
    { intros Sf Wf Df EF.
      set (P := fun i (s : R * arr * arr) => fst (fst s) = Sq (i - 1) /\
         forall k, (k < i)%nat -> snd (fst s) k = Wq k /\ snd s k = Dq k).
      assert (G : P n (Sf, Wf, Df)); [|exact (proj2 G)].
      rewrite <- EF. replace n with (1 + (n - 1))%nat at 1 by lia. apply for_inv; unfold P.
    - split; [reflexivity|]. intros k K. assert (k = 0)%nat by lia. subst.
      assert (E : D1 0%nat = Dq 0). { unfold D1. rewrite upd_same. unfold Dq, Dof, noise. simpl. ring. }
      cbn [fst snd]. split; [|exact E]. unfold W1. rewrite upd_same, E. unfold Wq, Wof. fold (Dq 0). simpl.
      rewrite Rmult_0_r, Rminus_0_r, Rmult_1_r. reflexivity.
    - intros i [[s W] D] Hi [H1 H2]. simpl in *. destruct i as [|i]; [lia|]. simpl in *. rewrite Nat.sub_0_r in *.
      destruct (H2 i) as [HW HD]; [lia|].
      assert (ES : drw_phi t n c1 phi0 (S i) * drw_phi t n c1 phi0 (S i) * (s + D i * W i * W i) = Sq (S i)).
      { rewrite PH by lia. rewrite H1, HW, HD. reflexivity. }
      rewrite ES.
      assert (ED : sigma (S i) * sigma (S i) + syserr * syserr + a1 - a1 * a1 * Sq (S i) = Dq (S i)).
      { unfold Dq, Dof, noise. reflexivity. }
      rewrite ED. split; [reflexivity|]. intros k K. destruct (Nat.eq_dec k (S i)) as [->|E].
      + rewrite !upd_same. split; reflexivity.
      + rewrite !upd_other by auto. apply H2. lia.
    }
    destruct (for_ 1 (n - 1) (drw_step a1 sigma syserr (drw_phi t n c1 phi0)) (0, W1, D1)) as [[Sf Wf] Df].
    intros i I. destruct (G Sf Wf Df eq_refl i I). auto.
  Qed.

  Lemma ee_trans : forall i j k, ee i j * ee j k = ee i k.
  Proof. intros. unfold ee. rewrite <- exp_plus. f_equal. ring. Qed.
  Lemma ee_refl : forall i, ee i i = 1.
  Proof. intros. unfold ee. replace (- c1 * (t i - t i)) with 0 by ring. apply exp_0. Qed.

  Lemma Sq_sum : forall i, Sq i = sumn i (fun k => ee i k * ee i k * (Dq k * Wq k * Wq k)).
  Proof.
    induction i; simpl; [reflexivity|].
    rewrite (sumn_ext i _ (fun k => ee (S i) i * ee (S i) i * (ee i k * ee i k * (Dq k * Wq k * Wq k)))).
    - rewrite sumn_scal, <- IHi. fold (Dq i) (Wq i). ring.
    - intros k _. rewrite <- (ee_trans (S i) i k). ring.
  Qed.

  (** * Positivity *)
  Hypothesis a1_pos : 0 < a1.
  Variable n : nat.
  (** times in order, and no two coinciding times without noise *)
  Hypothesis sorted : forall i, (S i < n)%nat -> t i <= t (S i).
  Hypothesis c1_pos : 0 < c1.
  Hypothesis noisy : forall i, (S i < n)%nat -> t i < t (S i) \/ 0 < noise i.

  Lemma noise_ge0 : forall i, 0 <= noise i.
  Proof. intros. unfold noise. nra. Qed.

  Lemma ee_step : forall i, (S i < n)%nat -> 0 < ee (S i) i <= 1 /\ (t i < t (S i) -> ee (S i) i < 1).
  Proof.
    intros i H. specialize (sorted i H). unfold ee. split; [split|].
    - apply exp_pos.
    - rewrite <- exp_0. destruct (Req_dec (t (S i)) (t i)) as [->|E].
      + right. f_equal. ring.
      + left. apply exp_increasing. assert (0 < c1 * (t (S i) - t i)) by (apply Rmult_lt_0_compat; lra). lra.
    - intros L. rewrite <- exp_0. apply exp_increasing. assert (0 < c1 * (t (S i) - t i)) by (apply Rmult_lt_0_compat; lra). lra.
  Qed.

  Lemma Sq_range : forall i, (i < n)%nat -> 0 <= a1 * Sq i < 1.
  Proof.
    induction i; intros H; simpl; [lra|].
    assert (IH : 0 <= a1 * Sq i < 1) by (apply IHi; lia). clear IHi.
    set (q := a1 * Sq i) in *. set (u := 1 - q). set (N := noise i).
    assert (NN : 0 <= N) by apply noise_ge0.
    assert (DE : Dof i (Sq i) = N + a1 * u) by (unfold Dof, u, q, N; ring).
    assert (WE : Wof i (Sq i) = u / (N + a1 * u)) by (unfold Wof; rewrite DE; unfold u, q; unfold Rdiv; ring).
    assert (DP : 0 < N + a1 * u) by (assert (0 < a1 * u) by (apply Rmult_lt_0_compat; unfold u; lra); lra).
    rewrite WE, DE.
    set (p := ee (S i) i). destruct (ee_step i H) as [[P0 P1] PL]. fold p in P0, P1, PL.
    assert (EX : a1 * (p * p * (Sq i + (N + a1 * u) * (u / (N + a1 * u)) * (u / (N + a1 * u)))) =
                 p * p * (q + a1 * u * u / (N + a1 * u))).
    { unfold q. field. lra. }
    rewrite EX.
    assert (RAT : a1 * u * u / (N + a1 * u) = u - N * u / (N + a1 * u)) by (field; lra).
    assert (FR : 0 <= N * u / (N + a1 * u)).
    { apply Rmult_le_pos; [apply Rmult_le_pos; unfold u; lra|left; apply Rinv_0_lt_compat; lra]. }
    assert (Q1 : 0 <= q + a1 * u * u / (N + a1 * u) <= 1).
    { split.
      - assert (0 <= a1 * u * u / (N + a1 * u)); [|lra].
        apply Rmult_le_pos; [apply Rmult_le_pos; [apply Rmult_le_pos|]; unfold u; lra|left; apply Rinv_0_lt_compat; lra].
      - rewrite RAT. unfold u in *. lra. }
    assert (PP : 0 <= p * p <= 1) by nra.
    split; [apply Rmult_le_pos; lra|].
    destruct (noisy i H) as [TL|NP].
    - specialize (PL TL). assert (p * p < 1) by nra.
      apply Rle_lt_trans with (p * p * 1); [apply Rmult_le_compat_l; lra|lra].
    - assert (0 < N * u / (N + a1 * u)).
      { apply Rmult_lt_0_compat; [apply Rmult_lt_0_compat; unfold u, N; lra|apply Rinv_0_lt_compat; lra]. }
      apply Rle_lt_trans with (1 * (q + a1 * u * u / (N + a1 * u))); [apply Rmult_le_compat_r; lra|].
      rewrite RAT. unfold u in *. lra.
  Qed.

  Lemma Dq_pos : forall i, (i < n)%nat -> 0 < Dq i.
  Proof.
    intros i H. pose proof (Sq_range i H). pose proof (noise_ge0 i). unfold Dq, Dof.
    replace (noise i + a1 - a1 * a1 * Sq i) with (noise i + a1 * (1 - a1 * Sq i)) by ring.
    assert (0 < a1 * (1 - a1 * Sq i)) by (apply Rmult_lt_0_compat; lra). lra.
  Qed.

  Lemma WD : forall i, (i < n)%nat -> Wq i * Dq i = 1 - a1 * Sq i.
  Proof. intros i H. pose proof (Dq_pos i H). unfold Wq, Wof. fold (Dq i). field. lra. Qed.

  (** * C = L D L^T *)
  Definition Lq (i j : nat) : R := if Nat.eqb i j then 1 else if Nat.ltb j i then a1 * (ee i j * Wq j) else 0.
  Definition Cq (i j : nat) : R := a1 * exp (- c1 * Rabs (t i - t j)) + (if Nat.eqb i j then noise i else 0).

  Lemma sorted_le : forall i j, (i <= j < n)%nat -> t i <= t j.
  Proof.
    intros i j. induction j; intros H; [assert (i = 0)%nat by lia; subst; lra|].
    destruct (Nat.eq_dec i (S j)) as [->|E]; [lra|].
    assert (t i <= t j) by (apply IHj; lia). specialize (sorted j ltac:(lia)). lra.
  Qed.

  Lemma Cq_lower : forall i j, (j < i < n)%nat -> Cq i j = a1 * ee i j.
  Proof.
    intros i j H. unfold Cq. destruct (Nat.eqb_spec i j); [lia|]. rewrite Rplus_0_r.
    assert (t j <= t i) by (apply sorted_le; lia). rewrite Rabs_pos_eq by lra. reflexivity.
  Qed.
  Lemma Cq_diag : forall i, Cq i i = a1 + noise i.
  Proof.
    intros i. unfold Cq. rewrite Nat.eqb_refl. replace (t i - t i) with 0 by ring. rewrite Rabs_R0, Rmult_0_r, exp_0. ring.
  Qed.
  Lemma Cq_sym : forall i j, Cq i j = Cq j i.
  Proof.
    intros i j. unfold Cq. rewrite Rabs_minus_sym, Nat.eqb_sym. destruct (Nat.eqb_spec j i); [subst|]; reflexivity.
  Qed.

  Lemma LDL_le : forall i j, (j <= i < n)%nat ->
    sumn n (fun k => Lq i k * Dq k * Lq j k) = Cq i j.
  Proof.
    intros i j H. rewrite (sumn_split n (S j)) by lia.
    rewrite (sumn_ext (n - S j) _ (fun _ => 0)).
    2: { intros k K. unfold Lq at 2. destruct (Nat.eqb_spec j (S j + k)); [lia|].
         destruct (Nat.ltb_spec (S j + k) j); [lia|]. ring. }
    rewrite sumn_zero, Rplus_0_r. simpl.
    destruct (Nat.eq_dec j i) as [->|NE].
    - rewrite (sumn_ext i _ (fun k => a1 * a1 * (ee i k * ee i k * (Dq k * Wq k * Wq k)))).
      2: { intros k K. unfold Lq. destruct (Nat.eqb_spec i k); [lia|]. destruct (Nat.ltb_spec k i); [|lia]. ring. }
      rewrite sumn_scal, <- Sq_sum. unfold Lq. rewrite Nat.eqb_refl. rewrite Cq_diag. unfold Dq, Dof. ring.
    - rewrite (sumn_ext j _ (fun k => a1 * a1 * ee i j * (ee j k * ee j k * (Dq k * Wq k * Wq k)))).
      2: { intros k K. unfold Lq. destruct (Nat.eqb_spec i k); [lia|]. destruct (Nat.eqb_spec j k); [lia|].
           destruct (Nat.ltb_spec k i); [|lia]. destruct (Nat.ltb_spec k j); [|lia].
           rewrite <- (ee_trans i j k). ring. }
      rewrite sumn_scal, <- Sq_sum. unfold Lq. rewrite Nat.eqb_refl.
      destruct (Nat.eqb_spec i j); [lia|]. destruct (Nat.ltb_spec j i); [|lia].
      rewrite Cq_lower by lia.
      replace (a1 * (ee i j * Wq j) * Dq j * 1) with (a1 * ee i j * (Wq j * Dq j)) by ring.
      rewrite WD by lia. ring.
  Qed.
  Lemma LDL : forall i j, (i < n)%nat -> (j < n)%nat -> sumn n (fun k => Lq i k * Dq k * Lq j k) = Cq i j.
  Proof.
    intros i j I J. destruct (le_lt_dec j i).
    - apply LDL_le. lia.
    - rewrite Cq_sym, <- LDL_le by lia. apply sumn_ext. intros. ring.
  Qed.

  (** * Forward and backward substitution, as recurrences *)
  Variable y : arr.
  Fixpoint fz (i : nat) : R * R :=
    match i with
    | O => (0, y O)
    | S k => let f := phq (S k) * (fst (fz k) + Wq k * snd (fz k)) in (f, y (S k) - a1 * f)
    end.
  Definition zf i := snd (fz i).
  Lemma ff_sum : forall i, fst (fz i) = sumn i (fun k => ee i k * Wq k * zf k).
  Proof.
    induction i; simpl; [reflexivity|].
    rewrite (sumn_ext i _ (fun k => ee (S i) i * (ee i k * Wq k * zf k))).
    - rewrite sumn_scal, <- IHi. unfold zf. ring.
    - intros k _. rewrite <- (ee_trans (S i) i k). ring.
  Qed.
  Lemma zf_solves : forall i, (i < n)%nat -> sumn n (fun k => Lq i k * zf k) = y i.
  Proof.
    intros i H. rewrite (sumn_split n (S i)) by lia. rewrite (sumn_ext (n - S i) _ (fun _ => 0)).
    2: { intros k K. unfold Lq. destruct (Nat.eqb_spec i (S i + k)); [lia|]. destruct (Nat.ltb_spec (S i + k) i); [lia|]. ring. }
    rewrite sumn_zero, Rplus_0_r. simpl.
    rewrite (sumn_ext i _ (fun k => a1 * (ee i k * Wq k * zf k))).
    2: { intros k K. unfold Lq. destruct (Nat.eqb_spec i k); [lia|]. destruct (Nat.ltb_spec k i); [|lia]. ring. }
    rewrite sumn_scal, <- ff_sum. unfold Lq. rewrite Nat.eqb_refl. unfold zf. destruct i; simpl; ring.
  Qed.

  (** backward: any x with x_i = z_i/D_i - W_i g_i, g_i the sum over later points *)
  Definition gsum (x : arr) (i : nat) : R := sumn (n - S i) (fun k => a1 * ee (S i + k) i * x (S i + k)%nat).
  Lemma gsum_step : forall x i, (S i < n)%nat -> gsum x i = ee (S i) i * (gsum x (S i) + a1 * x (S i)).
  Proof.
    intros x i H. unfold gsum. rewrite (sumn_split (n - S i) 1) by lia. simpl sumn at 1.
    replace (n - S i - 1)%nat with (n - S (S i))%nat by lia.
    rewrite (sumn_ext (n - S (S i)) _ (fun k => ee (S i) i * (a1 * ee (S (S i) + k) (S i) * x (S (S i) + k)%nat))).
    - rewrite sumn_scal. rewrite Nat.add_0_r. ring.
    - intros k K. replace (S i + (1 + k))%nat with (S (S i) + k)%nat by lia.
      rewrite <- (ee_trans (S (S i) + k) (S i) i). ring.
  Qed.

  Lemma back_solves : forall x, (forall i, (i < n)%nat -> x i = zf i / Dq i - Wq i * gsum x i) ->
    forall i, (i < n)%nat -> Dq i * sumn n (fun k => Lq k i * x k) = zf i.
  Proof.
    intros x H i I. rewrite (sumn_split n (S i)) by lia. simpl.
    rewrite (sumn_ext i _ (fun _ => 0)).
    2: { intros k K. unfold Lq. destruct (Nat.eqb_spec k i); [lia|]. destruct (Nat.ltb_spec i k); [lia|]. ring. }
    rewrite sumn_zero. unfold Lq at 1. rewrite Nat.eqb_refl.
    rewrite (sumn_ext (n - S i) _ (fun k => Wq i * (a1 * ee (S i + k) i * x (S i + k)%nat))).
    2: { intros k K. unfold Lq. destruct (Nat.eqb_spec (S (i + k)) i); [lia|]. destruct (Nat.ltb_spec i (S (i + k))); [|lia]. simpl. ring. }
    rewrite sumn_scal. fold (gsum x i). rewrite (H i I) at 1. pose proof (Dq_pos i I). field. lra.
  Qed.

  Lemma solves : forall x, (forall i, (i < n)%nat -> x i = zf i / Dq i - Wq i * gsum x i) ->
    forall i, (i < n)%nat -> sumn n (fun j => Cq i j * x j) = y i.
  Proof.
    intros x H i I.
    rewrite (sumn_ext n _ (fun j => sumn n (fun k => Lq i k * (Dq k * (Lq j k * x j))))).
    2: { intros j J. rewrite <- LDL by auto. rewrite <- (Rmult_comm (x j)), <- sumn_scal. apply sumn_ext. intros. ring. }
    rewrite sumn_swap. rewrite <- (zf_solves i I). apply sumn_ext. intros k K.
    rewrite sumn_scal, sumn_scal. f_equal. apply back_solves; auto.
  Qed.
End Drw.
