(** Proofs for LogXModel. *)
From Coq Require Import Reals ZArith List Lra Lia.
From Verif Require Import CPrelude DnestModel LogXModel SamplerSpec.
Import ListNotations.
Open Scope R_scope.

(** Sum of [f] over a list. *)
Fixpoint sumR {A} (f : A -> R) (l : list A) : R :=
  match l with [] => 0 | x :: r => f x + sumR f r end.

Lemma sumR_app : forall A (f : A -> R) l m, sumR f (l ++ m) = sumR f l + sumR f m.
Proof. induction l; intros; simpl; [ring|]. rewrite IHl. ring. Qed.

Lemma log_X_loop_nth : forall c reg ls acc prev j,
  (j < length ls)%nat ->
  nth_error (log_X_loop c reg acc prev ls) j =
    Some (acc + sumR (shrink c reg) (firstn (S j) (prev :: ls))).
Proof.
  induction ls as [|l r IH]; intros acc prev j Hj; simpl in Hj; [lia|].
  destruct j as [|j].
  - simpl. f_equal. ring.
  - change (nth_error (log_X_loop c reg acc prev (l :: r)) (S j)) with
      (nth_error (log_X_loop c reg (acc + shrink c reg prev) l r) j).
    rewrite IH by lia. f_equal. change (firstn (S (S j)) (prev :: l :: r)) with (prev :: firstn (S j) (l :: r)).
    simpl sumR. ring.
Qed.

Lemma log_X_nth : forall c reg ls j, (j < length ls)%nat ->
  nth_error (recalculate_log_X c reg ls) j = Some (sumR (shrink c reg) (firstn j ls)).
Proof.
  intros c reg ls j Hj. destruct ls as [|l r]; simpl in Hj; [lia|]. destruct j as [|j]; [reflexivity|].
  simpl nth_error. rewrite log_X_loop_nth by lia. f_equal. ring.
Qed.

Lemma log_X_length : forall c reg ls, length (recalculate_log_X c reg ls) = length ls.
Proof.
  intros c reg [|l r]; [reflexivity|]. simpl. f_equal. generalize 0 l. induction r; intros; simpl; auto.
Qed.

Lemma shrink_neg : forall c reg l, 1 < c -> (0 < reg)%Z -> counters_ok l -> shrink c reg l < 0.
Proof.
  intros c reg l Hc Hr [[He1 He2] _]. unfold shrink. apply IZR_lt in Hr. apply IZR_le in He1, He2.
  assert (Hi : 0 < 1 / c < 1).
  { split; [apply Rdiv_lt_0_compat; lra|]. apply (Rmult_lt_reg_r c); [lra|].
    unfold Rdiv. rewrite Rmult_assoc, Rinv_l by lra. lra. }
  assert (Hn : 0 < IZR (exceeds l) + 1 / c * IZR reg).
  { assert (0 < 1 / c * IZR reg) by (apply Rmult_lt_0_compat; lra). lra. }
  assert (Hd : IZR (exceeds l) + 1 / c * IZR reg < IZR (visits l) + IZR reg).
  { assert (1 / c * IZR reg < 1 * IZR reg) by (apply Rmult_lt_compat_r; lra). lra. }
  rewrite <- ln_1. apply ln_increasing.
  - apply Rdiv_lt_0_compat; lra.
  - apply (Rmult_lt_reg_r (IZR (visits l) + IZR reg)); [lra|].
    unfold Rdiv. rewrite Rmult_assoc, Rinv_l by lra. lra.
Qed.

Lemma log_X_decreasing : forall c reg ls i j x y, 1 < c -> (0 < reg)%Z -> Forall counters_ok ls ->
  (i < j)%nat -> nth_error (recalculate_log_X c reg ls) i = Some x ->
  nth_error (recalculate_log_X c reg ls) j = Some y -> y < x.
Proof.
  intros c reg ls i j x y Hc Hr HF Hij Hx Hy.
  assert (Hj : (j < length ls)%nat).
  { rewrite <- (log_X_length c reg). apply nth_error_Some. congruence. }
  rewrite log_X_nth in Hx, Hy by lia. injection Hx as <-. injection Hy as <-.
  assert (G : forall k ls, Forall counters_ok ls -> (i < k)%nat -> (k <= length ls)%nat ->
    sumR (shrink c reg) (firstn k ls) < sumR (shrink c reg) (firstn i ls)).
  { clear - Hc Hr. intros k ls HF Hik Hk. replace k with (i + (k - i))%nat by lia.
    assert (Hd : (0 < k - i)%nat) by lia. assert (Hle : (i + (k - i) <= length ls)%nat) by lia. clear Hik Hk.
    revert Hd Hle. generalize (k - i)%nat as d. clear k. revert i. induction HF as [|l ls Hl HF IH]; intros i d Hd Hle.
    - simpl in Hle. lia.
    - destruct i as [|i].
      + simpl plus. destruct d; [lia|]. simpl. simpl in Hle.
        assert (sumR (shrink c reg) (firstn d ls) <= 0).
        { clear - HF Hc Hr. revert d. induction HF as [|a ls Ha HF IH]; intros [|d]; simpl; try lra.
          pose proof (shrink_neg c reg a Hc Hr Ha). specialize (IH d). lra. }
        pose proof (shrink_neg c reg l Hc Hr Hl). lra.
      + simpl. apply Rplus_lt_compat_l. apply IH; simpl in Hle; lia. }
  apply G; auto. lia.
Qed.

(** ** Wrapping *)
Lemma floor_bounds : forall x, floor x <= x < floor x + 1.
Proof.
  intros x. unfold floor. destruct (base_Int_part x) as [H1 H2]. lra.
Qed.

Lemma floor_unique : forall x k, IZR k <= x < IZR k + 1 -> floor x = IZR k.
Proof.
  intros x k [H1 H2]. pose proof (floor_bounds x) as [H3 H4]. unfold floor in *.
  assert (A : IZR k < IZR (Int_part x + 1)) by (rewrite plus_IZR; lra).
  assert (B : IZR (Int_part x) < IZR (k + 1)) by (rewrite plus_IZR; lra).
  apply lt_IZR in A, B. f_equal. lia.
Qed.

Lemma rmod_pos : forall y x, 0 < x -> exists r, rmod y x = Ok r /\ 0 <= r < x /\
  exists k, y = IZR k * x + r.
Proof.
  intros y x Hx. unfold rmod. destruct (Rlt_dec 0 x) as [_|]; [|lra].
  eexists. split; [reflexivity|]. pose proof (floor_bounds (y / x)) as [H1 H2]. split.
  - split; [apply Rmult_le_pos; lra|]. apply (Rlt_le_trans _ (1 * x)); [apply Rmult_lt_compat_r; lra|lra].
  - exists (Int_part (y / x)). unfold floor. field. lra.
Qed.

Lemma wrap_spec : forall x lo hi, lo < hi -> exists r, dnest_wrap x lo hi = Ok r /\ lo <= r < hi /\
  exists k, x = r + IZR k * (hi - lo).
Proof.
  intros x lo hi H. destruct (rmod_pos (x - lo) (hi - lo)) as (r & E & Hr & k & Hk); [lra|].
  unfold dnest_wrap. rewrite E. exists (r + lo). split; [reflexivity|]. split; [lra|]. exists k. lra.
Qed.

Lemma wrap_id : forall x lo hi, lo <= x < hi -> dnest_wrap x lo hi = Ok x.
Proof.
  intros x lo hi H. unfold dnest_wrap, rmod. destruct (Rlt_dec 0 (hi - lo)) as [_|]; [|lra].
  cbn [bind]. f_equal. rewrite (floor_unique _ 0).
  - field. lra.
  - split; [apply Rle_mult_inv_pos; lra|]. apply (Rmult_lt_reg_r (hi - lo)); [lra|].
    unfold Rdiv. rewrite Rmult_assoc, Rinv_l by lra. lra.
Qed.

Lemma wrap_idem : forall x lo hi r, lo < hi -> dnest_wrap x lo hi = Ok r -> dnest_wrap r lo hi = Ok r.
Proof.
  intros x lo hi r H E. destruct (wrap_spec x lo hi H) as (r' & E' & Hr & _).
  rewrite E in E'. injection E' as <-. apply wrap_id. exact Hr.
Qed.

Lemma wrap_empty : forall x lo, dnest_wrap x lo lo = Ok lo.
Proof.
  intros x lo. unfold dnest_wrap, rmod. destruct (Rlt_dec 0 (lo - lo)); [lra|].
  destruct (Req_EM_T (lo - lo) 0); [|lra]. cbn [bind]. f_equal. lra.
Qed.

Lemma wrap_reversed : forall x lo hi, hi < lo -> dnest_wrap x lo hi = Exit.
Proof.
  intros x lo hi H. unfold dnest_wrap, rmod. destruct (Rlt_dec 0 (hi - lo)); [lra|].
  destruct (Req_EM_T (hi - lo) 0); [lra|]. reflexivity.
Qed.

Lemma wrap_limit_spec : forall x lo hi, lo <= hi ->
  lo <= wrap_limit x lo hi <= hi /\ (lo <= x <= hi -> wrap_limit x lo hi = x).
Proof.
  intros x lo hi H. unfold wrap_limit, Rmax, Rmin.
  destruct (Rle_dec x hi); destruct (Rle_dec _ lo); split; lra || (intros; lra).
Qed.
