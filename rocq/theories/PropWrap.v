(** C100: a value wrapped into the range of a parameter, and a value drawn from it,
    in binary64 arithmetic. *)
From Coq Require Import Reals ZArith List Bool Lia Lra Psatz.
From Flocq Require Import Core BinarySingleNaN.
From Verif Require Import CPrelude DampModel StepModel WrapModel WrapFloat.
Open Scope R_scope.

(** the number a finite double stands for *)
Notation value := (B2R (prec := 53) (emax := 1024)).
Notation "'two^' e" := (bpow radix2 e) (at level 10, e at level 0).

(** Finite numbers of ordinary size, and a range that is not minute: between
    2^-500 and 2^500, so that nothing overflows. *)
Record ordinary (x lo hi : b64) : Prop := {
  o_x : is_finite x = true /\ Rabs (value x) <= two^ 500;
  o_lo : is_finite lo = true /\ Rabs (value lo) <= two^ 500;
  o_hi : is_finite hi = true /\ Rabs (value hi) <= two^ 500;
  o_wide : two^ (-500) <= value hi - value lo
}.

Lemma fits (z : R) (e : Z) : (e < 1024)%Z -> (-1074 <= e - 52)%Z -> Rabs z <= two^ e -> Rabs (rnd z) < big.
Proof.
  intros H H' A. apply Rle_lt_trans with (two^ e); [|apply bpow_lt; exact H].
  apply abs_round_le_generic; [apply FLT_exp_valid; apply prec64|apply valid_rnd_N| |exact A].
  apply generic_format_bpow. unfold FLT_exp. lia.
Qed.
Lemma two_500 : two^ 501 = 2 * two^ 500 /\ two^ 502 = 4 * two^ 500.
Proof.
  change 501%Z with (1 + 500)%Z. change 502%Z with (2 + 500)%Z. rewrite !bpow_plus.
  change (bpow radix2 1) with 2. change (bpow radix2 2) with 4. auto.
Qed.
Lemma quiet x lo hi : ordinary x lo hi ->
  value lo < value hi /\ is_finite (fsub hi lo) = true /\ is_finite (fsub x lo) = true
  /\ is_finite (fdiv (fsub x lo) (fsub hi lo)) = true /\ is_finite (fadd (fsub hi lo) lo) = true.
Proof.
  intros [[Fx Ax] [Fl Al] [Fh Ah] Wd]. destruct two_500 as [T1 T2]. pose proof (bpow_gt_0 radix2 (-500)) as P.
  assert (L : value lo < value hi) by lra.
  assert (A1 : Rabs (value hi - value lo) <= two^ 501) by (pose proof (abs_sub (value hi) (value lo)); lra).
  assert (A2 : Rabs (value x - value lo) <= two^ 501) by (pose proof (abs_sub (value x) (value lo)); lra).
  destruct (sub_ok hi lo Fh Fl (fits _ 501 ltac:(lia) ltac:(lia) A1)) as (Ew & Fw).
  destruct (sub_ok x lo Fx Fl (fits _ 501 ltac:(lia) ltac:(lia) A2)) as (Ey & Fy).
  set (w := fsub hi lo) in *. set (y := fsub x lo) in *.
  assert (W : two^ (-500) <= value w).
  { rewrite Ew. apply round_ge_generic; [apply FLT_exp_valid; apply prec64|apply valid_rnd_N| |exact Wd].
    apply generic_format_bpow. unfold FLT_exp. lia. }
  assert (G501 : generic_format radix2 fmt (two^ 501)) by (apply generic_format_bpow; unfold FLT_exp; lia).
  assert (W' : Rabs (value w) <= two^ 501) by (rewrite Ew; apply abs_round_le_generic; [apply FLT_exp_valid; apply prec64|apply valid_rnd_N|exact G501|exact A1]).
  assert (Y' : Rabs (value y) <= two^ 501) by (rewrite Ey; apply abs_round_le_generic; [apply FLT_exp_valid; apply prec64|apply valid_rnd_N|exact G501|exact A2]).
  assert (Q : Rabs (value y / value w) <= two^ 1001).
  { unfold Rdiv. rewrite Rabs_mult, Rabs_inv, (Rabs_pos_eq (value w)) by lra. change 1001%Z with (501 + 500)%Z. rewrite bpow_plus.
    apply Rmult_le_compat; [apply Rabs_pos|left; apply Rinv_0_lt_compat; lra|exact Y'|].
    change 500%Z with (- (-500))%Z. rewrite bpow_opp. apply Rinv_le; lra. }
  assert (Sm : Rabs (value w + value lo) <= two^ 502).
  { pose proof (Rabs_triang (value w) (value lo)). pose proof (bpow_gt_0 radix2 500). lra. }
  split; [exact L|]. split; [exact Fw|]. split; [exact Fy|]. split.
  - pose proof (Bdiv_correct 53 1024 prec64 emax64 mode_NE y w ltac:(lra)) as C.
    change (SpecFloat.fexp 53 1024) with fmt in C. change (round_mode mode_NE) with ZnearestE in C.
    rewrite Rlt_bool_true in C by (apply (fits _ 1001); [lia|lia|exact Q]). destruct C as (_ & C & _). unfold fdiv. rewrite C. exact Fy.
  - apply add_ok; auto. apply (fits _ 502); [lia|lia|exact Sm].
Qed.

Lemma four_u : 4 * u53 = two^ (-51) /\ 32 * u53 = two^ (-48) /\ 2 * eta = two^ (-1074).
Proof.
  unfold u53, eta. change 4 with (two^ 2). change 32 with (two^ 5). rewrite <- !bpow_plus. repeat split. lra.
Qed.

(** The wrapped value is a finite number, not below the lower end, and above the
    upper end by no more than the rounding of the two ends. *)
Theorem C100_range : forall x lo hi, ordinary x lo hi ->
  exists r, wrap64 x lo hi = Ok r /\ is_finite r = true
    /\ value lo <= value r <= value hi + two^ (-51) * (Rabs (value lo) + Rabs (value hi)).
Proof.
  intros x lo hi O. destruct (quiet _ _ _ O) as (L & Fw & Fy & Fq & Ft). destruct O as [[Fx _] [Fl _] [Fh _] _].
  exists (wrapped x lo hi). split; [apply wrap_is; auto|].
  destruct (wrapped_ok x lo hi) as (R1 & _ & R2); auto. split; [exact R1|]. pose proof (top_near lo hi Fl Fh L Fw Ft) as T.
  destruct four_u as (<- & _). lra.
Qed.
Print Assumptions C100_range.

(** It differs from the value before by a whole number of lengths of the range, up
    to rounding. *)
Theorem C100_whole : forall x lo hi, ordinary x lo hi ->
  exists r k, wrap64 x lo hi = Ok r
    /\ Rabs (value r - (value x - IZR k * (value hi - value lo)))
       <= two^ (-48) * (Rabs (value x) + Rabs (value lo) + Rabs (value hi)) + two^ (-1074).
Proof.
  intros x lo hi O. destruct (quiet _ _ _ O) as (L & Fw & Fy & Fq & Ft). destruct O as [[Fx _] [Fl _] [Fh _] _].
  exists (wrapped x lo hi). eexists. split; [apply wrap_is; auto|].
  destruct four_u as (_ & <- & <-). apply congruent; auto.
Qed.
Print Assumptions C100_whole.

(** A value in the range stays where it is, up to rounding, unless it is within
    2^-51 of the length from the upper end. *)
Theorem C100_stays : forall x lo hi, ordinary x lo hi ->
  value lo <= value x -> value x <= value hi - two^ (-51) * (value hi - value lo) ->
  exists r, wrap64 x lo hi = Ok r
    /\ Rabs (value r - value x) <= two^ (-48) * (Rabs (value x) + Rabs (value lo) + Rabs (value hi)) + two^ (-1074).
Proof.
  intros x lo hi O H1 H2. destruct (quiet _ _ _ O) as (L & Fw & Fy & Fq & Ft). destruct O as [[Fx _] [Fl _] [Fh _] _].
  exists (wrapped x lo hi). split; [apply wrap_is; auto|].
  destruct four_u as (E4 & <- & <-). rewrite <- E4 in H2.
  pose proof (congruent x lo hi Fx Fl Fh L Fw Fy Fq Ft) as C.
  rewrite (stays x lo hi) in C; auto.
  - replace (value x - 0 * (value hi - value lo)) with (value x) in C by ring. exact C.
  - destruct (sub_fin x lo Fx Fl Fy) as (_ & Ey). destruct (sub_fin hi lo Fh Fl Fw) as (_ & Ew). rewrite Ey, Ew.
    pose proof (err_sub x lo) as E1. pose proof (err_sub hi lo) as E2.
    rewrite (Rabs_pos_eq (value x - value lo)) in E1 by lra. rewrite (Rabs_pos_eq (value hi - value lo)) in E2 by lra.
    apply Rabs_le_inv in E1. apply Rabs_le_inv in E2. pose proof u_pos as [U0 U]. nra.
Qed.
Print Assumptions C100_stays.

(** Where the length of the range is itself a double the upper end is kept. *)
Theorem C100_exact : forall x lo hi, ordinary x lo hi -> (exists d : b64, value d = value hi - value lo) ->
  exists r, wrap64 x lo hi = Ok r /\ value lo <= value r <= value hi.
Proof.
  intros x lo hi O (d & E). destruct (quiet _ _ _ O) as (L & Fw & Fy & Fq & Ft). destruct O as [[Fx _] [Fl _] [Fh _] _].
  exists (wrapped x lo hi). split; [apply wrap_is; auto|].
  destruct (wrapped_ok x lo hi) as (_ & _ & R2); auto. rewrite (exact_top lo hi Fl Fw Ft) in R2; [exact R2|].
  destruct (sub_fin hi lo Fh Fl Fw) as (_ & ->). rewrite <- E. apply rnd_id.
Qed.
Print Assumptions C100_exact.

(** A range of a single number gives that number; a range whose ends are turned
    around ends the program. *)
Theorem C100_ends : forall x lo hi, is_finite x = true -> is_finite lo = true -> is_finite hi = true ->
  (value hi = value lo -> exists r, wrap64 x lo hi = Ok r /\ value r = value lo)
  /\ (value hi < value lo -> is_finite (fsub hi lo) = true -> wrap64 x lo hi = Exit).
Proof.
  intros x lo hi Fx Fl Fh. split.
  - intros E. assert (Z0 : value hi - value lo = 0) by lra.
    assert (L : Rabs (rnd (value hi - value lo)) < big) by (rewrite Z0, rnd_0, Rabs_R0; apply bpow_gt_0).
    destruct (sub_ok hi lo Fh Fl L) as (Ew & Fw). rewrite Z0, rnd_0 in Ew.
    unfold wrap64, mod64. unfold zero at 1. rewrite Bltb_correct, Ew by auto. cbn [B2R]. rewrite Rlt_bool_false by lra.
    unfold zero at 1. rewrite Beqb_correct, Ew by auto. cbn [B2R]. rewrite Req_bool_true by reflexivity. cbn [bind].
    exists (fadd zero lo). split; [reflexivity|].
    assert (L' : Rabs (rnd (value zero + value lo)) < big) by (cbn [zero B2R]; rewrite Rplus_0_l, rnd_id; apply below; exact Fl).
    destruct (add_ok zero lo eq_refl Fl L') as (R & _). rewrite R. cbn [zero B2R]. rewrite Rplus_0_l. apply rnd_id.
  - intros H Fw. destruct (sub_fin hi lo Fh Fl Fw) as (_ & Ew).
    pose proof (err_sub hi lo) as E. rewrite <- Ew in E. rewrite (Rabs_left (value hi - value lo)) in E by lra.
    apply Rabs_le_inv in E. pose proof u_pos as [U0 U]. assert (N : value (fsub hi lo) < 0) by nra.
    unfold wrap64, mod64. unfold zero at 1. rewrite Bltb_correct by auto. cbn [B2R]. rewrite Rlt_bool_false by lra.
    unfold zero at 1. rewrite Beqb_correct by auto. cbn [B2R]. rewrite Req_bool_false by lra. reflexivity.
Qed.
Print Assumptions C100_ends.

(** A number drawn from the range lies in it.  The generator returns numbers from 0
    to 1 - 2^-32. *)
Theorem C100_draw : forall u lo hi,
  is_finite u = true -> is_finite lo = true -> is_finite hi = true -> is_finite (fsub hi lo) = true ->
  value lo <= value hi -> 0 <= value u <= 1 - two^ (-32) ->
  is_finite (draw64 u lo hi) = true /\ value lo <= value (draw64 u lo hi) <= value hi.
Proof. exact draw_ok. Qed.
Print Assumptions C100_draw.

(** The range -9/2^55 to 1 - 2^-53 and the double next below its lower end. *)
Definition low1 : b64 := @B754_finite 53 1024 true 5066549580791808 (-104) eq_refl.
Definition high1 : b64 := @B754_finite 53 1024 false 9007199254740991 (-53) eq_refl.
Definition under1 : b64 := @B754_finite 53 1024 true 5066549580791809 (-104) eq_refl.
(** The range -1 to 3/2^54 and the double 5/2^55 in it. *)
Definition low2 : b64 := @B754_finite 53 1024 true 4503599627370496 (-52) eq_refl.
Definition high2 : b64 := @B754_finite 53 1024 false 6755399441055744 (-105) eq_refl.
Definition in2 : b64 := @B754_finite 53 1024 false 5629499534213120 (-105) eq_refl.
(** one half and the range 0 to 10, for the examples *)
Definition ten : b64 := @B754_finite 53 1024 false 5629499534213120 (-49) eq_refl.
Definition neg25 : b64 := @B754_finite 53 1024 true 7036874417766400 (-48) eq_refl.
Definition five : b64 := @B754_finite 53 1024 false 5629499534213120 (-50) eq_refl.

Ltac val := unfold low1, high1, under1, low2, high2, in2, ten, neg25, five, zero, B2R, F2R, cond_Zopp, Fnum, Fexp, bpow;
  repeat match goal with |- context [IZR (Z.pow_pos ?r ?p)] =>
    let z := eval vm_compute in (Z.pow_pos r p) in change (Z.pow_pos r p) with z end; cbn [Z.opp].
Lemma sizes : two^ (-500) <= / 1024 /\ 1024 <= two^ 500.
Proof.
  split; [replace (/ 1024) with (two^ (-10)) by (cbn; lra)|replace 1024 with (two^ 10) by (cbn; lra)]; apply bpow_le; lia.
Qed.
Lemma ordinary1 : ordinary under1 low1 high1.
Proof. destruct sizes. split; try (split; [reflexivity|apply Rle_trans with 1024; [apply Rabs_le; split; val; lra|assumption]]). eapply Rle_trans; [eassumption|]. val; lra. Qed.
Lemma ordinary2 : ordinary in2 low2 high2.
Proof. destruct sizes. split; try (split; [reflexivity|apply Rle_trans with 1024; [apply Rabs_le; split; val; lra|assumption]]). eapply Rle_trans; [eassumption|]. val; lra. Qed.

(** That a wrapped value never lies above the upper end is false. *)
Theorem C100_above_refuted : exists x lo hi r, ordinary x lo hi /\ wrap64 x lo hi = Ok r /\ value hi < value r.
Proof.
  assert (T : match wrap64 under1 low1 high1 with Ok r => Bltb high1 r && is_finite r | _ => false end = true) by (vm_compute; reflexivity).
  exists under1, low1, high1. destruct (wrap64 under1 low1 high1) as [r| | |]; try discriminate T.
  exists r. split; [exact ordinary1|]. split; [reflexivity|].
  apply andb_prop in T as [T F]. rewrite Bltb_correct in T by (auto; reflexivity).
  destruct (Rlt_bool_spec (value high1) (value r)); [assumption|discriminate].
Qed.
Print Assumptions C100_above_refuted.

(** That a value inside the range stays close to where it is is false next to the
    upper end: it is put at the lower end. *)
Theorem C100_jump_refuted : exists x lo hi r, ordinary x lo hi /\ value lo < value x < value hi
  /\ wrap64 x lo hi = Ok r /\ value r = value lo.
Proof.
  assert (T : match wrap64 in2 low2 high2 with Ok r => Beqb r low2 && is_finite r | _ => false end = true) by (vm_compute; reflexivity).
  exists in2, low2, high2. destruct (wrap64 in2 low2 high2) as [r| | |]; try discriminate T.
  exists r. split; [exact ordinary2|]. split; [split; val; lra|]. split; [reflexivity|].
  apply andb_prop in T as [T F]. rewrite Beqb_correct in T by (auto; reflexivity).
  destruct (Req_bool_spec (value r) (value low2)); [assumption|discriminate].
Qed.
Print Assumptions C100_jump_refuted.

(** The hypotheses are met: -25 wrapped into 0 to 10 is 5, which then stays. *)
Example C100_example :
  ordinary neg25 zero ten /\ ordinary five zero ten
  /\ (exists d : b64, value d = value ten - value zero)
  /\ value zero <= value five <= value ten - two^ (-51) * (value ten - value zero)
  /\ (match wrap64 neg25 zero ten with Ok r => Beqb r five | _ => false end = true)
  /\ (match wrap64 five zero ten with Ok r => Beqb r five | _ => false end = true)
  /\ wrap64 five ten zero = Exit.
Proof.
  destruct sizes. split; [|split].
  1, 2: split; try (split; [reflexivity|apply Rle_trans with 1024; [apply Rabs_le; split; val; lra|assumption]]); eapply Rle_trans; [eassumption|]; val; lra.
  split; [exists ten; val; lra|]. split; [split; val; lra|]. repeat split; vm_compute; reflexivity.
Qed.
