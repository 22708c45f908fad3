(** Rounding facts for the wrap of a value into the range of a parameter. *)
From Coq Require Import Reals ZArith List Bool Lia Lra Psatz.
From Flocq Require Import Core Relative Plus_error BinarySingleNaN.
From Verif Require Import CPrelude DampModel StepModel WrapModel.
Open Scope R_scope.

Notation fmt := (FLT_exp (-1074) 53).
Notation rnd := (round radix2 fmt ZnearestE).
Notation big := (bpow radix2 1024).

Lemma rnd_le x y : x <= y -> rnd x <= rnd y.
Proof. apply (@round_le radix2 fmt (@FLT_exp_valid (-1074) 53 prec64) ZnearestE (valid_rnd_N _)). Qed.
Lemma rnd_0 : rnd 0 = 0.
Proof. apply (@round_0 radix2 fmt ZnearestE (valid_rnd_N _)). Qed.
Lemma rnd_id (x : b64) : rnd (B2R x) = B2R x.
Proof. apply round_generic; [apply valid_rnd_N|]. apply (generic_format_B2R 53 1024). Qed.
Lemma rnd_1 : rnd 1 = 1.
Proof.
  apply round_generic; [apply valid_rnd_N|]. apply (generic_format_FLT radix2 (-1074) 53).
  exists (Float radix2 1 0); [unfold F2R; cbn; lra|cbn; lia|cbn; lia].
Qed.
Lemma below (x : b64) : is_finite x = true -> Rabs (B2R x) < big.
Proof. intros _. apply abs_B2R_lt_emax. Qed.

Lemma sub_ok x y : is_finite x = true -> is_finite y = true -> Rabs (rnd (B2R x - B2R y)) < big ->
  B2R (fsub x y) = rnd (B2R x - B2R y) /\ is_finite (fsub x y) = true.
Proof.
  intros Hx Hy H. pose proof (Bminus_correct 53 1024 prec64 emax64 mode_NE x y Hx Hy) as C.
  change (SpecFloat.fexp 53 1024) with fmt in C. change (round_mode mode_NE) with ZnearestE in C.
  rewrite Rlt_bool_true in C by exact H. destruct C as (C1 & C2 & _). auto.
Qed.
Lemma add_ok x y : is_finite x = true -> is_finite y = true -> Rabs (rnd (B2R x + B2R y)) < big ->
  B2R (fadd x y) = rnd (B2R x + B2R y) /\ is_finite (fadd x y) = true.
Proof.
  intros Hx Hy H. pose proof (Bplus_correct 53 1024 prec64 emax64 mode_NE x y Hx Hy) as C.
  change (SpecFloat.fexp 53 1024) with fmt in C. change (round_mode mode_NE) with ZnearestE in C.
  rewrite Rlt_bool_true in C by exact H. destruct C as (C1 & C2 & _). auto.
Qed.
Lemma mul_ok x y : is_finite x = true -> is_finite y = true -> Rabs (rnd (B2R x * B2R y)) < big ->
  B2R (fmul x y) = rnd (B2R x * B2R y) /\ is_finite (fmul x y) = true.
Proof.
  intros Hx Hy H. pose proof (Bmult_correct 53 1024 prec64 emax64 mode_NE x y) as C.
  change (SpecFloat.fexp 53 1024) with fmt in C. change (round_mode mode_NE) with ZnearestE in C.
  rewrite Rlt_bool_true in C by exact H. destruct C as (C1 & C2 & _). rewrite Hx, Hy in C2. auto.
Qed.
(** a finite sum or difference is the rounded one *)
Lemma add_fin x y : is_finite x = true -> is_finite y = true -> is_finite (fadd x y) = true ->
  Rabs (rnd (B2R x + B2R y)) < big /\ B2R (fadd x y) = rnd (B2R x + B2R y).
Proof.
  intros Hx Hy H. assert (L : Rabs (rnd (B2R x + B2R y)) < big); [|split; [exact L|apply add_ok; auto]].
  pose proof (Bplus_correct 53 1024 prec64 emax64 mode_NE x y Hx Hy) as C.
  change (SpecFloat.fexp 53 1024) with fmt in C. change (round_mode mode_NE) with ZnearestE in C.
  destruct (Rlt_bool_spec (Rabs (rnd (B2R x + B2R y))) big) as [L|L]; [exact L|]. exfalso. destruct C as [C _].
  unfold fadd in H. apply (f_equal is_finite_SF) in C. rewrite is_finite_SF_B2SF in C.
  assert (O : is_finite_SF (binary_overflow 53 1024 mode_NE (Bsign x)) = false) by (destruct (Bsign x); reflexivity). congruence.
Qed.
Lemma sub_fin x y : is_finite x = true -> is_finite y = true -> is_finite (fsub x y) = true ->
  Rabs (rnd (B2R x - B2R y)) < big /\ B2R (fsub x y) = rnd (B2R x - B2R y).
Proof.
  intros Hx Hy H. assert (L : Rabs (rnd (B2R x - B2R y)) < big); [|split; [exact L|apply sub_ok; auto]].
  pose proof (Bminus_correct 53 1024 prec64 emax64 mode_NE x y Hx Hy) as C.
  change (SpecFloat.fexp 53 1024) with fmt in C. change (round_mode mode_NE) with ZnearestE in C.
  destruct (Rlt_bool_spec (Rabs (rnd (B2R x - B2R y))) big) as [L|L]; [exact L|]. exfalso. destruct C as [C _].
  unfold fsub in H. apply (f_equal is_finite_SF) in C. rewrite is_finite_SF_B2SF in C.
  assert (O : is_finite_SF (binary_overflow 53 1024 mode_NE (Bsign x)) = false) by (destruct (Bsign x); reflexivity). congruence.
Qed.

(** floor64 is the floor *)
Lemma floor_ok (x : b64) : is_finite x = true -> B2R (floor64 x) = IZR (Zfloor (B2R x)) /\ is_finite (floor64 x) = true.
Proof.
  intros F. destruct x as [s|s| |s m e Hb]; try discriminate.
  - cbn. rewrite (Zfloor_IZR 0). auto.
  - cbn [floor64]. destruct (0 <=? e)%Z eqn:E; [apply Z.leb_le in E|apply Z.leb_gt in E].
    + split; [|reflexivity]. cbn [B2R]. unfold F2R. cbn [Fnum Fexp].
      rewrite <- (IZR_Zpower radix2 e E), <- mult_IZR, Zfloor_IZR. reflexivity.
    + set (z := (cond_Zopp s (Zpos m) / 2 ^ (- e))%Z).
      assert (Ez : Zfloor (B2R (B754_finite s m e Hb)) = z).
      { cbn [B2R]. unfold F2R. cbn [Fnum Fexp]. replace e with (- (- e))%Z at 1 by lia. rewrite bpow_opp, <- (IZR_Zpower radix2 (- e)) by lia.
        apply Zfloor_div. change (radix2 ^ (- e))%Z with (2 ^ (- e))%Z. apply Z.pow_nonzero; lia. }
      rewrite Ez.
      assert (Hz : (Z.abs z <= 2 ^ 53)%Z).
      { assert (M : (Zpos m < 2 ^ 53)%Z).
        { pose proof (proj1 (andb_prop _ _ Hb)) as Cm. unfold SpecFloat.canonical_mantissa in Cm. apply Zeq_bool_eq in Cm.
          unfold SpecFloat.fexp, SpecFloat.emin in Cm. pose proof (Digits.Zdigits_correct radix2 (Zpos m)) as D.
          rewrite Digits.Zpos_digits2_pos in Cm. change (Z.abs (Zpos m)) with (Zpos m) in D.
          destruct D as [_ D]. eapply Z.lt_le_trans; [exact D|].
          change (radix2 ^ Digits.Zdigits radix2 (Z.pos m))%Z with (2 ^ Digits.Zdigits radix2 (Z.pos m))%Z.
          apply Z.pow_le_mono_r; lia. }
        assert (P : (2 ^ 1 <= 2 ^ (- e))%Z) by (apply Z.pow_le_mono_r; lia).
        set (d := (2 ^ (- e))%Z) in *. unfold z. clearbody d. change (2 ^ 1)%Z with 2%Z in P.
        assert (Q : (- 2 ^ 53 <= cond_Zopp s (Zpos m) / d <= 2 ^ 53)%Z).
        { split; [apply Z.div_le_lower_bound; [lia|]|apply Z.div_le_upper_bound; [lia|]]; destruct s; cbn [cond_Zopp]; nia. }
        lia. }
      clearbody z. pose proof (binary_normalize_correct 53 1024 prec64 emax64 mode_NE z 0 s) as C. cbv zeta in C.
      assert (Fz : F2R (Float radix2 z 0) = IZR z) by (unfold F2R; cbn [Fnum Fexp bpow]; lra).
      rewrite Fz in C.
      assert (G : generic_format radix2 fmt (IZR z)).
      { destruct (Z.eq_dec (Z.abs z) (2 ^ 53)) as [Eq|N].
        - apply (generic_format_FLT radix2 (-1074) 53). exists (Float radix2 (Z.sgn z) 53); [|cbn; destruct z; cbn; lia|cbn; lia].
          unfold F2R. cbn [Fnum Fexp]. rewrite <- (IZR_Zpower radix2 53) by lia. rewrite <- mult_IZR. f_equal.
          change (radix2 ^ 53)%Z with (2 ^ 53)%Z. rewrite <- Eq. symmetry. rewrite Z.mul_comm. apply Z.abs_sgn.
        - apply (generic_format_FLT radix2 (-1074) 53). exists (Float radix2 z 0); [symmetry; exact Fz|cbn [Fnum]; change (radix2 ^ 53)%Z with (2 ^ 53)%Z; lia|cbn; lia]. }
      change (SpecFloat.fexp 53 1024) with fmt in C. change (round_mode mode_NE) with ZnearestE in C.
      rewrite round_generic in C; [|apply valid_rnd_N|exact G].
      rewrite Rlt_bool_true in C; [destruct C as (C1 & C2 & _); auto|].
      rewrite <- abs_IZR. apply Rle_lt_trans with (IZR (2 ^ 53)); [apply IZR_le; exact Hz|].
      change (2 ^ 53)%Z with (radix2 ^ 53)%Z. rewrite IZR_Zpower by lia. apply bpow_lt. lia.
Qed.

(** * Sizes of the rounding errors *)
Definition u53 := bpow radix2 (-53).
Definition eta := / 2 * bpow radix2 (-1074).
Lemma u_pos : 0 < u53 <= / 1024.
Proof. unfold u53. split; [apply bpow_gt_0|]. replace (/ 1024) with (bpow radix2 (-10)) by (cbn; lra). apply bpow_le. lia. Qed.
Lemma eta_pos : 0 < eta.
Proof. unfold eta. pose proof (bpow_gt_0 radix2 (-1074)). lra. Qed.
Lemma eta_small : eta <= u53.
Proof. unfold eta, u53. assert (bpow radix2 (-1074) <= bpow radix2 (-53)) by (apply bpow_le; lia). pose proof (bpow_gt_0 radix2 (-1074)). lra. Qed.

Lemma ro_le eps : Rabs eps <= u_ro radix2 53 / (1 + u_ro radix2 53) -> Rabs eps <= u53.
Proof.
  intros H. eapply Rle_trans; [exact H|]. 
  assert (E : u_ro radix2 53 = u53).
  { unfold u_ro, u53. change (- (53) + 1)%Z with (-53 + 1)%Z. change (-53 + 1)%Z with (-52)%Z. change (-53)%Z with (-52 + -1)%Z. rewrite bpow_plus. change (bpow radix2 (-1)) with (/ 2). lra. }
  rewrite E. pose proof u_pos. apply Rle_trans with (u53 / 1); [|lra]. unfold Rdiv. apply Rmult_le_compat_l; [lra|].
  apply Rinv_le; lra.
Qed.
(** sums and differences of doubles have no underflow error *)
Lemma err_add (x y : b64) : Rabs (rnd (B2R x + B2R y) - (B2R x + B2R y)) <= u53 * Rabs (B2R x + B2R y).
Proof.
  destruct (@FLT_plus_error_N_ex radix2 (-1074) 53 prec64 (fun x => negb (Z.even x)) (B2R x) (B2R y)) as (eps & H & E).
  1, 2: apply (generic_format_B2R 53 1024).
  rewrite E. replace ((B2R x + B2R y) * (1 + eps) - (B2R x + B2R y)) with (eps * (B2R x + B2R y)) by ring.
  rewrite Rabs_mult. apply Rmult_le_compat_r; [apply Rabs_pos|apply ro_le, H].
Qed.
Lemma err_sub (x y : b64) : Rabs (rnd (B2R x - B2R y) - (B2R x - B2R y)) <= u53 * Rabs (B2R x - B2R y).
Proof. pose proof (err_add x (Bopp y)) as H. rewrite B2R_Bopp in H. exact H. Qed.
Lemma err_any x : Rabs (rnd x - x) <= u53 * Rabs x + eta.
Proof.
  destruct (@relative_error_N_FLT'_ex radix2 (-1074) 53 prec64 (fun x => negb (Z.even x)) x) as (eps & et & H & H' & _ & E).
  rewrite E. replace (x * (1 + eps) + et - x) with (eps * x + et) by ring.
  eapply Rle_trans; [apply Rabs_triang|]. apply Rplus_le_compat; [|exact H'].
  rewrite Rabs_mult. apply Rmult_le_compat_r; [apply Rabs_pos|apply ro_le, H].
Qed.

Lemma abs_between a b r : a <= r <= b -> Rabs a < big -> Rabs b < big -> Rabs r < big.
Proof. intros H Ha Hb. apply Rabs_lt. apply Rabs_lt_inv in Ha. apply Rabs_lt_inv in Hb. lra. Qed.

(** two doubles 0 <= y < w are at least w/2^53 apart *)
Lemma gap y w : generic_format radix2 fmt y -> generic_format radix2 fmt w -> 0 <= y -> y < w -> u53 * w <= w - y.
Proof.
  intros Gy Gw Y0 H. pose proof u_pos as [U0 U].
  destruct (Req_dec y 0) as [->|Ny]; [nra|].
  assert (S : succ radix2 fmt y <= w).
  { apply succ_le_lt; [apply FLT_exp_valid; apply prec64|exact Gy|exact Gw|exact H]. }
  rewrite succ_eq_pos in S by exact Y0. rewrite ulp_neq_0 in S by exact Ny.
  set (c := cexp radix2 fmt y) in *. set (M := Ztrunc (scaled_mantissa radix2 fmt y)).
  assert (EM : y = IZR M * bpow radix2 c) by exact Gy.
  pose proof (bpow_gt_0 radix2 c) as B0.
  assert (ML : (M < 2 ^ 53)%Z).
  { apply lt_IZR. apply Rmult_lt_reg_r with (bpow radix2 c); [exact B0|]. rewrite <- EM.
    change (2 ^ 53)%Z with (radix2 ^ 53)%Z. rewrite IZR_Zpower, <- bpow_plus by lia.
    pose proof (bpow_mag_gt radix2 y) as G. rewrite Rabs_pos_eq in G by exact Y0.
    eapply Rlt_le_trans; [exact G|]. apply bpow_le. unfold c, cexp, FLT_exp. lia. }
  assert (ML' : IZR M <= IZR (2 ^ 53) - 1) by (rewrite <- minus_IZR; apply IZR_le; lia).
  assert (UU : u53 * IZR (2 ^ 53) = 1).
  { unfold u53. change (2 ^ 53)%Z with (radix2 ^ 53)%Z. rewrite IZR_Zpower, <- bpow_plus by lia. reflexivity. }
  assert (A : u53 * y <= bpow radix2 c * (1 - u53)).
  { rewrite EM. replace (u53 * (IZR M * bpow radix2 c)) with (bpow radix2 c * (u53 * IZR M)) by ring.
    apply Rmult_le_compat_l; [lra|]. rewrite <- UU. rewrite <- (Rmult_1_r u53) at 3. rewrite <- Rmult_minus_distr_l. apply Rmult_le_compat_l; lra. }
  nra.
Qed.

Lemma abs_sub a b : Rabs (a - b) <= Rabs a + Rabs b.
Proof. split_Rabs; lra. Qed.

(** a small difference of doubles is a double *)
Lemma generic_format_FLT_small_sum (x y : b64) : Rabs (B2R x - B2R y) < bpow radix2 (-1022) -> generic_format radix2 fmt (B2R x - B2R y).
Proof.
  intros H.
  destruct (@FLT_format_generic radix2 (-1074) 53 prec64 _ (generic_format_B2R 53 1024 x)) as [[m e] E1 E2 E3].
  destruct (@FLT_format_generic radix2 (-1074) 53 prec64 _ (generic_format_B2R 53 1024 y)) as [[m' e'] E1' E2' E3'].
  cbn [Fnum Fexp] in *.
  set (M := (m * 2 ^ (e + 1074) - m' * 2 ^ (e' + 1074))%Z).
  assert (EM : B2R x - B2R y = IZR M * bpow radix2 (-1074)).
  { rewrite E1, E1'. unfold M, F2R. cbn [Fnum Fexp]. rewrite minus_IZR, !mult_IZR.
    change (2 ^ (e + 1074))%Z with (radix2 ^ (e + 1074))%Z. change (2 ^ (e' + 1074))%Z with (radix2 ^ (e' + 1074))%Z. rewrite !IZR_Zpower by lia.
    rewrite Rmult_minus_distr_r, !Rmult_assoc, <- !bpow_plus. f_equal; [|f_equal]; f_equal; f_equal; lia. }
  rewrite EM in *. apply (generic_format_FLT radix2 (-1074) 53). exists (Float radix2 M (-1074)); [reflexivity| |cbn; lia].
  cbn [Fnum]. apply lt_IZR. rewrite abs_IZR. rewrite Rabs_mult, (Rabs_pos_eq (bpow radix2 (-1074))) in H by apply bpow_ge_0.
  apply Rmult_lt_reg_r with (bpow radix2 (-1074)); [apply bpow_gt_0|]. eapply Rlt_le_trans; [exact H|].
  rewrite IZR_Zpower, <- bpow_plus by lia. apply bpow_le. lia.
Qed.

(** * The wrap *)
Section Wrap.
Variables x lo hi : b64.
Hypothesis Fx : is_finite x = true.
Hypothesis Fl : is_finite lo = true.
Hypothesis Fh : is_finite hi = true.
Hypothesis Hlt : B2R lo < B2R hi.
Let w := fsub hi lo.
Let y := fsub x lo.
Let q := fdiv y w.
Hypothesis Fw : is_finite w = true.
Hypothesis Fy : is_finite y = true.
Hypothesis Fq : is_finite q = true.
Hypothesis Ft : is_finite (fadd w lo) = true.

Lemma w_eq : B2R w = rnd (B2R hi - B2R lo).
Proof. apply sub_fin; auto. Qed.
Lemma w_pos : 0 < B2R w.
Proof.
  rewrite w_eq. pose proof (err_sub hi lo) as E. pose proof u_pos as [U0 U]. rewrite (Rabs_pos_eq (B2R hi - B2R lo)) in E by lra.
  apply Rabs_le_inv in E. nra.
Qed.
Lemma w_gt : Bltb zero w = true.
Proof. unfold zero. rewrite Bltb_correct by auto. apply Rlt_bool_true. apply w_pos. Qed.

Definition part := fsub q (floor64 q).
Lemma part_ok : is_finite part = true /\ B2R part = rnd (B2R q - IZR (Zfloor (B2R q))) /\ 0 <= B2R part <= 1.
Proof.
  destruct (floor_ok q Fq) as (E & F). pose proof (Zfloor_lb (B2R q)). pose proof (Zfloor_ub (B2R q)).
  assert (B : 0 <= rnd (B2R q - B2R (floor64 q)) <= 1).
  { rewrite E. split; [rewrite <- rnd_0|rewrite <- rnd_1]; apply rnd_le; lra. }
  assert (L : Rabs (rnd (B2R q - B2R (floor64 q))) < big).
  { rewrite Rabs_pos_eq by lra. apply Rle_lt_trans with 1; [lra|]. change 1 with (bpow radix2 0). apply bpow_lt. lia. }
  destruct (sub_ok q (floor64 q) Fq F L) as (R1 & R2). fold part in R1, R2. rewrite <- E, <- R1 in *. auto.
Qed.
Lemma prod_ok : is_finite (fmul part w) = true /\ B2R (fmul part w) = rnd (B2R part * B2R w) /\ 0 <= B2R (fmul part w) <= B2R w.
Proof.
  destruct part_ok as (F & _ & B). pose proof w_pos.
  assert (B' : 0 <= rnd (B2R part * B2R w) <= B2R w).
  { split; [rewrite <- rnd_0; apply rnd_le; nra|rewrite <- (rnd_id w) at 2; apply rnd_le; nra]. }
  assert (L : Rabs (rnd (B2R part * B2R w)) < big).
  { apply (abs_between 0 (B2R w)); [exact B'|rewrite Rabs_R0; apply bpow_gt_0|apply below; exact Fw]. }
  destruct (mul_ok part w F Fw L) as (R1 & R2). rewrite R1. auto.
Qed.
Definition wrapped := fadd (fmul part w) lo.
Lemma wrap_is : wrap64 x lo hi = Ok wrapped.
Proof. unfold wrap64, mod64. fold w y. rewrite w_gt. reflexivity. Qed.
Lemma wrapped_ok : is_finite wrapped = true /\ B2R wrapped = rnd (B2R (fmul part w) + B2R lo) /\ B2R lo <= B2R wrapped <= B2R (fadd w lo).
Proof.
  destruct prod_ok as (F & _ & B). destruct (add_fin w lo Fw Fl Ft) as (L & E).
  assert (B' : B2R lo <= rnd (B2R (fmul part w) + B2R lo) <= rnd (B2R w + B2R lo)).
  { split; [rewrite <- (rnd_id lo) at 1|]; apply rnd_le; lra. }
  assert (L' : Rabs (rnd (B2R (fmul part w) + B2R lo)) < big).
  { eapply abs_between; [exact B'|apply below; exact Fl|exact L]. }
  destruct (add_ok _ lo F Fl L') as (R1 & R2). fold wrapped in R1, R2. rewrite R1, E. auto.
Qed.
Lemma top_near : B2R (fadd w lo) - B2R hi <= 4 * u53 * (Rabs (B2R lo) + Rabs (B2R hi)).
Proof.
  destruct (add_fin w lo Fw Fl Ft) as (_ & E). rewrite E. pose proof (err_add w lo) as E1. pose proof (err_sub hi lo) as E2.
  rewrite <- w_eq in E2. pose proof u_pos as [U0 U].
  set (l := B2R lo) in *. set (h := B2R hi) in *. set (W := B2R w) in *. set (t := rnd (W + l)) in *. clearbody l h W t.
  apply Rabs_le_inv in E1. apply Rabs_le_inv in E2.
  assert (A : Rabs (h - l) <= Rabs l + Rabs h) by (pose proof (abs_sub h l); lra).
  assert (A' : Rabs (W + l) <= 2 * (Rabs l + Rabs h)).
  { assert (u53 * Rabs (h - l) <= Rabs h + Rabs l) by (pose proof (Rabs_pos (h - l)); pose proof (Rabs_pos h); pose proof (Rabs_pos l); nra). split_Rabs; lra. }
  pose proof (Rabs_pos l). pose proof (Rabs_pos h).
  assert (u53 * Rabs (h - l) <= u53 * (Rabs l + Rabs h)) by (apply Rmult_le_compat_l; lra).
  assert (u53 * Rabs (W + l) <= u53 * (2 * (Rabs l + Rabs h))) by (apply Rmult_le_compat_l; lra).
  lra.
Qed.
Lemma exact_top : B2R w = B2R hi - B2R lo -> B2R (fadd w lo) = B2R hi.
Proof.
  intros H. destruct (add_fin w lo Fw Fl Ft) as (_ & E). rewrite E, H.
  replace (B2R hi - B2R lo + B2R lo) with (B2R hi) by ring. apply rnd_id.
Qed.
Lemma q_eq : B2R q = rnd (B2R y / B2R w).
Proof.
  pose proof w_pos. pose proof (Bdiv_correct 53 1024 prec64 emax64 mode_NE y w ltac:(lra)) as C.
  change (SpecFloat.fexp 53 1024) with fmt in C. change (round_mode mode_NE) with ZnearestE in C.
  destruct (Rlt_bool_spec (Rabs (rnd (B2R y / B2R w))) big) as [L|L]; [apply C|]. exfalso.
  apply (f_equal is_finite_SF) in C. rewrite is_finite_SF_B2SF in C. unfold q, fdiv in Fq.
  assert (O : is_finite_SF (binary_overflow 53 1024 mode_NE (xorb (Bsign y) (Bsign w))) = false) by (destruct (xorb (Bsign y) (Bsign w)); reflexivity).
  congruence.
Qed.

(** the wrapped value is the value moved by whole lengths of the range *)
Lemma congruent :
  Rabs (B2R wrapped - (B2R x - IZR (Zfloor (B2R q)) * (B2R hi - B2R lo)))
  <= 32 * u53 * (Rabs (B2R x) + Rabs (B2R lo) + Rabs (B2R hi)) + 2 * eta.
Proof.
  destruct wrapped_ok as (_ & Er & _). destruct prod_ok as (_ & Ep & Bp). destruct part_ok as (_ & Ef & Bf).
  assert (Ey : B2R y = rnd (B2R x - B2R lo)) by (apply sub_fin; auto).
  pose proof (err_sub x lo) as E1. rewrite <- Ey in E1.
  pose proof (err_sub hi lo) as E0. rewrite <- w_eq in E0.
  pose proof (err_any (B2R y / B2R w)) as E2. rewrite <- q_eq in E2.
  destruct (floor_ok q Fq) as (Efl & _).
  pose proof (err_sub q (floor64 q)) as E3. rewrite Efl, <- Ef in E3.
  pose proof (err_any (B2R part * B2R w)) as E4. rewrite <- Ep in E4.
  pose proof (err_add (fmul part w) lo) as E5. rewrite <- Er in E5.
  pose proof (Zfloor_lb (B2R q)) as K1. pose proof (Zfloor_ub (B2R q)) as K2.
  pose proof w_pos as Wp. pose proof u_pos as [U0 U]. pose proof eta_pos as Ep0. pose proof eta_small as Es.
  set (k := IZR (Zfloor (B2R q))) in *. set (X := B2R x) in *. set (l := B2R lo) in *. set (h := B2R hi) in *.
  set (W := B2R w) in *. set (Y := B2R y) in *. set (Q := B2R q) in *. set (f := B2R part) in *.
  set (p := B2R (fmul part w)) in *. set (r := B2R wrapped) in *. clearbody k X l h W Y Q f p r.
  set (T := Rabs X + Rabs l + Rabs h).
  pose proof (Rabs_pos X). pose proof (Rabs_pos l). pose proof (Rabs_pos h).
  assert (T0 : 0 <= T) by (unfold T; lra).
  assert (A1 : Rabs (X - l) <= T) by (pose proof (abs_sub X l); unfold T; lra).
  assert (A0 : Rabs (h - l) <= T) by (pose proof (abs_sub h l); unfold T; lra).
  assert (Al : Rabs l <= T) by (unfold T; lra).
  assert (E1' : Rabs (Y - (X - l)) <= u53 * T) by (eapply Rle_trans; [exact E1|apply Rmult_le_compat_l; lra]).
  assert (UT : u53 * T <= / 1024 * T) by (apply Rmult_le_compat_r; lra).
  assert (YT : Rabs Y <= 2 * T).
  { replace Y with ((Y - (X - l)) + (X - l)) by ring. eapply Rle_trans; [apply Rabs_triang|]. lra. }
  assert (D0 : 0 < h - l) by lra. rewrite (Rabs_pos_eq (h - l)) in E0, A0 by lra.
  assert (WT : W <= 2 * T).
  { apply Rabs_le_inv in E0. assert (u53 * (h - l) <= / 1024 * (h - l)) by (apply Rmult_le_compat_r; lra). lra. }
  assert (DW : h - l <= 2 * W).
  { apply Rabs_le_inv in E0. assert (u53 * (h - l) <= / 1024 * (h - l)) by (apply Rmult_le_compat_r; lra). lra. }
  (* the quotient, multiplied by the width *)
  assert (E2' : Rabs (Q * W - Y) <= u53 * Rabs Y + eta * W).
  { replace (Q * W - Y) with ((Q - Y / W) * W) by (field; lra). rewrite Rabs_mult, (Rabs_pos_eq W) by lra.
    eapply Rle_trans; [apply Rmult_le_compat_r; [lra|exact E2]|]. right. unfold Rdiv. rewrite Rabs_mult, Rabs_inv, (Rabs_pos_eq W) by lra. field. lra. }
  assert (eW : eta * W <= u53 * W) by (apply Rmult_le_compat_r; lra).
  assert (uY : u53 * Rabs Y <= 2 * (u53 * T)) by (replace (2 * (u53 * T)) with (u53 * (2 * T)) by ring; apply Rmult_le_compat_l; lra).
  assert (uW : u53 * W <= 2 * (u53 * T)) by (replace (2 * (u53 * T)) with (u53 * (2 * T)) by ring; apply Rmult_le_compat_l; lra).
  assert (E2'' : Rabs (Q * W - Y) <= 4 * (u53 * T)) by lra.
  (* the fractional part, multiplied by the width *)
  assert (E3' : Rabs (f * W - (Q - k) * W) <= u53 * W).
  { replace (f * W - (Q - k) * W) with ((f - (Q - k)) * W) by ring. rewrite Rabs_mult, (Rabs_pos_eq W) by lra.
    apply Rmult_le_compat_r; [lra|]. eapply Rle_trans; [exact E3|]. rewrite Rabs_pos_eq by lra. rewrite <- (Rmult_1_r u53) at 2. apply Rmult_le_compat_l; lra. }
  assert (E4' : Rabs (p - f * W) <= u53 * W + eta).
  { eapply Rle_trans; [exact E4|]. apply Rplus_le_compat_r. apply Rmult_le_compat_l; [lra|]. rewrite Rabs_mult, (Rabs_pos_eq W), (Rabs_pos_eq f) by lra. nra. }
  assert (E5' : Rabs (r - (p + l)) <= u53 * (3 * T)).
  { eapply Rle_trans; [exact E5|]. apply Rmult_le_compat_l; [lra|]. eapply Rle_trans; [apply Rabs_triang|]. rewrite (Rabs_pos_eq p) by lra. lra. }
  (* the whole lengths *)
  assert (KW : Rabs (k * W) <= 5 * T).
  { assert (Rabs (k * W - Q * W) <= W).
    { replace (k * W - Q * W) with ((k - Q) * W) by ring. rewrite Rabs_mult, (Rabs_pos_eq W) by lra.
      rewrite <- (Rmult_1_l W) at 2. apply Rmult_le_compat_r; [lra|]. apply Rabs_le. lra. }
    replace (k * W) with ((k * W - Q * W) + (Q * W - Y) + Y) by ring.
    eapply Rle_trans; [apply Rabs_triang|]. pose proof (Rabs_triang (k * W - Q * W) (Q * W - Y)). lra. }
  assert (E0' : Rabs (k * W - k * (h - l)) <= u53 * (10 * T)).
  { replace (k * W - k * (h - l)) with (k * (W - (h - l))) by ring. rewrite Rabs_mult.
    apply Rle_trans with (Rabs k * (u53 * (h - l))); [apply Rmult_le_compat_l; [apply Rabs_pos|exact E0]|].
    replace (Rabs k * (u53 * (h - l))) with (u53 * (Rabs k * (h - l))) by ring. apply Rmult_le_compat_l; [lra|].
    rewrite Rabs_mult, (Rabs_pos_eq W) in KW by lra. pose proof (Rabs_pos k).
    apply Rle_trans with (Rabs k * (2 * W)); [apply Rmult_le_compat_l; lra|lra]. }
  replace (r - (X - k * (h - l))) with ((r - (p + l)) + (p - f * W) + (f * W - (Q - k) * W) + (Q * W - Y) + (Y - (X - l)) - (k * W - k * (h - l))) by ring.
  apply Rabs_le_inv in E0', E1', E2'', E3', E4', E5'. fold T. apply Rabs_le. lra.
Qed.
(** a value below the range's end stays in its length *)
Lemma stays : B2R lo <= B2R x -> B2R y < B2R w -> Zfloor (B2R q) = 0%Z.
Proof.
  intros Hx Hy. pose proof w_pos as Wp. assert (Ey : B2R y = rnd (B2R x - B2R lo)) by (apply sub_fin; auto).
  assert (Y0 : 0 <= B2R y) by (rewrite Ey, <- rnd_0; apply rnd_le; lra).
  apply Zfloor_imp. rewrite q_eq. split.
  - rewrite <- rnd_0. apply rnd_le. apply Rmult_le_pos; [lra|]. left. apply Rinv_0_lt_compat. lra.
  - (* y <= pred w, so that y / w <= 1 - 2^-53 *)
    change (IZR (0 + 1)) with 1.
    assert (V : u53 * B2R w <= B2R w - B2R y).
    { pose proof (gap (B2R y) (B2R w) (generic_format_B2R 53 1024 y) (generic_format_B2R 53 1024 w) Y0 Hy). lra. }
    apply Rle_lt_trans with (rnd (1 - u53)).
    + apply rnd_le. apply Rmult_le_reg_r with (B2R w); [exact Wp|]. unfold Rdiv. rewrite Rmult_assoc, Rinv_l by lra. lra.
    + rewrite round_generic; [pose proof u_pos; lra|apply valid_rnd_N|].
      apply (generic_format_FLT radix2 (-1074) 53). exists (Float radix2 (2 ^ 53 - 1) (-53)); [|cbn; lia|cbn; lia].
      unfold F2R, u53. cbn [Fnum Fexp]. rewrite minus_IZR. change (2 ^ 53)%Z with (radix2 ^ 53)%Z. rewrite IZR_Zpower by lia.
      rewrite Rmult_minus_distr_r, <- bpow_plus. change (53 + -53)%Z with 0%Z. change (bpow radix2 0) with 1. ring.
Qed.
End Wrap.

(** * A uniform draw *)
Lemma draw_ok (u lo hi : b64) :
  is_finite u = true -> is_finite lo = true -> is_finite hi = true -> is_finite (fsub hi lo) = true ->
  B2R lo <= B2R hi -> 0 <= B2R u <= 1 - bpow radix2 (-32) ->
  is_finite (draw64 u lo hi) = true /\ B2R lo <= B2R (draw64 u lo hi) <= B2R hi.
Proof.
  intros Fu Fl Fh Fw Hle Hu. destruct (sub_fin hi lo Fh Fl Fw) as (Lw & Ew).
  unfold draw64. set (w := fsub hi lo) in *.
  pose proof (bpow_gt_0 radix2 (-32)) as V0. pose proof u_pos as [U0 U].
  assert (V1 : bpow radix2 (-32) <= / 1024) by (replace (/ 1024) with (bpow radix2 (-10)) by (cbn; lra); apply bpow_le; lia).
  assert (UV : 8 * u53 <= bpow radix2 (-32)).
  { unfold u53. replace 8 with (bpow radix2 3) by (cbn; lra). rewrite <- bpow_plus. apply bpow_le. lia. }
  set (v := bpow radix2 (-32)) in *. clearbody v.
  assert (W0 : 0 <= B2R w) by (rewrite Ew, <- rnd_0; apply rnd_le; lra).
  assert (P : 0 <= rnd (B2R u * B2R w) <= B2R hi - B2R lo).
  { split; [rewrite <- rnd_0; apply rnd_le; nra|].
    destruct (Rle_or_lt (B2R w) (B2R hi - B2R lo)) as [Hw|Hw].
    - apply Rle_trans with (B2R w); [|exact Hw]. rewrite <- (rnd_id w) at 2. apply rnd_le. nra.
    - (* the width was rounded up, so it is not tiny *)
      pose proof (err_sub hi lo) as E. rewrite <- Ew in E. rewrite (Rabs_pos_eq (B2R hi - B2R lo)) in E by lra. apply Rabs_le_inv in E.
      assert (Big : bpow radix2 (-1022) <= B2R hi - B2R lo).
      { apply Rnot_lt_le. intros Sm.
        assert (G : generic_format radix2 fmt (B2R hi - B2R lo)).
        { apply (@generic_format_FLT_small_sum hi lo). rewrite Rabs_pos_eq by lra. exact Sm. }
        rewrite round_generic in Ew; [lra|apply valid_rnd_N|exact G]. }
      apply Rle_trans with (rnd ((1 - v) * B2R w)); [apply rnd_le; nra|].
      assert (Eta : eta <= u53 * (B2R hi - B2R lo)).
      { apply Rle_trans with (u53 * bpow radix2 (-1022)); [|apply Rmult_le_compat_l; lra].
        unfold u53, eta. rewrite <- bpow_plus. change (-53 + -1022)%Z with (-1 + -1074)%Z. rewrite bpow_plus. change (bpow radix2 (-1)) with (/ 2). lra. }
      pose proof (err_any ((1 - v) * B2R w)) as E2. rewrite (Rabs_pos_eq ((1 - v) * B2R w)) in E2 by nra. apply Rabs_le_inv in E2.
      set (D := B2R hi - B2R lo) in *. set (W := B2R w) in *. clearbody D W.
      assert (D0 : 0 < D) by (pose proof (bpow_gt_0 radix2 (-1022)); lra).
      assert (A : u53 * ((1 - v) * W) <= u53 * W) by (apply Rmult_le_compat_l; nra).
      assert (B : u53 * W <= 2 * (u53 * D)) by (replace (2 * (u53 * D)) with (u53 * (2 * D)) by ring; apply Rmult_le_compat_l; nra).
      assert (C : v * W >= 8 * u53 * D) by nra. lra. }
  assert (Lp : Rabs (rnd (B2R u * B2R w)) < big).
  { apply (abs_between 0 (B2R w)); [split; [apply P|]|rewrite Rabs_R0; apply bpow_gt_0|apply below; exact Fw].
    rewrite <- (rnd_id w) at 2. apply rnd_le. nra. }
  destruct (mul_ok u w Fu Fw Lp) as (R1 & R2).
  assert (B : B2R lo <= rnd (B2R lo + B2R (fmul u w)) <= B2R hi).
  { rewrite R1. split; [rewrite <- (rnd_id lo) at 1|rewrite <- (rnd_id hi)]; apply rnd_le; lra. }
  assert (L : Rabs (rnd (B2R lo + B2R (fmul u w))) < big) by (eapply abs_between; [exact B|apply below; auto|apply below; auto]).
  destruct (add_ok lo (fmul u w) Fl R2 L) as (R3 & R4). rewrite R3. auto.
Qed.
