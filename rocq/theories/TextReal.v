(** What printing and reading do to the values. *)
From Coq Require Import ZArith Reals Lra List Bool Lia Ascii.
From Flocq Require Import Core BinarySingleNaN.
From Verif Require Import CPrelude TextModel.
Open Scope R_scope.

Notation fe := (SpecFloat.fexp 53 1024).
Global Instance fe_valid : Valid_exp fe := fexp_correct 53 1024 Hprec.
Global Instance fe_mono : Monotone_exp fe := fexp_monotone 53 1024.
Notation rnd := (round radix2 fe ZnearestE).
Notation format := (generic_format radix2 fe).

(** ** Division rounded to nearest *)
Lemma nearest_ok : forall a d, (0 < d)%Z -> nearest a d = ZnearestE (IZR a / IZR d).
Proof.
  intros a d D. unfold nearest, Znearest. rewrite Zfloor_div by lia.
  assert (DR : 0 < IZR d) by (apply IZR_lt; exact D).
  assert (E : IZR a / IZR d - IZR (a / d) = IZR (a mod d) / IZR d).
  { rewrite (Z.div_mod a d) at 1 by lia. rewrite plus_IZR, mult_IZR. field. lra. }
  rewrite E. assert (M := Z.mod_pos_bound a d D).
  assert (C : Rcompare (IZR (a mod d) / IZR d) (/ 2) = (2 * (a mod d) ?= d)%Z).
  { rewrite <- (Rcompare_mult_r (2 * IZR d)) by lra.
    replace (IZR (a mod d) / IZR d * (2 * IZR d)) with (IZR (2 * (a mod d))) by (rewrite mult_IZR; field; lra).
    replace (/ 2 * (2 * IZR d)) with (IZR d) by (field; lra). apply Rcompare_IZR. }
  rewrite C.
  assert (CE : (a mod d <> 0)%Z -> Zceil (IZR a / IZR d) = (a / d + 1)%Z).
  { intros NZ. apply Zceil_imp. replace (a / d + 1 - 1)%Z with (a / d)%Z by lia. rewrite plus_IZR.
    assert (0 < IZR (a mod d) / IZR d) by (apply Rdiv_lt_0_compat; [apply IZR_lt; lia|lra]).
    assert (IZR (a mod d) / IZR d < 1). { apply Rmult_lt_reg_r with (IZR d); [lra|]. unfold Rdiv. rewrite Rmult_assoc, Rinv_l, Rmult_1_r, Rmult_1_l by lra. apply IZR_lt; lia. }
    lra. }
  destruct (Z.compare_spec (2 * (a mod d)) d) as [X|X|X]; [|reflexivity|].
  - destruct (Z.even (a / d)); cbn [negb]; [reflexivity|]. rewrite CE by lia. reflexivity.
  - rewrite CE by lia. reflexivity.
Qed.
Lemma denom_pos : forall e, (0 < denom e)%Z.
Proof. intros e. unfold denom. destruct (Z.leb_spec 0 e); [lia|]. apply Z.pow_pos_nonneg; lia. Qed.
Lemma numer_denom : forall m e, IZR (numer m e) / IZR (denom e) = IZR (Zpos m) * bpow radix2 e.
Proof.
  intros m e. unfold numer, denom. destruct (Z.leb_spec 0 e) as [L|L].
  - rewrite mult_IZR. rewrite <- (IZR_Zpower radix2) by exact L. change (Zpower radix2 e) with (2 ^ e)%Z. field.
  - rewrite <- (Z.opp_involutive e) at 2. rewrite bpow_opp. rewrite <- (IZR_Zpower radix2) by lia. reflexivity.
Qed.
Lemma numer_pos : forall m e, (0 < numer m e)%Z.
Proof. intros m e. unfold numer. destruct (Z.leb_spec 0 e); [|reflexivity]. apply Z.mul_pos_pos; [reflexivity|]. apply Z.pow_pos_nonneg; lia. Qed.
Lemma B2R_abs : forall s m e H, Rabs (B2R (@B754_finite 53 1024 s m e H)) = IZR (Zpos m) * bpow radix2 e.
Proof.
  intros s m e H. cbn [B2R]. unfold F2R. cbn [Fnum Fexp]. rewrite Rabs_mult, (Rabs_pos_eq (bpow radix2 e)) by apply bpow_ge_0. f_equal.
  rewrite <- abs_IZR. destruct s; reflexivity.
Qed.
Definition micro (x : b64) : Z := ZnearestE (Rabs (B2R x) * 10 ^ 6).
Lemma ten6 : IZR (10 ^ 6) = 10 ^ 6. Proof. rewrite (pow_IZR 10 6). f_equal. Qed.
Lemma print_f_eq : forall x, is_finite x = true -> print_f x = fixed6 (Bsign x) (micro x).
Proof.
  intros [s|s| |s m e H] F; try discriminate F; unfold micro.
  - cbn [B2R print_f Bsign]. rewrite Rabs_R0, Rmult_0_l. rewrite (Znearest_imp _ 0 0); [reflexivity|]. rewrite Rminus_0_r, Rabs_R0. lra.
  - cbn [print_f Bsign]. rewrite nearest_ok by apply denom_pos. do 2 f_equal.
    rewrite mult_IZR, B2R_abs, <- numer_denom, ten6. assert (0 < IZR (denom e)) by (apply IZR_lt, denom_pos). field. lra.
Qed.
Lemma micro_nonneg : forall x, (0 <= micro x)%Z.
Proof.
  intros x. unfold micro. apply le_IZR. assert (H := Znearest_half (fun t => negb (Z.even t)) (Rabs (B2R x) * 10 ^ 6)).
  assert (P : 0 <= Rabs (B2R x) * 10 ^ 6) by (apply Rmult_le_pos; [apply Rabs_pos|lra]).
  apply Rabs_le_inv in H. assert (X : -1 < IZR (ZnearestE (Rabs (B2R x) * 10 ^ 6))) by lra.
  apply IZR_le. assert (Y : (-1 < ZnearestE (Rabs (B2R x) * 10 ^ 6))%Z) by (apply lt_IZR; exact X). lia.
Qed.

(** ** The double nearest to a decimal *)
Definition dec_val (n p : Z) : R := if (0 <=? p)%Z then IZR n * 10 ^ Z.to_nat p else IZR n / 10 ^ Z.to_nat (- p).
Lemma pow10 : forall p, (0 <= p)%Z -> IZR (10 ^ p) = 10 ^ Z.to_nat p.
Proof. intros p H. rewrite pow_IZR. f_equal. rewrite Z2Nat.id; auto. Qed.
Lemma dec_ratio : forall n p, (0 < n)%Z -> IZR (Zpos (dec_num n p)) / IZR (Zpos (dec_den p)) = dec_val n p.
Proof.
  intros n p N. unfold dec_num, dec_den, dec_val. destruct (Z.leb_spec 0 p) as [L|L].
  - rewrite Z2Pos.id by (apply Z.mul_pos_pos; [auto|apply Z.pow_pos_nonneg; lia]). rewrite mult_IZR, pow10 by auto. field.
  - rewrite !Z2Pos.id by (auto; apply Z.pow_pos_nonneg; lia). rewrite pow10 by lia. reflexivity.
Qed.
Lemma to_b64_ok : forall s n p, (0 <= n)%Z -> Rabs (rnd (dec_val n p)) < bpow radix2 1024 ->
  is_finite (to_b64 s n p) = true /\ Rabs (B2R (to_b64 s n p)) = rnd (dec_val n p) /\ Bsign (to_b64 s n p) = s.
Proof.
  intros s n p N B. unfold to_b64. destruct (Z.eqb_spec n 0) as [->|NZ].
  - cbn [is_finite B2R Bsign]. split; [reflexivity|]. split; [|reflexivity]. unfold dec_val.
    replace (if (0 <=? p)%Z then 0 * 10 ^ Z.to_nat p else 0 / 10 ^ Z.to_nat (- p)) with 0 by (destruct (0 <=? p)%Z; unfold Rdiv; ring).
    rewrite round_0, Rabs_R0; [reflexivity|apply valid_rnd_N].
  - rewrite is_finite_SF2B, B2R_SF2B, Bsign_SF2B.
    destruct (Bdiv_correct_aux 53 1024 Hprec Hmax mode_NE s (dec_num n p) 0 false (dec_den p) 0) as [V C]. cbn [proj1].
    set (z := let '(mz, ez, lz) := _ in _) in *. clearbody z.
    unfold F2R in C. cbn [Fnum Fexp bpow] in C. rewrite !Rmult_1_r in C. change (SpecFloat.cond_Zopp false (Z.pos (dec_den p))) with (Z.pos (dec_den p)) in C.
    change (round_mode mode_NE) with ZnearestE in C.
    assert (E : IZR (SpecFloat.cond_Zopp s (Z.pos (dec_num n p))) / IZR (Z.pos (dec_den p)) = (if s then - dec_val n p else dec_val n p)).
    { rewrite <- dec_ratio by lia. destruct s; cbn [SpecFloat.cond_Zopp]; [|reflexivity]. rewrite opp_IZR. unfold Rdiv. ring. }
    rewrite E in C. assert (A : Rabs (rnd (if s then - dec_val n p else dec_val n p)) = Rabs (rnd (dec_val n p))).
    { destruct s; [|reflexivity]. rewrite round_NE_opp, Rabs_Ropp. reflexivity. }
    rewrite A in C. rewrite Rlt_bool_true in C by exact B. destruct C as (C1 & C2 & C3). rewrite C1, C2, C3, xorb_false_r.
    split; [reflexivity|]. split; [|reflexivity]. rewrite A. apply Rabs_pos_eq.
    apply round_ge_generic; [apply fe_valid|apply valid_rnd_N|apply generic_format_0|].
    unfold dec_val. assert (0 < IZR n) by (apply IZR_lt; lia).
    destruct (0 <=? p)%Z; [apply Rmult_le_pos; [lra|apply pow_le; lra]|]. unfold Rdiv. apply Rmult_le_pos; [lra|]. apply Rlt_le, Rinv_0_lt_compat, pow_lt. lra.
Qed.

(** ** Six decimals *)
Lemma ulp_small : forall d, 0 < d -> d < bpow radix2 33 -> ulp radix2 fe d <= bpow radix2 (-20).
Proof.
  intros d P L. rewrite ulp_neq_0 by lra. apply bpow_le. unfold cexp.
  assert (M : (mag radix2 d <= 33)%Z) by (apply mag_le_bpow; [lra|rewrite Rabs_pos_eq; lra]).
  unfold SpecFloat.fexp, SpecFloat.emin. lia.
Qed.
Lemma format_multiple : forall x, format x -> bpow radix2 32 <= Rabs x -> exists k, x = IZR k * bpow radix2 (-20).
Proof.
  intros x F L. assert (M : (33 <= mag radix2 x)%Z) by (apply mag_ge_bpow; exact L).
  unfold generic_format, F2R in F. cbn [Fnum Fexp] in F. set (m := Ztrunc (scaled_mantissa radix2 fe x)) in F.
  assert (C : (-20 <= cexp radix2 fe x)%Z) by (unfold cexp, SpecFloat.fexp, SpecFloat.emin; lia).
  exists (m * 2 ^ (cexp radix2 fe x + 20))%Z. rewrite F at 1. rewrite mult_IZR.
  change (2 ^ (cexp radix2 fe x + 20))%Z with (Zpower radix2 (cexp radix2 fe x + 20)). rewrite IZR_Zpower by lia.
  rewrite Rmult_assoc, <- bpow_plus. do 2 f_equal. lia.
Qed.
Lemma b20 : bpow radix2 (-20) = / 1048576. Proof. simpl. lra. Qed.
Lemma near_format : forall r d, format r -> Rabs (rnd d - d) <= Rabs (r - d).
Proof. intros r d F. destruct (round_N_pt radix2 fe (fun t => negb (Z.even t)) d) as [_ H]. apply H. exact F. Qed.
Lemma six_again : forall r, format r -> 0 <= r ->
  let d := IZR (ZnearestE (r * 10 ^ 6)) / 10 ^ 6 in
  Rabs (r - d) <= / 2 / 10 ^ 6 /\ ZnearestE (rnd d * 10 ^ 6) = ZnearestE (r * 10 ^ 6).
Proof.
  intros r F P d. set (N := ZnearestE (r * 10 ^ 6)) in *.
  assert (H := Znearest_half (fun t => negb (Z.even t)) (r * 10 ^ 6)). fold N in H.
  assert (E : r * 10 ^ 6 - IZR N = (r - d) * 10 ^ 6) by (unfold d; field).
  rewrite E, Rabs_mult, (Rabs_pos_eq (10 ^ 6)) in H by lra.
  assert (HD : Rabs (r - d) <= / 2 / 10 ^ 6) by (apply Rmult_le_reg_r with (10 ^ 6); [lra|]; replace (/ 2 / 10 ^ 6 * 10 ^ 6) with (/ 2) by field; exact H).
  split; [exact HD|]. assert (NF := near_format r d F).
  destruct (Req_dec (rnd d) r) as [EQ|NE]; [rewrite EQ; reflexivity|].
  apply Znearest_imp. replace (rnd d * 10 ^ 6 - IZR N) with ((rnd d - d) * 10 ^ 6) by (unfold d; field).
  rewrite Rabs_mult, (Rabs_pos_eq (10 ^ 6)) by lra.
  apply Rmult_lt_reg_r with (/ 10 ^ 6); [lra|]. rewrite Rmult_assoc, Rinv_r, Rmult_1_r by lra. fold (Rdiv (/ 2) (10 ^ 6)).
  destruct (Rle_lt_or_eq_dec _ _ (Rle_trans _ _ _ NF HD)) as [LT|EQ]; [exact LT|exfalso].
  assert (EQ2 : Rabs (r - d) = / 2 / 10 ^ 6) by lra.
  assert (DN : 0 <= d).
  { unfold d. assert (0 <= IZR N). { apply IZR_le. assert (X : -1 < IZR N) by (replace (IZR N) with (d * 10 ^ 6) by (unfold d; field); apply Rabs_le_inv in HD; lra).
      assert ((-1 < N)%Z) by (apply lt_IZR; exact X). lia. }
    unfold Rdiv. apply Rmult_le_pos; [auto|]. lra. }
  destruct (Rlt_le_dec d (bpow radix2 33)) as [S|L].
  - destruct (Rle_lt_or_eq_dec 0 d DN) as [DP|DZ].
    + assert (HU := error_le_half_ulp radix2 fe (fun t => negb (Z.even t)) d). pose proof (ulp_small d DP S) as US. rewrite b20 in US. lra.
    + rewrite <- DZ in EQ. rewrite round_0 in EQ by apply valid_rnd_N. rewrite Rminus_0_r, Rabs_R0 in EQ. lra.
  - assert (B33 : bpow radix2 33 = 8589934592) by (simpl; lra). assert (B32 : bpow radix2 32 = 4294967296) by (simpl; lra).
    assert (G1 : exists k, r = IZR k * bpow radix2 (-20)).
    { apply format_multiple; [exact F|]. apply Rabs_le_inv in HD. rewrite Rabs_pos_eq; lra. }
    assert (G2 : exists k, rnd d = IZR k * bpow radix2 (-20)).
    { apply format_multiple; [apply generic_format_round; [apply fe_valid|apply valid_rnd_N]|].
      assert (X : Rabs (rnd d - d) <= 1) by lra. apply Rabs_le_inv in X. rewrite Rabs_pos_eq; lra. }
    destruct G1 as [k1 G1]. destruct G2 as [k2 G2]. rewrite G1, b20 in EQ2. rewrite G2, b20 in EQ. rewrite G1, G2, b20 in NE.
    assert (KN : k1 <> k2) by (intros ->; apply NE; reflexivity).
    assert (X : Rabs (IZR (k2 - k1)) * / 1048576 = 2 * (/ 2 / 10 ^ 6)).
    { rewrite minus_IZR. unfold Rabs in *. destruct (Rcase_abs (IZR k1 * / 1048576 - d)), (Rcase_abs (IZR k2 * / 1048576 - d)), (Rcase_abs (IZR k2 - IZR k1)); try lra;
      exfalso; apply NE; lra. }
    rewrite <- abs_IZR in X. assert (Y : IZR (Z.abs (k2 - k1)) * 1000000 = 1048576) by lra.
    rewrite <- mult_IZR in Y. apply eq_IZR in Y. lia.
Qed.

(** ** Printing with six decimals and reading *)
Definition reread (x : b64) : b64 := to_b64 (Bsign x) (micro x) (-6).
Lemma dec_val6 : forall n, dec_val n (-6) = IZR n / 10 ^ 6. Proof. reflexivity. Qed.
Lemma reread_ok : forall x, is_finite x = true ->
  is_finite (reread x) = true /\ Bsign (reread x) = Bsign x /\ Rabs (B2R (reread x)) = rnd (IZR (micro x) / 10 ^ 6) /\
  Rabs (Rabs (B2R x) - IZR (micro x) / 10 ^ 6) <= / 2 / 10 ^ 6 /\ micro (reread x) = micro x.
Proof.
  intros x F. unfold reread. assert (FX : format (Rabs (B2R x))) by (apply generic_format_abs, generic_format_B2R).
  destruct (six_again (Rabs (B2R x)) FX (Rabs_pos _)) as [HD AG]. fold (micro x) in HD, AG.
  assert (B : Rabs (rnd (dec_val (micro x) (-6))) < bpow radix2 1024).
  { rewrite dec_val6. assert (NF := near_format (Rabs (B2R x)) (IZR (micro x) / 10 ^ 6) FX).
    assert (MX := abs_B2R_le_emax_minus_prec 53 1024 Hprec x).
    assert (G : 1 <= bpow radix2 (1024 - 53)) by (change 1 with (bpow radix2 0); apply bpow_le; lia).
    assert (X : Rabs (rnd (IZR (micro x) / 10 ^ 6) - Rabs (B2R x)) < 1).
    { replace (rnd (IZR (micro x) / 10 ^ 6) - Rabs (B2R x)) with ((rnd (IZR (micro x) / 10 ^ 6) - IZR (micro x) / 10 ^ 6) + - (Rabs (B2R x) - IZR (micro x) / 10 ^ 6)) by ring.
      eapply Rle_lt_trans; [apply Rabs_triang|]. rewrite Rabs_Ropp. lra. }
    assert (Y := Rabs_pos (B2R x)). apply Rabs_def2 in X. apply Rabs_def1; lra. }
  destruct (to_b64_ok (Bsign x) (micro x) (-6) (micro_nonneg x) B) as (C1 & C2 & C3).
  rewrite dec_val6 in C2. split; [exact C1|]. split; [exact C3|]. split; [exact C2|]. split; [exact HD|].
  unfold micro at 1. rewrite C2. exact AG.
Qed.
