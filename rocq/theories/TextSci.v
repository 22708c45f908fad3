(** Printing with a number of significant digits is rounding in radix ten. *)
From Coq Require Import ZArith Reals Lra List Bool Lia Ascii.
From Flocq Require Import Core BinarySingleNaN.
From Verif Require Import CPrelude TagModel TagSpec ScanModel ScanProofs ScanProofs2 TextModel TextProofs TextReal.
Import ListNotations.

Definition ten : radix := Build_radix 10 eq_refl.
Notation p10 := (bpow ten).
(** p significant digits, to nearest, ties to even *)
Definition dig (p : Z) (v : R) : R := round ten (FLX_exp p) ZnearestE v.
(** six decimals *)
Definition fix6 (v : R) : R := (IZR (ZnearestE (v * 10 ^ 6)) / 10 ^ 6)%R.

(** ** Numbers of digits *)
Lemma dec_aux_len : forall fuel n acc, (1 <= n < 2 ^ Z.of_nat fuel)%Z ->
  exists j, length (dec_aux fuel n acc) = (S j + length acc)%nat /\ (10 ^ Z.of_nat j <= n < 10 ^ (Z.of_nat j + 1))%Z.
Proof.
  induction fuel as [|f IH]; intros n acc B; [cbn in B; lia|]. cbn [dec_aux]. destruct (Z.ltb_spec n 10) as [L|L].
  - exists 0%nat. cbn [length]. split; [lia|]. cbn [Z.of_nat]. change (10 ^ 0)%Z with 1%Z. change (10 ^ (0 + 1))%Z with 10%Z. lia.
  - destruct (IH (n / 10)%Z (chr (n mod 10) :: acc)) as (j & E & H).
    { rewrite Nat2Z.inj_succ, Z.pow_succ_r in B by lia. split; [apply Z.div_le_lower_bound; lia|apply Z.div_lt_upper_bound; lia]. }
    exists (S j). rewrite E. cbn [length]. split; [lia|].
    rewrite Nat2Z.inj_succ. rewrite Z.pow_succ_r by lia. replace (Z.succ (Z.of_nat j) + 1)%Z with (Z.succ (Z.of_nat j + 1)) by lia.
    rewrite (Z.pow_succ_r 10 (Z.of_nat j + 1)) by lia.
    assert (M := Z.mod_pos_bound n 10 eq_refl). assert (D := Z.div_mod n 10). lia.
Qed.
Lemma ndigits_ok : forall n, (1 <= n)%Z -> (10 ^ (ndigits n - 1) <= n < 10 ^ ndigits n)%Z /\ (1 <= ndigits n)%Z.
Proof.
  intros n H. unfold ndigits, print_d. destruct (dec_aux_len (S (Z.to_nat (Z.log2 n))) n []) as (j & E & B).
  - rewrite Nat2Z.inj_succ, Z2Nat.id by apply Z.log2_nonneg. split; [exact H|]. apply Z.log2_spec. lia.
  - rewrite E. cbn [length]. rewrite Nat.add_0_r, Nat2Z.inj_succ. replace (Z.succ (Z.of_nat j) - 1)%Z with (Z.of_nat j) by lia.
    change (Z.succ (Z.of_nat j)) with (Z.of_nat j + 1)%Z. lia.
Qed.
Lemma p10_Z : forall k, (0 <= k)%Z -> p10 k = IZR (10 ^ k).
Proof. intros k H. rewrite <- IZR_Zpower by exact H. reflexivity. Qed.
Open Scope R_scope.
Lemma ratio_bounds : forall a d q, (0 < d)%Z -> (q = a / d)%Z -> IZR q <= IZR a / IZR d < IZR q + 1.
Proof.
  intros a d q D ->. assert (DR : 0 < IZR d) by (apply IZR_lt; exact D). assert (M := Z.mod_pos_bound a d D).
  assert (E : IZR a = IZR d * IZR (a / d) + IZR (a mod d)). { rewrite <- mult_IZR, <- plus_IZR, <- Z.div_mod by lia. reflexivity. }
  assert (M1 : 0 <= IZR (a mod d)) by (apply IZR_le; lia). assert (M2 : IZR (a mod d) < IZR d) by (apply IZR_lt; lia).
  split.
  - apply Rmult_le_reg_r with (IZR d); [exact DR|]. unfold Rdiv. rewrite Rmult_assoc, Rinv_l by lra. lra.
  - apply Rmult_lt_reg_r with (IZR d); [exact DR|]. unfold Rdiv. rewrite Rmult_assoc, Rinv_l by lra. lra.
Qed.
Lemma order_ok : forall a d, (0 < a)%Z -> (0 < d)%Z -> p10 (order a d) <= IZR a / IZR d < p10 (order a d + 1).
Proof.
  intros a d A D. assert (AR : 0 < IZR a) by (apply IZR_lt; exact A). assert (DR : 0 < IZR d) by (apply IZR_lt; exact D).
  unfold order. destruct (Z.leb_spec d a) as [L|L].
  - assert (Q : (1 <= a / d)%Z) by (apply Z.div_le_lower_bound; lia). destruct (ndigits_ok _ Q) as [[B1 B2] B3].
    replace (ndigits (a / d) - 1 + 1)%Z with (ndigits (a / d)) by lia. rewrite !p10_Z by lia.
    destruct (ratio_bounds a d _ D eq_refl) as [R1 R2]. apply IZR_le in B1. apply Z.lt_le_pred, IZR_le in B2. rewrite <- Z.sub_1_r, minus_IZR in B2.
    split; lra.
  - assert (Q : (1 <= d / a)%Z) by (apply Z.div_le_lower_bound; lia). destruct (ndigits_ok _ Q) as [[B1 B2] B3].
    set (j := ndigits (d / a)) in *. destruct (ratio_bounds d a _ A eq_refl) as [R1 R2].
    apply IZR_le in B1. apply Z.lt_le_pred, IZR_le in B2. rewrite <- Z.sub_1_r, minus_IZR in B2.
    assert (E : IZR a / IZR d = / (IZR d / IZR a)) by (field; lra).
    assert (P1 : 0 < p10 (j - 1)) by apply bpow_gt_0. assert (P2 : 0 < p10 j) by apply bpow_gt_0.
    rewrite <- p10_Z in B1, B2 by lia. destruct (Z.eqb_spec (a * 10 ^ (j - 1)) d) as [T|T].
    + assert (X : IZR d / IZR a = p10 (j - 1)). { rewrite <- T, mult_IZR, p10_Z by lia. field. lra. }
      rewrite E, X. replace (1 - j)%Z with (- (j - 1))%Z by lia. rewrite bpow_opp. split; [lra|].
      apply Rlt_le_trans with (p10 (- (j - 1) + 1)); [|lra]. rewrite <- bpow_opp. apply bpow_lt. lia.
    + assert (X : p10 (j - 1) < IZR d / IZR a).
      { assert (Y : p10 (j - 1) <= IZR d / IZR a) by lra. destruct Y as [Y|Y]; [exact Y|]. exfalso. apply T. apply eq_IZR.
        rewrite mult_IZR, <- p10_Z by lia. rewrite Y. field. lra. }
      rewrite E. rewrite bpow_opp. split; [apply Rinv_le; lra|].
      replace (- j + 1)%Z with (- (j - 1))%Z by lia. rewrite bpow_opp. apply Rinv_lt_contravar; [|exact X]. apply Rmult_lt_0_compat; lra.
Qed.
Lemma units_ok : forall p a d k, (0 < d)%Z -> units p a d k = ZnearestE (IZR a / IZR d * p10 (p - k)).
Proof.
  intros p a d k D. assert (DR : 0 < IZR d) by (apply IZR_lt; exact D). unfold units. destruct (Z.leb_spec p k) as [L|L].
  - assert (T : (0 < 10 ^ (k - p))%Z) by (apply Z.pow_pos_nonneg; lia). rewrite nearest_ok by lia. f_equal.
    rewrite mult_IZR, <- p10_Z by lia. replace (p - k)%Z with (- (k - p))%Z by lia. rewrite bpow_opp.
    assert (0 < p10 (k - p)) by apply bpow_gt_0. field. lra.
  - rewrite nearest_ok by exact D. f_equal. rewrite mult_IZR, <- p10_Z by lia. field. lra.
Qed.
(** The digits printed are the rounding of the value to p + 1 digits. *)
Lemma mant_exp_ok : forall p a d n k, (0 <= p)%Z -> (0 < a)%Z -> (0 < d)%Z -> mant_exp p a d = (n, k) ->
  IZR n * p10 (k - p) = dig (p + 1) (IZR a / IZR d) /\ (10 ^ p <= n < 10 ^ (p + 1))%Z.
Proof.
  intros p a d n k P A D E. unfold mant_exp in E. destruct (order_ok a d A D) as [O1 O2]. set (v := IZR a / IZR d) in *. set (o := order a d) in *.
  assert (VP : 0 < v) by (assert (0 < p10 o) by apply bpow_gt_0; lra).
  rewrite units_ok in E by exact D. fold v in E.
  assert (M : mag ten v = (o + 1)%Z :> Z). { apply mag_unique_pos. replace (o + 1 - 1)%Z with o by lia. split; assumption. }
  assert (DG : dig (p + 1) v = IZR (ZnearestE (v * p10 (p - o))) * p10 (o - p)).
  { unfold dig, round, F2R, scaled_mantissa, cexp. rewrite M. unfold FLX_exp. cbn [Fnum Fexp].
    replace (- (o + 1 - (p + 1)))%Z with (p - o)%Z by lia. replace (o + 1 - (p + 1))%Z with (o - p)%Z by lia. reflexivity. }
  set (N := ZnearestE (v * p10 (p - o))) in *.
  assert (B : (10 ^ p <= N <= 10 ^ (p + 1))%Z).
  { assert (Z1 : p10 p <= v * p10 (p - o)). { replace p with (o + (p - o))%Z at 1 by lia. rewrite bpow_plus. apply Rmult_le_compat_r; [apply bpow_ge_0|exact O1]. }
    assert (Z2 : v * p10 (p - o) <= p10 (p + 1)). { replace (p + 1)%Z with (o + 1 + (p - o))%Z by lia. rewrite (bpow_plus ten (o + 1)). apply Rmult_le_compat_r; [apply bpow_ge_0|lra]. }
    rewrite (p10_Z p) in Z1 by lia. rewrite (p10_Z (p + 1)) in Z2 by lia. split.
    - rewrite <- (@Zrnd_IZR ZnearestE (valid_rnd_N _) (10 ^ p)). apply (@Zrnd_le ZnearestE (valid_rnd_N _)). exact Z1.
    - rewrite <- (@Zrnd_IZR ZnearestE (valid_rnd_N _) (10 ^ (p + 1))). apply (@Zrnd_le ZnearestE (valid_rnd_N _)). exact Z2. }
  assert (T : (10 ^ (p + 1) = 10 * 10 ^ p)%Z) by (rewrite Z.pow_add_r by lia; change (10 ^ 1)%Z with 10%Z; lia).
  assert (TP : (0 < 10 ^ p)%Z) by (apply Z.pow_pos_nonneg; lia).
  destruct (Z.eqb_spec N (10 ^ (p + 1))) as [Q|Q]; injection E as <- <-.
  - split; [|lia]. rewrite DG, Q, T, mult_IZR. replace (o + 1 - p)%Z with (1 + (o - p))%Z by lia. rewrite bpow_plus.
    replace (p10 1) with 10; [ring|]. reflexivity.
  - split; [symmetry; exact DG|lia].
Qed.

(** ** Texts and their values *)
(** [t] is a numeral of sign [s] and absolute value [v] *)
Definition writes (t : list ascii) (s : bool) (v : R) : Prop :=
  exists n p, (0 <= n)%Z /\ numeral t (to_b64 s n p) /\ dec_val n p = v.
Lemma dec_val_p10 : forall n p, dec_val n p = IZR n * p10 p.
Proof.
  intros n p. unfold dec_val. destruct (Z.leb_spec 0 p) as [L|L].
  - rewrite p10_Z by exact L. rewrite pow10 by exact L. reflexivity.
  - replace p with (- - p)%Z at 2 by lia. rewrite bpow_opp, p10_Z by lia. rewrite pow10 by lia. reflexivity.
Qed.
Lemma print_f_writes : forall x, is_finite x = true -> writes (print_f x) (Bsign x) (fix6 (Rabs (B2R x))).
Proof.
  intros x F. rewrite print_f_eq by exact F. exists (micro x), (-6)%Z. split; [apply micro_nonneg|]. split; [apply fixed6_numeral, micro_nonneg|].
  reflexivity.
Qed.
Lemma dig_0 : forall p, dig p 0 = 0. Proof. intros. unfold dig. apply round_0. apply valid_rnd_N. Qed.
Lemma print_e_writes : forall x, is_finite x = true -> writes (print_e x) (Bsign x) (dig 7 (Rabs (B2R x))).
Proof.
  intros [s|s| |s m e H] F; try discriminate F.
  - exists 0%Z, (-6)%Z. split; [lia|]. cbn [print_e Bsign]. split; [apply (sci6_numeral s 0 0); lia|]. cbn [B2R]. rewrite Rabs_R0, dig_0, dec_val_p10. ring.
  - cbn [print_e Bsign]. destruct (mant_exp 6 (numer m e) (denom e)) as [n k] eqn:E.
    destruct (mant_exp_ok 6 _ _ n k ltac:(lia) (numer_pos m e) (denom_pos e) E) as [V B]. change (10 ^ (6 + 1))%Z with (10 ^ 7)%Z in B.
    exists n, (k - 6)%Z. assert (0 < 10 ^ 6)%Z by reflexivity. split; [lia|]. split; [apply sci6_numeral; lia|].
    rewrite dec_val_p10, V, B2R_abs, <- numer_denom. reflexivity.
Qed.

Lemma strip0_ok : forall w, exists j, w = strip0 w ++ repeat "0"%char j.
Proof.
  induction w as [|c w (j & E)]; [exists 0%nat; reflexivity|]. cbn [strip0]. destruct (strip0 w) as [|b r].
  - cbn [app] in E. destruct (ascii_dec c "0") as [->|].
    + exists (S j). rewrite E. reflexivity.
    + exists j. rewrite E. reflexivity.
  - exists j. rewrite E at 1. reflexivity.
Qed.
Lemma valf_zeros : forall j a, valf a (repeat "0"%char j) = (a * 10 ^ Z.of_nat j)%Z.
Proof.
  induction j as [|j IH]; intros a; [cbn; lia|]. cbn [repeat]. unfold valf. cbn [fold_left]. fold (valf (10 * a + (code "0" - 48)) (repeat "0"%char j)).
  rewrite IH. change (code "0" - 48)%Z with 0%Z. rewrite Nat2Z.inj_succ, Z.pow_succ_r by lia. lia.
Qed.
Lemma fraction_ok : forall w, Forall isdigit w -> optional_digits (strip0 w) (fraction w).
Proof.
  intros w D. unfold fraction, optional_digits. destruct (strip0_ok w) as (j & E). destruct (strip0 w) as [|c r]; [left; auto|].
  right. split; [reflexivity|]. rewrite E in D. apply Forall_app in D. apply D.
Qed.
(** digits before the point, a fraction without its zeros at the end *)
Lemma stripped : forall s a w e g, a <> [] -> Forall isdigit a -> Forall isdigit w -> optional_exponent e g ->
  writes (minus s ++ a ++ fraction w ++ g) s (dec_val (dec_value (a ++ w)) (e - Z.of_nat (length w))).
Proof.
  intros s a w e g NE DA DW OE. destruct (strip0_ok w) as (j & E). assert (OD := fraction_ok w DW). revert E OD. generalize (strip0 w) as w0. intros w0 E OD.
  assert (LW : length w = (length w0 + j)%nat) by (rewrite E at 1; rewrite app_length, repeat_length; reflexivity).
  assert (D0 : Forall isdigit w0) by (rewrite E in DW; apply Forall_app in DW; apply DW).
  exists (dec_value (a ++ w0)), (e - Z.of_nat (length w0))%Z.
  assert (VN : forall u z, Forall isdigit u -> (0 <= z)%Z -> (0 <= valf z u)%Z).
  { induction u as [|c u IH]; intros z F A; [exact A|]. inversion F as [|? ? [C1 C2] F1]; subst. unfold valf. cbn [fold_left]. apply IH; [exact F1|lia]. }
  split; [apply (VN (a ++ w0) 0%Z); [apply Forall_app; auto|lia]|]. split.
  - exists s, a, w0, (fraction w), e, g. repeat split; auto.
  - rewrite !dec_val_p10. rewrite E at 1. rewrite app_assoc. change (dec_value ((a ++ w0) ++ repeat "0"%char j)) with (valf 0 ((a ++ w0) ++ repeat "0"%char j)).
    rewrite valf_app, valf_zeros, mult_IZR, <- p10_Z by lia. change (valf 0 (a ++ w0)) with (dec_value (a ++ w0)). rewrite Rmult_assoc, <- bpow_plus. do 2 f_equal. lia.
Qed.
Lemma tail_ok : forall k, optional_exponent k (tail_exp k).
Proof.
  intros k. destruct (two_digits_ok (Z.abs k)) as (NE & D & V); [lia|]. right. exists (two_digits (Z.abs k)). split; [exact D|]. split; [exact NE|].
  unfold tail_exp. destruct (Z.ltb_spec k 0); [right|left]; (split; [reflexivity|]); rewrite V; lia.
Qed.
Lemma pad_whole : forall a j n, (0 <= n)%Z -> a <> [] -> Forall isdigit a -> dec_value a = (n / 10 ^ Z.of_nat j)%Z ->
  dec_value (a ++ pad j n []) = n /\ Forall isdigit (pad j n []) /\ length (pad j n []) = j.
Proof.
  intros a j n N NE D V. destruct (pad_ok j n [] N) as (w & E & DW & L & VW). rewrite app_nil_r in E. rewrite E. split; [|auto].
  change (dec_value (a ++ w)) with (valf 0 (a ++ w)). rewrite valf_app. change (valf 0 a) with (dec_value a). rewrite V, VW.
  assert (T : (0 < 10 ^ Z.of_nat j)%Z) by (apply Z.pow_pos_nonneg; lia). assert (X := Z.div_mod n (10 ^ Z.of_nat j)). lia.
Qed.
Lemma gen12_writes : forall s n k, (0 <= n < 10 ^ 12)%Z -> writes (gen12 s n k) s (dec_val n (k - 11)).
Proof.
  intros s n k B. unfold gen12. destruct (Z.leb_spec (-4) k) as [L1|L1], (Z.ltb_spec k 12) as [L2|L2]; cbn [andb].
  2, 3, 4: (destruct (pad_whole [chr (n / 10 ^ 11)] 11 n) as (V & D & L); [lia|discriminate|
    constructor; [apply chr_digit; split; [apply Z.div_pos; lia|apply Z.div_lt_upper_bound; lia]|constructor]|
    change (valf 0 [chr (n / 10 ^ 11)] = n / 10 ^ 11)%Z; rewrite valf_one; [lia|split; [apply Z.div_pos; lia|apply Z.div_lt_upper_bound; lia]]|];
    assert (W := stripped s [chr (n / 10 ^ 11)] (pad 11 n []) k (tail_exp k)); rewrite V, L in W; apply W; [discriminate|
    constructor; [apply chr_digit; split; [apply Z.div_pos; lia|apply Z.div_lt_upper_bound; lia]|constructor]|exact D|apply tail_ok]).
  set (j := Z.to_nat (11 - k)). assert (J : Z.of_nat j = (11 - k)%Z) by (unfold j; lia). rewrite <- J.
  assert (T : (0 < 10 ^ Z.of_nat j)%Z) by (apply Z.pow_pos_nonneg; lia).
  destruct (print_d_ok (n / 10 ^ Z.of_nat j)) as (NE & DD & VV); [apply Z.div_pos; lia|].
  destruct (pad_whole (print_d (n / 10 ^ Z.of_nat j)) j n) as (V & D & L); auto; [lia|].
  assert (W := stripped s (print_d (n / 10 ^ Z.of_nat j)) (pad j n []) 0 []). rewrite V, L, app_nil_r in W. replace (k - 11)%Z with (0 - Z.of_nat j)%Z by lia.
  apply W; auto. left. auto.
Qed.
Lemma print_g_writes : forall x, is_finite x = true -> writes (print_g x) (Bsign x) (dig 12 (Rabs (B2R x))).
Proof.
  intros [s|s| |s m e H] F; try discriminate F.
  - cbn [print_g Bsign B2R]. rewrite Rabs_R0, dig_0. replace 0 with (dec_val 0 (0 - 11)) by (rewrite dec_val_p10; ring). apply gen12_writes. lia.
  - cbn [print_g Bsign]. destruct (mant_exp 11 (numer m e) (denom e)) as [n k] eqn:E.
    destruct (mant_exp_ok 11 _ _ n k ltac:(lia) (numer_pos m e) (denom_pos e) E) as [V B]. change (10 ^ (11 + 1))%Z with (10 ^ 12)%Z in B. change (11 + 1)%Z with 12%Z in V.
    rewrite B2R_abs, <- numer_denom, <- V, <- dec_val_p10. apply gen12_writes. assert (0 < 10 ^ 11)%Z by reflexivity. lia.
Qed.
