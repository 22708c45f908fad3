(** Values read back from texts with significant digits; lengths of the texts. *)
From Coq Require Import ZArith Reals Lra String List Bool Lia Ascii.
From Flocq Require Import Core BinarySingleNaN Relative.
From Verif Require Import CPrelude ListLemmas TagModel TagSpec TagProofs ScanModel ScanProofs ScanProofs2 TextModel TextProofs TextReal TextSci SampTextModel PropSampText LevTextModel.
Import ListNotations.
Open Scope R_scope.

Notation flx := FLX_exp.
Lemma prec_pos : forall p, (0 < p)%Z -> Prec_gt_0 p. Proof. auto. Qed.

(** ** The decimals stay in the range of doubles *)
Lemma dig_le : forall p x y, (0 < p)%Z -> x <= y -> dig p x <= dig p y.
Proof. intros p x y P H. unfold dig. apply round_le; [apply FLX_exp_valid; exact P|apply valid_rnd_N|exact H]. Qed.
Lemma dig_nonneg : forall p x, (0 < p)%Z -> 0 <= x -> 0 <= dig p x.
Proof. intros p x P H. rewrite <- (dig_0 p). apply dig_le; auto. Qed.
Lemma dig_opp : forall p x, dig p (- x) = - dig p x.
Proof. intros p x. unfold dig. apply round_NE_opp. Qed.
Lemma rnd_opp : forall x, rnd (- x) = - rnd x. Proof. intros. apply round_NE_opp. Qed.
Lemma rnd_le : forall x y, x <= y -> rnd x <= rnd y. Proof. intros. apply round_le; [typeclasses eauto|apply valid_rnd_N|assumption]. Qed.
Lemma rnd_nonneg : forall x, 0 <= x -> 0 <= rnd x.
Proof. intros x H. rewrite <- (round_0 radix2 fe ZnearestE). apply rnd_le. exact H. Qed.
Lemma dig_format : forall p n k, (0 < p)%Z -> (Z.abs n < 10 ^ p)%Z -> generic_format ten (flx p) (IZR n * p10 k).
Proof.
  intros p n k P B. apply generic_format_FLX. exists (Float ten n k); [reflexivity|]. cbn [Fnum]. exact B.
Qed.
(** a value below the middle above n p10 k is not rounded above it *)
Lemma dig_below : forall p n k v, (0 < p)%Z -> (10 ^ (p - 1) <= n < 10 ^ p)%Z -> v < (IZR n + / 2) * p10 k -> dig p v <= IZR n * p10 k.
Proof.
  intros p n k v P B H. unfold dig. set (u := IZR n * p10 k).
  assert (VE : Valid_exp (flx p)) by (apply FLX_exp_valid; exact P).
  apply round_N_le_midp; [exact VE|apply dig_format; [exact P|rewrite Z.abs_eq; [lia|assert (0 <= 10 ^ (p - 1))%Z by (apply Z.pow_nonneg; lia); lia]]|].
  assert (T : (0 < 10 ^ (p - 1))%Z) by (apply Z.pow_pos_nonneg; lia).
  assert (NP : 0 < IZR n) by (apply IZR_lt; lia). assert (KP : 0 < p10 k) by apply bpow_gt_0.
  assert (UP : 0 < u) by (unfold u; apply Rmult_lt_0_compat; auto).
  rewrite succ_eq_pos by lra.
  assert (M : mag ten u = (k + p)%Z :> Z).
  { apply mag_unique_pos. unfold u. split.
    - replace (k + p - 1)%Z with ((p - 1) + k)%Z by lia. rewrite bpow_plus. apply Rmult_le_compat_r; [lra|]. rewrite p10_Z by lia. apply IZR_le. lia.
    - replace (k + p)%Z with (p + k)%Z by lia. rewrite bpow_plus. apply Rmult_lt_compat_r; [lra|]. rewrite p10_Z by lia. apply IZR_lt. lia. }
  rewrite ulp_neq_0 by lra. unfold cexp. rewrite M. unfold FLX_exp. replace (k + p - p)%Z with k by lia. unfold u. lra.
Qed.
Lemma b2r_max : forall x : b64, Rabs (B2R x) <= dbl_max.
Proof. intros x. unfold dbl_max. apply (abs_B2R_le_emax_minus_prec 53 1024 Hprec). Qed.
Lemma dbl_max_Z : dbl_max = IZR ((2 ^ 53 - 1) * 2 ^ 971).
Proof.
  unfold dbl_max. change 1024%Z with (53 + 971)%Z at 1. rewrite bpow_plus, mult_IZR, minus_IZR. rewrite <- !(IZR_Zpower radix2) by lia.
  change (Zpower radix2 53) with (2 ^ 53)%Z. change (Zpower radix2 971) with (2 ^ 971)%Z. ring.
Qed.
Lemma max_below : forall n k, (0 <= k)%Z -> (2 * ((2 ^ 53 - 1) * 2 ^ 971) < (2 * n + 1) * 10 ^ k)%Z -> dbl_max < (IZR n + / 2) * p10 k.
Proof.
  intros n k K H. rewrite dbl_max_Z, p10_Z by exact K. apply IZR_lt in H. rewrite (mult_IZR 2), (mult_IZR (2 * n + 1)), plus_IZR, (mult_IZR 2 n) in H. lra.
Qed.
Lemma max_above : forall n k, (0 <= k)%Z -> (n * 10 ^ k <= (2 ^ 53 - 1) * 2 ^ 971)%Z -> IZR n * p10 k <= dbl_max.
Proof. intros n k K H. rewrite dbl_max_Z, p10_Z by exact K. rewrite <- mult_IZR. apply IZR_le. exact H. Qed.
Lemma dig12_max : forall x : b64, dig 12 (Rabs (B2R x)) <= dbl_max.
Proof.
  intros x. apply Rle_trans with (IZR 179769313486 * p10 297).
  - apply dig_below; [lia|split; [vm_compute; discriminate|vm_compute; reflexivity]|]. apply Rle_lt_trans with dbl_max; [apply b2r_max|].
    apply max_below; [lia|vm_compute; reflexivity].
  - apply max_above; [lia|vm_compute; discriminate].
Qed.
Lemma dig7_max : forall x : b64, dig 7 (Rabs (B2R x)) <= dbl_max.
Proof.
  intros x. apply Rle_trans with (IZR 1797693 * p10 302).
  - apply dig_below; [lia|split; [vm_compute; discriminate|vm_compute; reflexivity]|]. apply Rle_lt_trans with dbl_max; [apply b2r_max|].
    apply max_below; [lia|vm_compute; reflexivity].
  - apply max_above; [lia|vm_compute; discriminate].
Qed.

(** ** Reading what was printed *)
Definition signed (s : bool) (v : R) : R := if s then - v else v.
Lemma writes_read : forall t s v sp r, writes t s v -> v <= dbl_max -> space sp -> ends r ->
  exists y : b64, scan_lf (sp ++ t ++ r) = Some (y, r) /\ finite y /\ B2R y = signed s (rnd v) /\ Bsign y = s.
Proof.
  intros t s v sp r (n & p & N & NU & V) B SP E. exists (to_b64 s n p). split; [apply scan_lf_ok; auto|].
  assert (V0 : 0 <= v). { rewrite <- V, dec_val_p10. apply Rmult_le_pos; [apply IZR_le; exact N|apply bpow_ge_0]. }
  assert (RB : rnd v <= dbl_max). { rewrite <- (round_generic radix2 fe ZnearestE dbl_max dbl_max_format). apply rnd_le. exact B. }
  assert (R0 := rnd_nonneg v V0). assert (PP := bpow_gt_0 radix2 971). unfold dbl_max in RB.
  destruct (to_b64_ok s n p N) as (F & A & S); [rewrite V, Rabs_pos_eq by exact R0; lra|].
  split; [exact F|]. split; [|exact S]. rewrite (sign_val _ F), S, A, V. reflexivity.
Qed.
Lemma signed_abs : forall x : b64, finite x -> signed (Bsign x) (Rabs (B2R x)) = B2R x.
Proof. intros x F. rewrite (sign_val x F) at 2. reflexivity. Qed.
Lemma signed_dig : forall p x, finite x -> signed (Bsign x) (rnd (dig p (Rabs (B2R x)))) = rnd (dig p (B2R x)).
Proof. intros p x F. rewrite <- (signed_abs x F) at 2. unfold signed. destruct (Bsign x); [rewrite dig_opp, rnd_opp|]; reflexivity. Qed.
(** [y] is what is read of [x] printed with p digits *)
Definition back (p : Z) (x y : b64) : Prop := finite y /\ B2R y = rnd (dig p (B2R x)) /\ Bsign y = Bsign x.
Lemma scan_e : forall x sp r, finite x -> space sp -> ends r -> exists y, scan_lf (sp ++ print_e x ++ r) = Some (y, r) /\ back 7 x y.
Proof.
  intros x sp r F SP E. destruct (writes_read _ _ _ sp r (print_e_writes x F) (dig7_max x) SP E) as (y & S & FY & V & G).
  exists y. split; [exact S|]. split; [exact FY|]. split; [|exact G]. rewrite V. apply signed_dig. exact F.
Qed.
Lemma scan_g : forall x sp r, finite x -> space sp -> ends r -> exists y, scan_lf (sp ++ print_g x ++ r) = Some (y, r) /\ back 12 x y.
Proof.
  intros x sp r F SP E. destruct (writes_read _ _ _ sp r (print_g_writes x F) (dig12_max x) SP E) as (y & S & FY & V & G).
  exists y. split; [exact S|]. split; [exact FY|]. split; [|exact G]. rewrite V. apply signed_dig. exact F.
Qed.

(** ** How far off *)
Lemma dig_error : forall p x, (0 < p)%Z -> Rabs (dig p x - x) <= / 2 * p10 (1 - p) * Rabs x.
Proof.
  intros p x P. unfold dig. replace (1 - p)%Z with (- p + 1)%Z by lia. apply relative_error_N_FLX. exact P.
Qed.
Lemma rnd_error : forall x, Rabs (rnd x - x) <= bpow radix2 (-53) * Rabs x + bpow radix2 (-1075).
Proof.
  intros x. destruct (error_N_FLT radix2 (-1074) 53 eq_refl (fun t => negb (Z.even t)) x) as (eps & eta & A & B & _ & E).
  assert (C : round radix2 (FLT_exp (-1074) 53) ZnearestE x = rnd x). { apply round_ext. intros z. reflexivity. }
  rewrite C in E. rewrite E. replace (x * (1 + eps) + eta - x) with (x * eps + eta) by ring.
  eapply Rle_trans; [apply Rabs_triang|]. apply Rplus_le_compat.
  - rewrite Rabs_mult, Rmult_comm. apply Rmult_le_compat_r; [apply Rabs_pos|]. eapply Rle_trans; [exact A|].
    change (- (53) + 1)%Z with (1 + -53)%Z. rewrite bpow_plus. change (bpow radix2 1) with 2. lra.
  - eapply Rle_trans; [exact B|]. change (-1074)%Z with (1 + -1075)%Z. rewrite bpow_plus. change (bpow radix2 1) with 2. lra.
Qed.
Lemma p10_neg : forall k, (0 <= k)%Z -> p10 (- k) = / IZR (10 ^ k).
Proof. intros k K. rewrite bpow_opp, p10_Z by exact K. reflexivity. Qed.
Lemma b2_neg : forall k, (0 <= k)%Z -> bpow radix2 (- k) = / IZR (2 ^ k).
Proof. intros k K. rewrite bpow_opp, <- (IZR_Zpower radix2) by exact K. reflexivity. Qed.
(** a relative error of a bit more than half a unit of the last digit *)
Lemma back_error : forall p x y, (p = 7 \/ p = 12)%Z -> back p x y -> Rabs (B2R y - B2R x) <= / 10 ^ 6 * (51 / 100) * p10 (7 - p) * Rabs (B2R x) + bpow radix2 (-1075).
Proof.
  intros p x y P (_ & V & _). rewrite V. set (v := B2R x). assert (A := dig_error p v ltac:(lia)). assert (B := rnd_error (dig p v)).
  set (d := dig p v) in *. set (q := bpow radix2 (-1075)) in *.
  assert (D : Rabs d <= 2 * Rabs v).
  { replace d with ((d - v) + v) by ring. eapply Rle_trans; [apply Rabs_triang|].
    assert (p10 (1 - p) <= 1). { change 1 with (p10 0). apply bpow_le. lia. }
    assert (0 < p10 (1 - p)) by apply bpow_gt_0. assert (0 <= Rabs v) by apply Rabs_pos. nra. }
  replace (rnd d - v) with ((rnd d - d) + (d - v)) by ring. eapply Rle_trans; [apply Rabs_triang|].
  assert (0 <= Rabs v) by apply Rabs_pos.
  assert (X : bpow radix2 (-53) * 2 + / 2 * p10 (1 - p) <= / 10 ^ 6 * (51 / 100) * p10 (7 - p)).
  { change (-53)%Z with (- (53))%Z. rewrite b2_neg by lia. change (2 ^ 53)%Z with 9007199254740992%Z.
    destruct P as [-> | ->].
    - change (1 - 7)%Z with (- (6))%Z. change (7 - 7)%Z with (- (0))%Z. rewrite !p10_neg by lia. change (10 ^ 6)%Z with 1000000%Z. change (10 ^ 0)%Z with 1%Z. lra.
    - change (1 - 12)%Z with (- (11))%Z. change (7 - 12)%Z with (- (5))%Z. rewrite !p10_neg by lia. change (10 ^ 11)%Z with 100000000000%Z. change (10 ^ 5)%Z with 100000%Z. lra. }
  assert (0 < bpow radix2 (-53)) by apply bpow_gt_0.
  apply Rle_trans with ((bpow radix2 (-53) * 2 + / 2 * p10 (1 - p)) * Rabs v + q); [|nra].
  assert (bpow radix2 (-53) * Rabs d <= bpow radix2 (-53) * (2 * Rabs v)) by (apply Rmult_le_compat_l; lra). lra.
Qed.
Lemma back_le : forall p x y x' y', (0 < p)%Z -> back p x y -> back p x' y' -> B2R x <= B2R x' -> B2R y <= B2R y'.
Proof. intros p x y x' y' P (_ & V & _) (_ & V' & _) H. rewrite V, V'. apply rnd_le, dig_le; auto. Qed.

(** ** Printed again *)
Lemma dig_again : forall v, bpow radix2 (-1000) <= v -> dig 7 (rnd (dig 7 v)) = dig 7 v.
Proof.
  intros v HV. set (d := dig 7 v).
  assert (VE : Valid_exp (flx 7)) by (apply FLX_exp_valid; reflexivity).
  assert (VP : 0 < v) by (assert (0 < bpow radix2 (-1000)) by apply bpow_gt_0; lra).
  assert (FD : generic_format ten (flx 7) d) by (apply generic_format_round; [exact VE|apply valid_rnd_N]).
  assert (A := dig_error 7 v eq_refl). fold d in A. rewrite (Rabs_pos_eq v) in A by lra.
  assert (E6 : p10 (1 - 7) = / 1000000) by (change (1 - 7)%Z with (- (6))%Z; rewrite p10_neg by lia; reflexivity).
  rewrite E6 in A. apply Rabs_le_inv in A. assert (DP : v / 2 < d) by lra.
  assert (B := rnd_error d). rewrite (Rabs_pos_eq d) in B by lra.
  assert (SM : bpow radix2 (-1075) <= bpow radix2 (-53) * d).
  { apply Rle_trans with (bpow radix2 (-53) * bpow radix2 (-1001)); [rewrite <- bpow_plus; apply bpow_le; lia|].
    apply Rmult_le_compat_l; [apply bpow_ge_0|]. change (-1000)%Z with (1 + -1001)%Z in HV. rewrite bpow_plus in HV. change (bpow radix2 1) with 2 in HV. lra. }
  assert (E53 : bpow radix2 (-53) = / 9007199254740992) by (change (-53)%Z with (- (53))%Z; rewrite b2_neg by lia; reflexivity).
  set (M := mag ten d : Z). assert (MD := bpow_mag_gt ten d). assert (ML := bpow_mag_le ten d ltac:(lra)). rewrite (Rabs_pos_eq d) in MD, ML by lra. fold M in MD, ML.
  assert (E7 : p10 (M - 7) = p10 M * / 10000000). { replace (M - 7)%Z with (M + - (7))%Z by lia. rewrite bpow_plus, p10_neg by lia. reflexivity. }
  assert (E1 : p10 (M - 1) = p10 M / 10). { replace (M - 1)%Z with (M + - (1))%Z by lia. rewrite bpow_plus, p10_neg by lia. reflexivity. }
  assert (E8 : p10 (M - 1 - 7) = p10 M * / 100000000). { replace (M - 1 - 7)%Z with (M + - (8))%Z by lia. rewrite bpow_plus, p10_neg by lia. reflexivity. }
  assert (PR : pred ten (flx 7) d <= d - d / 10000000).
  { rewrite pred_eq_pos by lra. unfold pred_pos. fold M. destruct (Req_bool_spec d (p10 (M - 1))) as [Q|Q].
    - unfold FLX_exp. rewrite E8. rewrite Q at 1 2. rewrite E1. lra.
    - rewrite ulp_neq_0 by lra. unfold cexp. fold M. unfold FLX_exp. rewrite E7. lra. }
  assert (SU : d + d / 10000000 <= succ ten (flx 7) d).
  { rewrite succ_eq_pos by lra. rewrite ulp_neq_0 by lra. unfold cexp. fold M. unfold FLX_exp. rewrite E7. lra. }
  rewrite E53 in B, SM. apply Rabs_le_inv in B. unfold dig. apply Rle_antisym.
  - apply round_N_le_midp; [exact VE|exact FD|]. lra.
  - apply round_N_ge_midp; [exact VE|exact FD|]. lra.
Qed.
Lemma sci_unique : forall n k n' k', (10 ^ 6 <= n < 10 ^ 7)%Z -> (10 ^ 6 <= n' < 10 ^ 7)%Z -> IZR n * p10 (k - 6) = IZR n' * p10 (k' - 6) -> n = n' /\ k = k'.
Proof.
  intros n k n' k' B B' E.
  assert (M : forall n k, (10 ^ 6 <= n < 10 ^ 7)%Z -> mag ten (IZR n * p10 (k - 6)) = (k + 1)%Z :> Z).
  { clear. intros n k B. apply mag_unique_pos. split.
    - replace (k + 1 - 1)%Z with (6 + (k - 6))%Z by lia. rewrite bpow_plus. apply Rmult_le_compat_r; [apply bpow_ge_0|]. rewrite p10_Z by lia. apply IZR_le. lia.
    - replace (k + 1)%Z with (7 + (k - 6))%Z by lia. rewrite bpow_plus. apply Rmult_lt_compat_r; [apply bpow_gt_0|]. rewrite p10_Z by lia. apply IZR_lt. lia. }
  assert (K : k = k'). { assert (X := M n k B). rewrite E, (M n' k' B') in X. lia. }
  subst k'. split; [|reflexivity]. apply eq_IZR. apply Rmult_eq_reg_r with (p10 (k - 6)); [exact E|]. assert (0 < p10 (k - 6)) by apply bpow_gt_0. lra.
Qed.
Lemma print_e_eq : forall x, finite x -> 0 < Rabs (B2R x) -> exists n k, print_e x = sci6 (Bsign x) n k /\ (10 ^ 6 <= n < 10 ^ 7)%Z /\ IZR n * p10 (k - 6) = dig 7 (Rabs (B2R x)).
Proof.
  intros [s|s| |s m e H] F P; try discriminate F.
  - cbn [B2R] in P. rewrite Rabs_R0 in P. lra.
  - cbn [print_e Bsign]. destruct (mant_exp 6 (numer m e) (denom e)) as [n k] eqn:E.
    destruct (mant_exp_ok 6 _ _ n k ltac:(lia) (numer_pos m e) (denom_pos e) E) as [V B]. exists n, k. split; [reflexivity|]. split; [exact B|].
    rewrite V, B2R_abs, <- numer_denom. reflexivity.
Qed.
Lemma print_e_again : forall x y, finite x -> B2R x = 0 \/ bpow radix2 (-1000) <= Rabs (B2R x) -> back 7 x y -> print_e y = print_e x.
Proof.
  intros x y F [Z|N] (FY & V & S).
  - rewrite Z, dig_0, round_0 in V by apply valid_rnd_N. destruct x as [s|s| |s m e H]; try discriminate F.
    + destruct y as [s'|s'| |s' m' e' H']; try discriminate FY; [cbn [Bsign] in S; subst; reflexivity|]. exfalso.
      assert (A := B2R_abs s' m' e' H'). rewrite V, Rabs_R0 in A. assert (0 < IZR (Zpos m') * bpow radix2 e') by (apply Rmult_lt_0_compat; [apply IZR_lt; reflexivity|apply bpow_gt_0]). lra.
    + exfalso. assert (A := B2R_abs s m e H). rewrite Z, Rabs_R0 in A. assert (0 < IZR (Zpos m) * bpow radix2 e) by (apply Rmult_lt_0_compat; [apply IZR_lt; reflexivity|apply bpow_gt_0]). lra.
  - assert (P := bpow_gt_0 radix2 (-1000)).
    assert (AV : Rabs (B2R y) = rnd (dig 7 (Rabs (B2R x)))).
    { rewrite V, <- (signed_dig 7 x F). assert (0 <= rnd (dig 7 (Rabs (B2R x)))) by (apply rnd_nonneg, dig_nonneg; [reflexivity|apply Rabs_pos]).
      unfold signed. destruct (Bsign x); [rewrite Rabs_Ropp|]; apply Rabs_pos_eq; auto. }
    destruct (print_e_eq x F) as (n & k & E & B & W); [lra|].
    assert (DA : dig 7 (Rabs (B2R y)) = dig 7 (Rabs (B2R x))) by (rewrite AV; apply dig_again; exact N).
    assert (NP : 0 < IZR n) by (apply IZR_lt; assert (0 < 10 ^ 6)%Z by reflexivity; lia). assert (KP : 0 < p10 (k - 6)) by apply bpow_gt_0.
    destruct (print_e_eq y FY) as (n' & k' & E' & B' & W').
    { destruct (Rabs_pos (B2R y)) as [Q|Q]; [exact Q|]. exfalso. rewrite <- Q, dig_0 in DA. rewrite <- DA in W. assert (0 < IZR n * p10 (k - 6)) by (apply Rmult_lt_0_compat; auto). lra. }
    rewrite DA, <- W in W'. destruct (sci_unique _ _ _ _ B' B W') as [-> ->]. rewrite E, E', S. reflexivity.
Qed.

(** ** Lengths *)
Lemma print_d_len : forall n j, (0 <= n < 10 ^ Z.of_nat j)%Z -> (1 <= j)%nat -> (length (print_d n) <= j)%nat.
Proof.
  intros n j B J. destruct (Z.eq_dec n 0) as [->|N]; [exact J|]. destruct (ndigits_ok n ltac:(lia)) as [[B1 B2] B3]. unfold ndigits in *.
  assert (X : (Z.of_nat (length (print_d n)) - 1 < Z.of_nat j)%Z) by (apply (Z.pow_lt_mono_r_iff 10); lia). lia.
Qed.
Lemma pad_len : forall k n acc, length (pad k n acc) = (k + length acc)%nat.
Proof. induction k as [|k IH]; intros n acc; [reflexivity|]. cbn [pad]. rewrite IH. cbn [length]. lia. Qed.
Lemma strip_len : forall w, (length (strip0 w) <= length w)%nat.
Proof. intros w. destruct (strip0_ok w) as (j & E). rewrite E at 2. rewrite app_length. lia. Qed.
Lemma fraction_len : forall w, (length (fraction w) <= S (length w))%nat.
Proof. intros w. unfold fraction. assert (H := strip_len w). destruct (strip0 w); cbn [length] in *; lia. Qed.
Lemma minus_len : forall s, (length (minus s) <= 1)%nat. Proof. intros []; cbn; lia. Qed.
Lemma order_range : forall (s : bool) m e (H : SpecFloat.bounded 53 1024 m e = true), (-400 <= order (numer m e) (denom e) <= 400)%Z.
Proof.
  intros s m e H. destruct (order_ok _ _ (numer_pos m e) (denom_pos e)) as [O1 O2]. rewrite numer_denom in O1, O2.
  set (x := @B754_finite 53 1024 s m e H). assert (U := abs_B2R_lt_emax 53 1024 x). assert (L := abs_B2R_ge_emin 53 1024 x eq_refl).
  unfold x in U, L. rewrite B2R_abs in U, L. set (v := IZR (Zpos m) * bpow radix2 e) in *. set (o := order (numer m e) (denom e)) in *. split.
  - assert (X : p10 (-400) < p10 (o + 1)).
    { apply Rlt_trans with (bpow radix2 (SpecFloat.emin 53 1024)); [|lra]. change (SpecFloat.emin 53 1024) with (- (1074))%Z. change (-400)%Z with (- (400))%Z.
      rewrite p10_neg, b2_neg by lia. apply Rinv_lt_contravar.
      - apply Rmult_lt_0_compat; apply IZR_lt; reflexivity.
      - apply IZR_lt. vm_compute. reflexivity. }
    apply lt_bpow in X. lia.
  - assert (X : p10 o < p10 401).
    { apply Rle_lt_trans with v; [exact O1|]. apply Rlt_trans with (bpow radix2 1024); [exact U|]. rewrite p10_Z by lia. rewrite <- (IZR_Zpower radix2) by lia.
      apply IZR_lt. vm_compute. reflexivity. }
    apply lt_bpow in X. lia.
Qed.
Lemma mant_exp_range : forall p (s : bool) m e (H : SpecFloat.bounded 53 1024 m e = true) n k, mant_exp p (numer m e) (denom e) = (n, k) -> (-400 <= k <= 401)%Z.
Proof. intros p s m e H n k E. assert (O := order_range s m e H). unfold mant_exp in E. destruct (_ =? _)%Z; injection E as _ <-; lia. Qed.
Lemma tail_len : forall k, (-400 <= k <= 401)%Z -> (length (tail_exp k) <= 5)%nat.
Proof.
  intros k B. unfold tail_exp. cbn [length]. assert (length (two_digits (Z.abs k)) <= 3)%nat; [|lia].
  unfold two_digits. destruct (Z.ltb_spec (Z.abs k) 10); [rewrite pad_len; cbn; lia|]. apply print_d_len; [change (10 ^ Z.of_nat 3)%Z with 1000%Z|]; lia.
Qed.
Lemma gen12_len : forall s n k, (0 <= n < 10 ^ 12)%Z -> (-400 <= k <= 401)%Z -> (length (gen12 s n k) <= 40)%nat.
Proof.
  intros s n k B K. unfold gen12. assert (MS := minus_len s). destruct ((-4 <=? k) && (k <? 12))%Z eqn:E.
  - apply andb_true_iff in E as [E1 E2]. apply Z.leb_le in E1. apply Z.ltb_lt in E2. rewrite !app_length.
    assert (F := fraction_len (pad (Z.to_nat (11 - k)) n [])). rewrite pad_len in F. cbn [length] in F.
    assert (T : (0 < 10 ^ (11 - k))%Z) by (apply Z.pow_pos_nonneg; lia).
    assert (length (print_d (n / 10 ^ (11 - k))) <= 12)%nat; [|lia]. apply print_d_len; [|lia]. split; [apply Z.div_pos; lia|].
    apply Z.div_lt_upper_bound; [exact T|]. change (Z.of_nat 12) with 12%Z. assert (0 < 10 ^ 12)%Z by reflexivity. nia.
  - rewrite app_length. cbn [length]. rewrite app_length. assert (F := fraction_len (pad 11 n [])). rewrite pad_len in F. cbn [length] in F. assert (T := tail_len k K). lia.
Qed.
Lemma print_g_len : forall x, finite x -> (length (print_g x) <= 40)%nat.
Proof.
  intros [s|s| |s m e H] F; try discriminate F; cbn [print_g].
  - apply gen12_len; lia.
  - destruct (mant_exp 11 (numer m e) (denom e)) as [n k] eqn:E.
    destruct (mant_exp_ok 11 _ _ n k ltac:(lia) (numer_pos m e) (denom_pos e) E) as [_ B]. assert (0 < 10 ^ 11)%Z by reflexivity.
    apply gen12_len; [change (10 ^ (11 + 1))%Z with (10 ^ 12)%Z in B; lia|]. exact (mant_exp_range 11 s m e H n k E).
Qed.
Lemma print_e_len : forall x, finite x -> (length (print_e x) <= 20)%nat.
Proof.
  assert (G : forall s n k, (-400 <= k <= 401)%Z -> (length (sci6 s n k) <= 20)%nat).
  { intros s n k K. unfold sci6. rewrite app_length. cbn [length]. rewrite app_length, pad_len. cbn [length]. assert (T := tail_len k K). assert (MS := minus_len s). lia. }
  intros [s|s| |s m e H] F; try discriminate F; cbn [print_e].
  - apply G. lia.
  - destruct (mant_exp 6 (numer m e) (denom e)) as [n k] eqn:E. apply G. exact (mant_exp_range 6 s m e H n k E).
Qed.
Lemma print_f_len : forall x, finite x -> Rabs (B2R x) <= 1 -> (length (print_f x) <= 9)%nat.
Proof.
  intros x F B. rewrite print_f_eq by exact F. unfold fixed6. rewrite app_length, app_length. cbn [length]. rewrite pad_len. cbn [length].
  assert (MS := minus_len (Bsign x)). assert (MN := micro_nonneg x).
  assert (MB : (micro x <= 10 ^ 6)%Z).
  { unfold micro. rewrite <- (@Zrnd_IZR ZnearestE (valid_rnd_N _) (10 ^ 6)). apply (@Zrnd_le ZnearestE (valid_rnd_N _)). rewrite ten6. lra. }
  assert (length (print_d (micro x / 10 ^ 6)) <= 1)%nat; [|lia]. apply print_d_len; [|lia]. split; [apply Z.div_pos; lia|]. apply Z.div_lt_upper_bound; [lia|].
  change (Z.of_nat 1) with 1%Z. lia.
Qed.
