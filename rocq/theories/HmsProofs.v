(** Elapsed time in IEEE double arithmetic: rounding never changes the result. *)
From Coq Require Import Reals ZArith Lia Lra.
From Flocq Require Import Core Sterbenz.
From Verif Require Import CPrelude SmallModel.
Open Scope R_scope.

Definition fexp := FLT_exp (-1074) 53.
Definition double (x : R) : Prop := generic_format radix2 fexp x.
Definition rnd64 (x : R) : R := round radix2 fexp ZnearestE x.

Global Instance fexp_valid : Valid_exp fexp.
Proof. unfold fexp. apply FLT_exp_valid. reflexivity. Qed.
Lemma double_dyadic : forall m e, (Z.abs m < 2 ^ 53)%Z -> (-1074 <= e)%Z -> double (IZR m * bpow radix2 e).
Proof.
  intros m e M E. apply generic_format_FLT. exists (Float radix2 m e); [reflexivity|exact M|exact E].
Qed.
Lemma double_int : forall m, (Z.abs m < 2 ^ 53)%Z -> double (IZR m).
Proof. intros m M. replace (IZR m) with (IZR m * bpow radix2 0) by (simpl; ring). apply double_dyadic; [exact M|lia]. Qed.
Lemma rnd_mono : forall x y, x <= y -> rnd64 x <= rnd64 y.
Proof. intros. apply round_le; [apply fexp_valid|apply valid_rnd_N|auto]. Qed.
Lemma rnd_id : forall x, double x -> rnd64 x = x.
Proof. intros x H. apply round_generic; [apply valid_rnd_N|exact H]. Qed.
Lemma rnd_near : forall x g, double g -> Rabs (rnd64 x - x) <= Rabs (g - x).
Proof. intros x g H. apply (round_N_pt radix2 fexp (fun z => negb (Z.even z)) x). exact H. Qed.

(** A double of size at least 2^p is a multiple of 2^(p-52). *)
Lemma double_multiple : forall x p, double x -> bpow radix2 p <= x -> (-1022 <= p)%Z -> exists m, x = IZR m * bpow radix2 (p - 52).
Proof.
  intros x p D H P. unfold double, generic_format in D. unfold F2R in D. cbn [Fnum Fexp] in D.
  assert (H0 : 0 < bpow radix2 p) by apply bpow_gt_0.
  assert (M : (p + 1 <= mag radix2 x)%Z). { apply mag_ge_bpow. replace (p + 1 - 1)%Z with p by lia. rewrite Rabs_pos_eq; lra. }
  set (c := cexp radix2 fexp x) in *. assert (C : (p - 52 <= c)%Z). { unfold c, cexp, fexp, FLT_exp. lia. }
  exists (Ztrunc (scaled_mantissa radix2 fexp x) * 2 ^ (c - (p - 52)))%Z. rewrite mult_IZR.
  rewrite (IZR_Zpower radix2) by lia. rewrite Rmult_assoc, <- bpow_plus. replace (c - (p - 52) + (p - 52))%Z with c by lia. exact D.
Qed.

(** Dividing by c (2^q < c, c < 2^(q+1) - small) and truncating is exact. *)
Lemma floor_div : forall x c q, double x -> 0 <= x -> (0 <= q <= 20)%Z -> (2 ^ q + 1 <= c < 2 ^ (q + 1))%Z ->
  x < IZR c * bpow radix2 21 -> Zfloor (rnd64 (x / IZR c)) = Zfloor (x / IZR c).
Proof.
  intros x c q D X Q C B.
  assert (Q1 : (1 <= 2 ^ q)%Z) by (change 1%Z with (2 ^ 0)%Z; apply Z.pow_le_mono_r; lia).
  assert (CP : 0 < IZR c) by (apply IZR_lt; lia).
  set (v := x / IZR c). assert (V0 : 0 <= v) by (apply Rmult_le_pos; [auto|apply Rlt_le, Rinv_0_lt_compat; auto]).
  assert (XV : x = v * IZR c) by (unfold v; field; lra).
  assert (VB : v < bpow radix2 21). { apply Rmult_lt_reg_r with (IZR c); auto. rewrite <- XV. lra. }
  set (n := Zfloor v). assert (N1 : IZR n <= v) by apply Zfloor_lb. assert (N2 : v < IZR n + 1) by apply Zfloor_ub.
  assert (N0 : (0 <= n)%Z) by (apply Zfloor_lub; exact V0).
  assert (NB : (n < 2 ^ 21)%Z). { apply lt_IZR. apply Rle_lt_trans with v; [exact N1|exact VB]. }
  apply Zfloor_imp. rewrite plus_IZR. split.
  - rewrite <- (rnd_id (IZR n)) by (apply double_int; lia). apply rnd_mono. exact N1.
  - set (k := (n + 1)%Z). assert (K : IZR k = IZR n + 1) by (unfold k; rewrite plus_IZR; reflexivity). 
    change (IZR n + 1) with (IZR n + IZR 1). rewrite <- plus_IZR. fold k.
    (* 2^f <= k < 2^(f+1) *)
    set (f := Z.log2 k). assert (F : (2 ^ f <= k < 2 ^ (f + 1))%Z) by (apply Z.log2_spec; unfold k; lia).
    assert (F0 : (0 <= f)%Z) by apply Z.log2_nonneg.
    assert (FB : (f <= 21)%Z). { unfold f. change 21%Z with (Z.log2 (2 ^ 21)). apply Z.log2_le_mono. unfold k. lia. }
    set (u := bpow radix2 (f - 52)). assert (U0 : 0 < u) by apply bpow_gt_0.
    assert (P2 : bpow radix2 (f + q) = IZR (2 ^ f * 2 ^ q)). { rewrite <- Z.pow_add_r by lia. symmetry. apply (IZR_Zpower radix2). lia. }
    (* x <= c k - 2^(f+q-52) *)
    set (w := bpow radix2 (f + q - 52)). assert (W0 : 0 < w) by apply bpow_gt_0.
    assert (WU : w = bpow radix2 q * u). { unfold w, u. rewrite <- bpow_plus. f_equal. lia. }
    assert (XU : x <= IZR c * IZR k - w).
    { destruct (Rle_lt_dec x (IZR c * IZR k - w)) as [|G]; auto. exfalso.
      assert (W1 : w <= 1). { unfold w. change 1 with (bpow radix2 0). apply bpow_le. lia. }
      assert (CK : IZR (2 ^ f * 2 ^ q) + 1 <= IZR c * IZR k). { rewrite <- mult_IZR. change 1 with (IZR 1). rewrite <- plus_IZR. apply IZR_le. nia. }
      destruct (double_multiple x (f + q) D) as [m E]; [rewrite P2; lra|lia|]. fold w in E.
      (* ck is a multiple of w as well *)
      set (t := (52 - (f + q))%Z). assert (TW : IZR (2 ^ t) * w = 1).
      { change (IZR (2 ^ t)) with (IZR (Zpower radix2 t)). rewrite IZR_Zpower by (unfold t; lia). unfold w. rewrite <- bpow_plus. unfold t. replace (52 - (f + q) + (f + q - 52))%Z with 0%Z by lia. reflexivity. }
      assert (CM : IZR c * IZR k = IZR (c * k * 2 ^ t) * w). { rewrite 2!mult_IZR. rewrite Rmult_assoc, TW. ring. }
      assert (LT : x < IZR c * IZR k). { rewrite XV, (Rmult_comm (IZR c)). apply Rmult_lt_compat_r; auto. rewrite K. exact N2. }
      rewrite CM, E in LT, G. apply Rmult_lt_reg_r in LT; auto. apply lt_IZR in LT.
      assert (IZR m <= IZR (c * k * 2 ^ t) - 1). { rewrite <- minus_IZR. apply IZR_le. lia. }
      assert (IZR m * w <= (IZR (c * k * 2 ^ t) - 1) * w) by (apply Rmult_le_compat_r; lra). lra. }
    (* v is further from k than half of u *)
    assert (VK : v < IZR k - u / 2).
    { apply Rmult_lt_reg_r with (IZR c); auto. rewrite <- XV. apply Rle_lt_trans with (1 := XU).
      rewrite WU. rewrite Rmult_minus_distr_r. assert (IZR c / 2 < bpow radix2 q).
      { assert (IZR c < 2 * bpow radix2 q).
        { rewrite <- (IZR_Zpower radix2 q) by lia. change 2 with (IZR 2). rewrite <- mult_IZR. apply IZR_lt.
          change (Zpower radix2 q) with (2 ^ q)%Z. replace (2 * 2 ^ q)%Z with (2 ^ (q + 1))%Z; [lia|]. rewrite Z.pow_add_r by lia. lia. } lra. }
      assert (IZR c / 2 * u < bpow radix2 q * u) by (apply Rmult_lt_compat_r; auto). lra. }
    (* the double k - u *)
    assert (G : double (IZR k - u)).
    { assert (TU : IZR (2 ^ (52 - f)) * u = 1).
      { change (2 ^ (52 - f))%Z with (Zpower radix2 (52 - f)). rewrite IZR_Zpower by lia. unfold u. rewrite <- bpow_plus. replace (52 - f + (f - 52))%Z with 0%Z by lia. reflexivity. }
      replace (IZR k - u) with (IZR (k * 2 ^ (52 - f) - 1) * u).
      2: { rewrite minus_IZR, mult_IZR. replace ((IZR k * IZR (2 ^ (52 - f)) - 1) * u) with (IZR k * (IZR (2 ^ (52 - f)) * u) - u) by ring. rewrite TU. ring. }
      apply double_dyadic; [|lia].
      assert (2 ^ 53 = 2 ^ (f + 1) * 2 ^ (52 - f))%Z by (rewrite <- Z.pow_add_r by lia; f_equal; lia).
      assert (0 < 2 ^ (52 - f))%Z by (apply Z.pow_pos_nonneg; lia).
      assert (1 <= k)%Z by (unfold k; lia). rewrite Z.abs_eq by nia. nia. }
    destruct (Rle_lt_dec (IZR k) (rnd64 v)) as [BAD|]; [|assumption]. exfalso.
    destruct (Rle_lt_dec v (IZR k - u)) as [L|L].
    + apply rnd_mono in L. rewrite (rnd_id _ G) in L. lra.
    + assert (R := rnd_near v (IZR k - u) G). rewrite (Rabs_pos_eq (rnd64 v - v)) in R by lra. rewrite (Rabs_left (IZR k - u - v)) in R by lra. lra.
Qed.
(** Subtracting the whole part is exact. *)
Lemma sub_exact : forall x c n, double x -> 0 <= x -> (1 <= c)%Z -> n = Zfloor (x / IZR c) -> (c * n < 2 ^ 53)%Z -> (0 <= n)%Z ->
  double (x - IZR (c * n)) /\ 0 <= x - IZR (c * n) < IZR c.
Proof.
  intros x c n D X C E B N0. assert (CP : 0 < IZR c) by (apply IZR_lt; lia).
  assert (N1 : IZR n <= x / IZR c) by (subst; apply Zfloor_lb). assert (N2 : x / IZR c < IZR n + 1) by (subst; apply Zfloor_ub).
  assert (XV : x = x / IZR c * IZR c) by (field; lra). rewrite mult_IZR.
  assert (L1 : IZR c * IZR n <= x). { rewrite XV, (Rmult_comm (IZR c)). apply Rmult_le_compat_r; lra. }
  assert (L2 : x < IZR c * IZR n + IZR c). { rewrite XV at 1. apply Rlt_le_trans with ((IZR n + 1) * IZR c); [apply Rmult_lt_compat_r; auto|right; ring]. }
  split; [|lra]. rewrite <- mult_IZR. destruct (Z.eq_dec n 0) as [->|NZ].
  - rewrite Z.mul_0_r. replace (x - 0) with x by ring. exact D.
  - apply sterbenz; [apply fexp_valid|apply FLT_exp_monotone|exact D|apply double_int; nia|].
    assert (1 <= IZR n) by (apply (IZR_le 1); lia). rewrite mult_IZR. assert (IZR c * 1 <= IZR c * IZR n) by (apply Rmult_le_compat_l; lra). lra.
Qed.

Lemma get_hms_ok : forall dt, double dt -> 0 <= dt < 2147486400 ->
  exists h m s, get_hms rnd64 dt = Ok (h, m, s) /\ dt = IZR (3600 * h + 60 * m) + s /\ (0 <= h)%Z /\ (0 <= m < 60)%Z /\ 0 <= s < 60.
Proof.
  intros dt D [B0 B1].
  assert (F1 : Zfloor (rnd64 (dt / 3600)) = Zfloor (dt / 3600)).
  { apply (floor_div dt 3600 11 D B0); [lia|lia|]. simpl. lra. }
  set (h := Zfloor (dt / 3600)) in *.
  assert (H1 : IZR h <= dt / 3600) by apply Zfloor_lb. assert (H2 : dt / 3600 < IZR h + 1) by apply Zfloor_ub.
  assert (H0 : (0 <= h)%Z). { apply Zfloor_lub. apply Rmult_le_pos; [exact B0|]. apply Rlt_le, Rinv_0_lt_compat. lra. }
  assert (HB : (h < 596524)%Z). { apply lt_IZR. lra. }
  destruct (sub_exact dt 3600 h D B0 ltac:(lia) eq_refl ltac:(lia) H0) as [D1 R1]. set (r := dt - IZR (3600 * h)) in *.
  assert (F2 : Zfloor (rnd64 (r / 60)) = Zfloor (r / 60)).
  { apply (floor_div r 60 5 D1); [lra|lia|lia|]. simpl. lra. }
  set (m := Zfloor (r / 60)) in *.
  assert (M1 : IZR m <= r / 60) by apply Zfloor_lb. assert (M2 : r / 60 < IZR m + 1) by apply Zfloor_ub.
  assert (M0 : (0 <= m)%Z). { apply Zfloor_lub. apply Rmult_le_pos; [lra|]. apply Rlt_le, Rinv_0_lt_compat. lra. }
  assert (MB : (m < 60)%Z). { apply lt_IZR. lra. }
  destruct (sub_exact r 60 m D1 ltac:(lra) ltac:(lia) eq_refl ltac:(lia) M0) as [D2 R2]. 
  exists h, m, (r - IZR (60 * m)). split.
  - unfold get_hms, to_int, mul_int, int_ok. rewrite F1.
    destruct (Z.leb_spec (- 2 ^ 31) h), (Z.ltb_spec h (2 ^ 31)); try lia. cbn [andb bind].
    destruct (Z.leb_spec (- 2 ^ 31) (h * 3600)), (Z.ltb_spec (h * 3600) (2 ^ 31)); try lia. cbn [andb bind].
    rewrite (Z.mul_comm h 3600). fold r. rewrite (rnd_id r D1), F2.
    destruct (Z.leb_spec (- 2 ^ 31) m), (Z.ltb_spec m (2 ^ 31)); try lia. cbn [andb bind].
    destruct (Z.leb_spec (- 2 ^ 31) (m * 60)), (Z.ltb_spec (m * 60) (2 ^ 31)); try lia. cbn [andb bind].
    rewrite (Z.mul_comm m 60), (rnd_id _ D2). reflexivity.
  - split; [|repeat split; try lia; lra]. unfold r. rewrite plus_IZR. ring.
Qed.
Lemma get_hms_over : forall dt, double dt -> 2147486400 <= dt -> get_hms rnd64 dt = UB.
Proof.
  intros dt D B. unfold get_hms, to_int, mul_int, int_ok.
  set (h := Zfloor (rnd64 (dt / 3600))).
  assert (L : 596524 <= rnd64 (dt / 3600)). { rewrite <- (rnd_id 596524) by (apply (double_int 596524); lia). apply rnd_mono. lra. }
  assert (HL : (596524 <= h)%Z) by (apply Zfloor_lub; exact L).
  destruct ((- 2 ^ 31 <=? h)%Z && (h <? 2 ^ 31)%Z)%bool; [|reflexivity]. cbn [bind].
  destruct (Z.ltb_spec (h * 3600) (2 ^ 31)); [lia|]. rewrite Bool.andb_false_r. reflexivity.
Qed.
