(** C99: codes of doubles, and what an untouched row does to a parameter. *)
From Coq Require Import Reals ZArith List Bool Lia Lra Psatz.
From Flocq Require Import Core BinarySingleNaN.
From Verif Require Import CPrelude DampModel StepModel.
Open Scope Z_scope.

Definition mag (a : Z) : R :=
  if a / 2 ^ 52 =? 0 then (IZR (a mod 2 ^ 52) * bpow radix2 (-1074))%R
  else (IZR (2 ^ 52 + a mod 2 ^ 52) * bpow radix2 (a / 2 ^ 52 - 1075))%R.
Definition dv (z : Z) : R := if z <? 0 then (- mag (- z))%R else mag z.

Lemma top : 2047 * 2 ^ 52 = DBL_MAX + 1.
Proof. reflexivity. Qed.
Lemma parts_of a : 0 <= a -> a = 2 ^ 52 * (a / 2 ^ 52) + a mod 2 ^ 52 /\ 0 <= a mod 2 ^ 52 < 2 ^ 52 /\ 0 <= a / 2 ^ 52.
Proof.
  intros H. split; [apply Z.div_mod; discriminate|]. split; [apply Z.mod_pos_bound; reflexivity|]. apply Z.div_pos; [exact H|reflexivity].
Qed.
Lemma bp e k : 0 <= k -> bpow radix2 (e + k) = (IZR (2 ^ k) * bpow radix2 e)%R.
Proof. intros H. rewrite bpow_plus, Rmult_comm. f_equal. symmetry. apply (IZR_Zpower radix2 k H). Qed.

(** below exponent e + 1 and, unless the exponent is 0, not below exponent e *)
Lemma mag_bounds a : 0 <= a -> (0 <= mag a < bpow radix2 (a / 2 ^ 52 - 1022))%R /\
  (0 < a / 2 ^ 52 -> (bpow radix2 (a / 2 ^ 52 - 1023) <= mag a)%R).
Proof.
  intros H. destruct (parts_of a H) as (E & M & D). unfold mag.
  generalize dependent (a / 2 ^ 52). generalize dependent (a mod 2 ^ 52). intros m M e E De. clear E H a.
  assert (IM : (0 <= IZR m < IZR (2 ^ 52))%R) by (split; [apply IZR_le|apply IZR_lt]; lia).
  destruct (e =? 0) eqn:E0; [apply Z.eqb_eq in E0|apply Z.eqb_neq in E0].
  - subst e. split; [|lia]. change (0 - 1022) with (-1074 + 52). rewrite (bp (-1074) 52) by lia.
    pose proof (bpow_gt_0 radix2 (-1074)).
    split; [apply Rmult_le_pos; lra|]. apply Rmult_lt_compat_r; lra.
  - rewrite plus_IZR. pose proof (bpow_gt_0 radix2 (e - 1075)) as Hb.
    assert (T : IZR (2 ^ 53) = (IZR (2 ^ 52) + IZR (2 ^ 52))%R) by (rewrite <- plus_IZR; reflexivity).
    split; [split|].
    + apply Rmult_le_pos; lra.
    + replace (e - 1022) with (e - 1075 + 53) by lia. rewrite (bp (e - 1075) 53) by lia. apply Rmult_lt_compat_r; lra.
    + intros _. replace (e - 1023) with (e - 1075 + 52) by lia. rewrite (bp (e - 1075) 52) by lia. apply Rmult_le_compat_r; lra.
Qed.
Lemma mag_mono a b : 0 <= a -> a < b -> (mag a < mag b)%R.
Proof.
  intros Ha Hab. assert (Hb : 0 <= b) by lia.
  destruct (parts_of a Ha) as (Ea & Ma & Da). destruct (parts_of b Hb) as (Eb & Mb & Db).
  destruct (Z.eq_dec (a / 2 ^ 52) (b / 2 ^ 52)) as [E|E].
  - unfold mag. rewrite <- E in *. assert (a mod 2 ^ 52 < b mod 2 ^ 52) by lia.
    destruct (a / 2 ^ 52 =? 0); (apply Rmult_lt_compat_r; [apply bpow_gt_0|apply IZR_lt; lia]).
  - assert (L : a / 2 ^ 52 < b / 2 ^ 52) by (pose proof (Z.div_le_mono a b (2 ^ 52) ltac:(reflexivity) ltac:(lia)); lia).
    destruct (mag_bounds a Ha) as [[_ U] _]. destruct (mag_bounds b Hb) as [_ Lo]. 
    specialize (Lo (Z.le_lt_trans _ _ _ Da L)).
    eapply Rlt_le_trans; [exact U|]. eapply Rle_trans; [|exact Lo]. apply bpow_le. clear -L Da.
    generalize dependent (a / 2 ^ 52). generalize (b / 2 ^ 52). intros. lia.
Qed.
Lemma mag_0 : mag 0 = 0%R.
Proof. unfold mag. change (0 / 2 ^ 52 =? 0) with true. cbv iota. change (0 mod 2 ^ 52) with 0. lra. Qed.
Lemma dv_mono a b : a < b -> (dv a < dv b)%R.
Proof.
  intros H. unfold dv. destruct (a <? 0) eqn:A; destruct (b <? 0) eqn:B; rewrite ?Z.ltb_lt, ?Z.ltb_ge in *; try lia.
  - apply Ropp_lt_contravar. apply mag_mono; lia.
  - assert (P : (mag 0 < mag (- a))%R) by (apply mag_mono; lia). rewrite mag_0 in P. destruct (mag_bounds b B) as [[P' _] _]. lra.
  - apply mag_mono; lia.
Qed.
Lemma dv_le a b : a <= b -> (dv a <= dv b)%R.
Proof. intros H. destruct (Z.eq_dec a b) as [->|N]; [apply Rle_refl|]. apply Rlt_le, dv_mono. lia. Qed.

Lemma normal_ok m e : Z.abs m < 2 ^ 53 -> -1074 <= e -> (Rabs (F2R (Float radix2 m e)) < bpow radix2 1024)%R ->
  let r := binary_normalize 53 1024 prec64 emax64 mode_NE m e false in B2R r = (IZR m * bpow radix2 e)%R /\ is_finite r = true.
Proof.
  intros Hm He Hb r. pose proof (binary_normalize_correct 53 1024 prec64 emax64 mode_NE m e false) as C. cbv zeta in C.
  assert (G : generic_format radix2 (SpecFloat.fexp 53 1024) (F2R (Float radix2 m e))).
  { change (SpecFloat.fexp 53 1024) with (FLT_exp (-1074) 53). apply generic_format_FLT.
    exists (Float radix2 m e); [reflexivity|exact Hm|exact He]. }
  rewrite round_generic in C; [|apply valid_rnd_round_mode|exact G]. rewrite Rlt_bool_true in C by exact Hb.
  destruct C as (C1 & C2 & _). split; [exact C1|exact C2].
Qed.

Lemma mag_top a : 0 <= a <= DBL_MAX -> (mag a < bpow radix2 1024)%R.
Proof.
  intros H. destruct (mag_bounds a) as [[_ U] _]; [lia|]. eapply Rlt_le_trans; [exact U|]. apply bpow_le.
  assert (a / 2 ^ 52 < 2047) by (apply Z.div_lt_upper_bound; [reflexivity|]; rewrite Z.mul_comm, top; lia). lia.
Qed.
Lemma decode_ok z : - DBL_MAX <= z <= DBL_MAX -> B2R (decode (Val z)) = dv z /\ is_finite (decode (Val z)) = true.
Proof.
  intros H. assert (Ha : 0 <= Z.abs z <= DBL_MAX) by lia. pose proof (mag_top _ Ha) as T.
  destruct (mag_bounds (Z.abs z)) as [[P _] _]; [lia|].
  destruct (parts_of (Z.abs z)) as (E & M & D); [lia|].
  assert (De : Z.abs z / 2 ^ 52 < 2047) by (apply Z.div_lt_upper_bound; [reflexivity|]; rewrite Z.mul_comm, top; lia).
  unfold decode. cbv zeta. rewrite (proj2 (Z.leb_gt 2047 _) De).
  set (r := if Z.abs z / 2 ^ 52 =? 0 then _ else _).
  assert (R : B2R r = mag (Z.abs z) /\ is_finite r = true).
  { unfold r. unfold mag in *. clear r. destruct (Z.abs z / 2 ^ 52 =? 0) eqn:E0; [|apply Z.eqb_neq in E0].
    - apply normal_ok; [lia|lia|]. unfold F2R. cbn [Fnum Fexp]. rewrite Rabs_pos_eq by exact P. exact T.
    - apply normal_ok; [lia|lia|]. unfold F2R. cbn [Fnum Fexp]. rewrite Rabs_pos_eq by exact P. exact T. }
  clearbody r. destruct R as [R1 R2]. unfold dv. destruct (z <? 0) eqn:Ez; rewrite ?Z.ltb_lt, ?Z.ltb_ge in Ez.
  - rewrite B2R_Bopp, is_finite_Bopp, R1. rewrite Z.abs_neq by lia. auto.
  - rewrite R1, Z.abs_eq by lia. auto.
Qed.

(** the difference of two codes in a range, rounded *)
Lemma width_ok a b : - DBL_MAX <= a <= DBL_MAX -> - DBL_MAX <= b <= DBL_MAX ->
  (Rabs (round radix2 (FLT_exp (-1074) 53) ZnearestE (dv b - dv a)) < bpow radix2 1024)%R ->
  B2R (width64 (decode (Val a), decode (Val b))) = round radix2 (FLT_exp (-1074) 53) ZnearestE (dv b - dv a) /\
  is_finite (width64 (decode (Val a), decode (Val b))) = true.
Proof.
  intros Ha Hb H. destruct (decode_ok a Ha) as [A1 A2]. destruct (decode_ok b Hb) as [B1 B2].
  unfold width64. cbn [fst snd]. pose proof (Bminus_correct 53 1024 prec64 emax64 mode_NE _ _ B2 A2) as C.
  rewrite A1, B1 in C. change (SpecFloat.fexp 53 1024) with (FLT_exp (-1074) 53) in C. change (round_mode mode_NE) with ZnearestE in C.
  rewrite Rlt_bool_true in C by exact H. destruct C as (C1 & C2 & _). split; [exact C1|exact C2].
Qed.

(** infinite widths *)
Lemma untouched_width : width64 (decode (Val DBL_MAX), decode (Val (- DBL_MAX))) = B754_infinity true.
Proof. vm_compute. reflexivity. Qed.
Definition lost (x : b64) : Prop := x = B754_nan \/ exists s, x = B754_infinity s.
Lemma lost_mul h : lost (fmul h (B754_infinity true)).
Proof. destruct h as [s|s| |s m e H]; cbn; unfold lost; eauto. Qed.
Lemma lost_add x y : lost y -> lost (fadd x y).
Proof. intros [->|[s ->]]; destruct x as [s'|s'| |s' m e H]; cbn; unfold lost; eauto; destruct s, s'; cbn; eauto. Qed.
Lemma lost_sub x y : lost x -> lost (fsub x y).
Proof. intros [->|[s ->]]; destruct y as [s'|s'| |s' m e H]; cbn; unfold lost; eauto; destruct s, s'; cbn; eauto. Qed.
Lemma lost_mod y x : lost y -> Bltb zero x = true -> mod64 y x = Ok B754_nan.
Proof.
  intros H Hx. unfold mod64. rewrite Hx. f_equal. destruct H as [->|[s ->]].
  - destruct x as [s'|s'| |s' m e Hb]; reflexivity.
  - destruct x as [s'|s'| |s' m e Hb]; try reflexivity; try discriminate. destruct s, s'; reflexivity.
Qed.
Lemma untouched_move x h min max : Bltb zero (fsub max min) = true ->
  move64 x h (B754_infinity true) min max = Ok B754_nan.
Proof.
  intros H. unfold move64, wrap64. rewrite (lost_mod (fsub (fadd x (fmul h (B754_infinity true))) min)); [|apply lost_sub, lost_add, lost_mul|exact H].
  cbn [bind]. destruct min; reflexivity.
Qed.
