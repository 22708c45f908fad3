(** C113: the progress bar. *)
From Coq Require Import Reals ZArith List Bool Ascii String Lia Lra.
From Flocq Require Import Core Relative.
From Verif Require Import CPrelude ScanProofs2 PropOpt OptModel BarModel.
Import ListNotations.
Open Scope Z_scope.

(** IEEE single precision, round to nearest. *)
Definition fexp32 := FLT_exp (-149) 24.
Definition single (x : R) : Prop := generic_format radix2 fexp32 x.
Definition rnd32 (x : R) : R := round radix2 fexp32 ZnearestE x.
Global Instance fexp32_valid : Valid_exp fexp32.
Proof. unfold fexp32. apply FLT_exp_valid. reflexivity. Qed.

Lemma single_dyadic m e : Z.abs m < 2 ^ 24 -> -149 <= e -> single (IZR m * bpow radix2 e).
Proof. intros M E. apply generic_format_FLT. exists (Float radix2 m e); [reflexivity|exact M|exact E]. Qed.
Lemma single_int m : Z.abs m < 2 ^ 24 -> single (IZR m).
Proof. intros M. replace (IZR m) with (IZR m * bpow radix2 0)%R by (simpl; ring). apply single_dyadic; [exact M|lia]. Qed.
Lemma mono32 x y : (x <= y -> rnd32 x <= rnd32 y)%R.
Proof. intros. apply round_le; [apply fexp32_valid|apply valid_rnd_N|auto]. Qed.
Lemma id32 x : single x -> rnd32 x = x.
Proof. intros H. apply round_generic; [apply valid_rnd_N|exact H]. Qed.
Lemma near32 x g : single g -> (Rabs (rnd32 x - x) <= Rabs (g - x))%R.
Proof. intros H. apply (round_N_pt radix2 fexp32 (fun z => negb (Z.even z)) x). exact H. Qed.
Lemma int32 m : Z.abs m < 2 ^ 24 -> rnd32 (IZR m) = IZR m.
Proof. intros H. apply id32, single_int, H. Qed.

(** The number of cells filled, before it is cut off at 50. *)
Definition fill (p t : Z) : Z := Ztrunc (rnd32 (rnd32 (rnd32 (IZR p) * 50) / rnd32 (IZR t))).

Lemma pos32 x : (0 <= x -> 0 <= rnd32 x)%R.
Proof. intros H. rewrite <- (int32 0) by (cbn; lia). apply mono32, H. Qed.
Lemma ge1_32 t : 1 <= t -> (1 <= rnd32 (IZR t))%R.
Proof. intros H. rewrite <- (int32 1) by (cbn; lia). apply mono32. apply (IZR_le 1), H. Qed.

Lemma fill_mono p q t : 0 <= p <= q -> 1 <= t -> fill p t <= fill q t.
Proof.
  intros H T. unfold fill. apply Ztrunc_le, mono32. unfold Rdiv. apply Rmult_le_compat_r.
  - left. apply Rinv_0_lt_compat. pose proof (ge1_32 t T). lra.
  - apply mono32. apply Rmult_le_compat_r; [lra|]. apply mono32, IZR_le. lia.
Qed.
Lemma fill_0 t : 1 <= t -> fill 0 t = 0.
Proof.
  intros T. unfold fill. rewrite (int32 0) by (cbn; lia). rewrite Rmult_0_l, (int32 0) by (cbn; lia). unfold Rdiv. rewrite Rmult_0_l, (int32 0) by (cbn; lia).
  apply Ztrunc_IZR.
Qed.

(** the relative error of one operation *)
Lemma rel32 x : (bpow radix2 (-126) <= x)%R -> exists e, (Rabs e <= / 16777216)%R /\ rnd32 x = (x * (1 + e))%R.
Proof.
  intros H. destruct (relative_error_N_FLT_ex radix2 (-149) 24 ltac:(lia) (fun z => negb (Z.even z)) x) as (e & He & E).
  - rewrite Rabs_pos_eq; [exact H|]. pose proof (bpow_gt_0 radix2 (-126)). lra.
  - exists e. split; [|exact E]. eapply Rle_trans; [exact He|]. cbn. lra.
Qed.
Lemma small_1 : (bpow radix2 (-126) <= / 4294967296)%R.
Proof. change (/ 4294967296)%R with (bpow radix2 (-32)). apply bpow_le. lia. Qed.

(** within a millionth of the exact quotient *)
Lemma fill_near p t : 1 <= p <= 2147483647 -> 1 <= t <= 2147483647 ->
  let x := (IZR p * 50 / IZR t)%R in
  (x * (1 - / 1000000) <= rnd32 (rnd32 (rnd32 (IZR p) * 50) / rnd32 (IZR t)) <= x * (1 + / 1000000))%R.
Proof.
  intros Hp Ht x. assert (P : (1 <= IZR p <= 2147483647)%R) by (split; apply IZR_le; lia). assert (T : (1 <= IZR t <= 2147483647)%R) by (split; apply IZR_le; lia).
  pose proof small_1 as S1.
  destruct (rel32 (IZR p)) as (e1 & H1 & E1); [lra|]. destruct (rel32 (IZR t)) as (e2 & H2 & E2); [lra|].
  apply Rabs_le_inv in H1. apply Rabs_le_inv in H2.
  destruct (rel32 (rnd32 (IZR p) * 50)) as (e3 & H3 & E3); [rewrite E1; nra|]. apply Rabs_le_inv in H3.
  assert (X0 : (0 < x)%R) by (unfold x; apply Rmult_lt_0_compat; [lra|apply Rinv_0_lt_compat; lra]).
  assert (Q : (rnd32 (rnd32 (IZR p) * 50) / rnd32 (IZR t) = x * ((1 + e1) * (1 + e3) / (1 + e2)))%R).
  { rewrite E3, E1, E2. unfold x. field. lra. }
  set (w := ((1 + e1) * (1 + e3) / (1 + e2))%R) in *.
  assert (W : (1 - 4 * / 16777216 <= w <= 1 + 4 * / 16777216)%R).
  { unfold w. set (h := (/ 16777216)%R) in *. assert (0 < h < / 1000)%R by (unfold h; lra). clearbody h.
    split; apply Rmult_le_reg_r with (1 + e2)%R; try lra; unfold Rdiv; rewrite Rmult_assoc, Rinv_l, Rmult_1_r by lra; nra. }
  assert (X1 : (/ 2147483647 <= x)%R).
  { unfold x, Rdiv. assert (/ 2147483647 <= / IZR t)%R by (apply Rinv_le_contravar; lra). assert (0 < / IZR t)%R by (apply Rinv_0_lt_compat; lra). nra. }
  destruct (rel32 (rnd32 (rnd32 (IZR p) * 50) / rnd32 (IZR t))) as (e4 & H4 & E4).
  { rewrite Q. eapply Rle_trans; [exact S1|]. assert (/ 4294967296 <= / 2147483647 * (1 - 4 * / 16777216))%R by lra. nra. }
  apply Rabs_le_inv in H4. rewrite E4, Q.
  set (h := (/ 16777216)%R) in *. assert (0 < h < / 10000000)%R by (unfold h; lra). clearbody h w.
  assert (B : (1 - / 1000000 <= w * (1 + e4) <= 1 + / 1000000)%R) by (split; nra).
  rewrite Rmult_assoc. split; apply Rmult_le_compat_l; lra.
Qed.

(** ** The text. *)
Definition shown (p t : Z) : Z := Z.max 0 (Z.min 50 (fill p t)).
Lemma cells_ok c k : forall n i s, (List.length s + n < 256)%nat -> 0 <= i ->
  cells c k n i s = Ok (s ++ repeat c (Z.to_nat (Z.max 0 (Z.min (Z.of_nat n) (k - i)))) ++ repeat " "%char (n - Z.to_nat (Z.max 0 (Z.min (Z.of_nat n) (k - i))))).
Proof.
  induction n as [|n IH]; intros i s L I; cbn [cells].
  - replace (Z.to_nat _) with 0%nat by lia. rewrite app_nil_r. reflexivity.
  - unfold cat. cbn [List.length]. destruct (Nat.ltb_spec (List.length s + 1) 256); [|lia]. cbn [bind].
    rewrite IH; [|rewrite app_length; cbn [List.length]; lia|lia]. rewrite <- app_assoc. do 2 f_equal. cbn [app].
    destruct (Z.ltb_spec i k) as [Q|Q].
    + replace (Z.to_nat (Z.max 0 (Z.min (Z.of_nat (S n)) (k - i)))) with (S (Z.to_nat (Z.max 0 (Z.min (Z.of_nat n) (k - (i + 1)))))) by lia.
      cbn [repeat app Nat.sub]. reflexivity.
    + replace (Z.to_nat (Z.max 0 (Z.min (Z.of_nat (S n)) (k - i)))) with 0%nat by lia.
      replace (Z.to_nat (Z.max 0 (Z.min (Z.of_nat n) (k - (i + 1))))) with 0%nat by lia.
      cbn [repeat app]. rewrite !Nat.sub_0_r. reflexivity.
Qed.

Section Expand.
Variables bar percent count : list ascii.
Lemma exp_bar n rest r : expand bar percent count (S n) (str_ "{bar}" ++ rest) r = (r <- cat 512 r bar ;; expand bar percent count n rest r).
Proof. reflexivity. Qed.
Lemma exp_percent n rest r : expand bar percent count (S n) (str_ "{percent}" ++ rest) r = (r <- cat 512 r percent ;; expand bar percent count n rest r).
Proof. reflexivity. Qed.
Lemma exp_count n rest r : expand bar percent count (S n) (str_ "{count}" ++ rest) r = (r <- cat 512 r count ;; expand bar percent count n rest r).
Proof. reflexivity. Qed.
Lemma exp_space n rest r : expand bar percent count (S n) (" "%char :: rest) r = (r <- cat 512 r [" "%char] ;; expand bar percent count n rest r).
Proof. reflexivity. Qed.
Lemma exp_end n r : expand bar percent count n [] r = Ok r.
Proof. destruct n; reflexivity. Qed.
Lemma expand_ok : (List.length bar <= 60)%nat -> (List.length percent <= 20)%nat -> (List.length count <= 30)%nat ->
  expand bar percent count 23 (str_ "{bar} {percent} {count}") [] = Ok (bar ++ " "%char :: percent ++ " "%char :: count).
Proof.
  intros B P C.
  assert (K : forall s t, (List.length s + List.length t < 512)%nat -> cat 512 s t = Ok (s ++ t)).
  { intros s t E. unfold cat. destruct (Nat.ltb_spec (List.length s + List.length t) 512); [reflexivity|lia]. }
  change (str_ "{bar} {percent} {count}") with (str_ "{bar}" ++ " "%char :: str_ "{percent}" ++ " "%char :: str_ "{count}" ++ []).
  rewrite exp_bar, K by (cbn [List.length]; lia). cbn [bind]. rewrite exp_space, K by (cbn [List.length app]; lia). cbn [bind].
  rewrite exp_percent, K by (cbn [app]; rewrite app_length; cbn [List.length]; lia). cbn [bind].
  rewrite exp_space, K by (cbn [app]; rewrite !app_length; cbn [List.length]; lia). cbn [bind].
  rewrite exp_count, K by (cbn [app]; rewrite !app_length; cbn [List.length]; lia). cbn [bind]. rewrite exp_end.
  f_equal. cbn [app]. rewrite <- !app_assoc. reflexivity.
Qed.
End Expand.

Lemma fill_bound p t : 0 <= p <= 21474836 -> 1 <= t <= INT_MAX -> 0 <= fill p t <= INT_MAX.
Proof.
  intros Hp Ht. split; [rewrite <- (fill_0 t) by lia; apply fill_mono; lia|].
  destruct (Z.eq_dec p 0) as [->|N]; [rewrite fill_0 by lia; unfold INT_MAX; lia|].
  destruct (fill_near p t) as [_ U]; [lia|unfold INT_MAX in Ht; lia|]. unfold fill.
  apply Z.le_trans with (Ztrunc 2000000000); [|rewrite (Ztrunc_IZR 2000000000); unfold INT_MAX; lia].
  apply Ztrunc_le. eapply Rle_trans; [exact U|].
  assert (P : (1 <= IZR p <= 21474836)%R) by (split; apply IZR_le; lia). assert (T : (1 <= IZR t)%R) by (apply (IZR_le 1); lia).
  assert (IZR p * 50 / IZR t <= 1073741800)%R.
  { unfold Rdiv. assert (/ IZR t <= 1)%R by (rewrite <- Rinv_1; apply Rinv_le_contravar; lra). assert (0 < / IZR t)%R by (apply Rinv_0_lt_compat; lra). nra. }
  assert (0 <= IZR p * 50 / IZR t)%R by (apply Rmult_le_pos; [lra|left; apply Rinv_0_lt_compat; lra]). lra.
Qed.

Lemma line_text found t p : 0 <= p <= 21474836 -> 1 <= t <= INT_MAX ->
  bar_line rnd32 found t p = Ok (("[" :: repeat "#" (Z.to_nat (shown p t)) ++ repeat " " (50 - Z.to_nat (shown p t)) ++ ["]"; " "])%char ++
    print_int (100 * p / t) ++ ["%"; " "]%char ++ print_int p ++ ["/"%char] ++ print_int t ++
    (if (p <? t)%Z then [ascii_of_nat 8; ascii_of_nat 13] else [ascii_of_nat 10])).
Proof.
  intros Hp Ht. pose proof (fill_bound p t Hp Ht) as FB. unfold INT_MAX in Ht.
  assert (IO : forall z, 0 <= z <= INT_MAX -> int z = Ok z).
  { intros z Hz. unfold int. destruct (Z.leb_spec (- INT_MAX - 1) z); [|unfold INT_MAX in *; lia]. destruct (Z.leb_spec z INT_MAX); [reflexivity|lia]. }
  assert (Q : 100 * p / t = Z.quot (p * 100) t) by (rewrite Z.quot_div_nonneg by lia; f_equal; lia).
  assert (Q2 : 0 <= 100 * p / t <= INT_MAX).
  { split; [apply Z.div_pos; lia|]. apply Z.le_trans with (100 * p); [|unfold INT_MAX; lia]. apply Z.div_le_upper_bound; [lia|]. nia. }
  unfold bar_line, pb_print, scaled_progress. cbn [pb_update sampler_bar showCount showPercent pb_init total progress b_length symbol startSymbol endSymbol format completedText showPercent_ showCount_].
  unfold cat at 1. cbn [List.length Nat.add Nat.ltb Nat.leb app bind].
  destruct (Z.eqb_spec t 0); [lia|].
  rewrite (int32 50) by (cbn; lia). change (Ztrunc (rnd32 (rnd32 (rnd32 (IZR p) * 50) / rnd32 (IZR t)))) with (fill p t).
  rewrite IO by exact FB. cbn [bind].
  rewrite cells_ok by (cbn; lia). replace (Z.max 0 (Z.min (Z.of_nat (Z.to_nat 50)) (fill p t - 0))) with (shown p t) by (unfold shown; f_equal; lia).
  change (Z.to_nat 50) with 50%nat. assert (SB : 0 <= shown p t <= 50) by (unfold shown; lia).
  set (k := Z.to_nat (shown p t)). assert (Hk : (k <= 50)%nat) by (unfold k; lia). clearbody k.
  cbn [bind]. unfold cat at 1. rewrite !app_length, !repeat_length. cbn [List.length].
  destruct (Nat.ltb_spec (1 + (k + (50 - k)) + 1) 256); [|lia]. cbn [bind].
  rewrite IO by (unfold INT_MAX in *; lia). cbn [bind]. rewrite <- Q, IO by exact Q2. cbn [bind].
  assert (L1 := print_int_len (100 * p / t) ltac:(unfold INT_MAX in Q2; lia)). assert (L2 := print_int_len p ltac:(lia)). assert (L3 := print_int_len t ltac:(lia)).
  unfold cat at 1. rewrite !app_length. cbn [List.length]. destruct (Nat.ltb_spec (0 + (List.length (print_int (100 * p / t)) + 1)) 32); [|lia]. cbn [bind].
  unfold cat at 1. rewrite !app_length. cbn [List.length]. destruct (Nat.ltb_spec (0 + (List.length (print_int p) + S (List.length (print_int t)))) 32); [|lia]. cbn [bind].
  change (List.length (str_ "{bar} {percent} {count}")) with 23%nat.
  rewrite expand_ok; [|rewrite !app_length, !repeat_length; cbn [List.length]; lia|cbn [app]; rewrite app_length; cbn [List.length]; lia|cbn [app]; rewrite app_length; cbn [List.length]; lia].
  cbn [bind].
  replace (100 * p / t <? 100) with (p <? t).
  2:{ destruct (Z.ltb_spec p t) as [A|A]; symmetry.
      - apply Z.ltb_lt. apply Z.div_lt_upper_bound; lia.
      - apply Z.ltb_ge. apply Z.div_le_lower_bound; lia. }
  f_equal. rewrite <- ?app_assoc. cbn [app]. rewrite <- ?app_assoc. cbn [app]. rewrite <- ?app_assoc. reflexivity.
Qed.

Lemma trunc_floor x : (0 <= x)%R -> Ztrunc x = Zfloor x.
Proof. apply Ztrunc_floor. Qed.
Lemma floor_q p t : 0 <= p -> 1 <= t -> Zfloor (IZR p * 50 / IZR t) = 50 * p / t.
Proof.
  intros P T. replace (IZR p * 50)%R with (IZR (50 * p)) by (rewrite mult_IZR; ring). apply Zfloor_div. lia.
Qed.
Lemma fill_full p t : 1 <= t <= 335544 -> t <= p -> 50 <= fill p t.
Proof.
  intros T P. apply Z.le_trans with (fill t t); [|apply fill_mono; lia].
  unfold fill. rewrite (int32 t) by (rewrite Z.abs_eq by lia; cbn; lia).
  replace (IZR t * 50)%R with (IZR (t * 50)) by apply mult_IZR. rewrite (int32 (t * 50)) by (rewrite Z.abs_eq by lia; cbn; lia).
  rewrite mult_IZR. replace (IZR t * 50 / IZR t)%R with 50%R by (field; apply IZR_neq; lia).
  rewrite (int32 50) by (cbn; lia). rewrite Ztrunc_IZR. lia.
Qed.
(** up to 335544 saves the number of cells is exact *)
Lemma fill_exact p t : 1 <= t <= 335544 -> 0 <= p <= t -> fill p t = 50 * p / t.
Proof.
  intros T P. assert (T1 : (1 <= IZR t <= 335544)%R) by (split; apply IZR_le; lia).
  unfold fill. rewrite (int32 p) by (rewrite Z.abs_eq by lia; cbn; lia). rewrite (int32 t) by (rewrite Z.abs_eq by lia; cbn; lia).
  replace (IZR p * 50)%R with (IZR (50 * p)) by (rewrite mult_IZR; ring). rewrite (int32 (50 * p)) by (rewrite Z.abs_eq by lia; change (2 ^ 24) with 16777216; lia).
  set (n := 50 * p / t). assert (N : 0 <= n <= 50).
  { unfold n. split; [apply Z.div_pos; lia|]. apply Z.div_le_upper_bound; lia. }
  assert (D : 50 * p = t * n + (50 * p) mod t) by (apply Z.div_mod; lia). pose proof (Z.mod_pos_bound (50 * p) t ltac:(lia)) as M.
  set (v := (IZR (50 * p) / IZR t)%R).
  assert (Tv : (v * IZR t = IZR (50 * p))%R) by (unfold v; field; lra).
  assert (V1 : (IZR n <= v)%R).
  { apply Rmult_le_reg_r with (IZR t); [lra|]. rewrite Tv, <- mult_IZR. apply IZR_le. lia. }
  assert (V2 : (v <= IZR (n + 1) - / IZR t)%R).
  { apply Rmult_le_reg_r with (IZR t); [lra|]. rewrite Tv, Rmult_minus_distr_r, Rinv_l, <- mult_IZR, <- minus_IZR by lra. apply IZR_le. lia. }
  assert (R1 : (IZR n <= rnd32 v)%R) by (rewrite <- (int32 n) by (cbn; lia); apply mono32, V1).
  rewrite trunc_floor by (eapply Rle_trans; [|exact R1]; apply (IZR_le 0); lia).
  apply Zfloor_imp. split; [exact R1|].
  (* the float just below n + 1 *)
  set (u := bpow radix2 (-18)). assert (U : u = (/ 262144)%R) by reflexivity.
  assert (G : single (IZR (n + 1) - u)).
  { replace (IZR (n + 1) - u)%R with (IZR ((n + 1) * 2 ^ 18 - 1) * bpow radix2 (-18))%R.
    - apply single_dyadic; [|lia]. rewrite Z.abs_eq by lia. change (2 ^ 18) with 262144. change (2 ^ 24) with 16777216. lia.
    - rewrite minus_IZR, mult_IZR. fold u. change (IZR (2 ^ 18)) with 262144%R. rewrite U. field. }
  assert (I : (/ 335544 <= / IZR t)%R) by (apply Rinv_le_contravar; lra).
  destruct (Rle_lt_dec v (IZR (n + 1) - u)) as [L|L].
  - apply mono32 in L. rewrite (id32 _ G) in L. lra.
  - pose proof (near32 v _ G) as R. rewrite (Rabs_left (IZR (n + 1) - u - v)) in R by lra. apply Rabs_le_inv in R. lra.
Qed.
Lemma fill_close p t : 0 <= p <= 21474836 -> 1 <= t <= INT_MAX -> Z.abs (shown p t - Z.min 50 (50 * p / t)) <= 1.
Proof.
  intros Hp Ht. unfold shown. destruct (Z.eq_dec p 0) as [->|N]; [rewrite fill_0 by lia; rewrite Z.mul_0_r, Z.div_0_l by lia; cbn; lia|].
  destruct (fill_near p t) as [B1 B2]; [lia|unfold INT_MAX in Ht; lia|].
  rewrite <- floor_q by lia. set (x := (IZR p * 50 / IZR t)%R) in *.
  assert (X0 : (0 <= x)%R). { unfold x. apply Rmult_le_pos; [assert (0 <= IZR p)%R by (apply (IZR_le 0); lia); lra|]. left. apply Rinv_0_lt_compat. apply (IZR_lt 0). lia. }
  unfold fill. set (v := rnd32 _) in *. rewrite trunc_floor by nra.
  pose proof (Zfloor_lb x) as F1. pose proof (Zfloor_ub x) as F2. pose proof (Zfloor_lb v) as F3. pose proof (Zfloor_ub v) as F4.
  destruct (Rle_lt_dec 51 x) as [L|L].
  - assert (50 <= Zfloor x) by (apply le_IZR; assert (IZR 50 < IZR (Zfloor x + 1))%R by (rewrite plus_IZR; lra); apply lt_IZR in H; apply IZR_le; lia).
    assert (50 <= Zfloor v). { assert (IZR 50 < IZR (Zfloor v + 1))%R by (rewrite plus_IZR; nra). apply lt_IZR in H0. lia. }
    lia.
  - assert (Zfloor v < Zfloor x + 2) by (apply lt_IZR; rewrite plus_IZR; nra).
    assert (Zfloor x < Zfloor v + 2) by (apply lt_IZR; rewrite plus_IZR; nra).
    assert (0 <= Zfloor x) by (apply Zfloor_lub; exact X0). assert (0 <= Zfloor v) by (apply Zfloor_lub; nra). lia.
Qed.

(** For every number of saves asked for, every save up to number 21474836 prints one bar
    of 50 cells, the percentage, the two numbers, and at the end a return to the start of
    the line as long as the run is not complete.  No buffer overflows.  The number of cells
    filled is the fiftieths done, rounded down, or one off; up to 335544 saves it is exact. *)
Theorem C113_line : forall found t p, 1 <= t <= 2147483647 -> 0 <= p <= 21474836 ->
  exists k P N M, bar_line rnd32 found t p =
    Ok (["["] ++ repeat "#" k ++ repeat " " (50 - k) ++ ["]"; " "] ++ P ++ ["%"; " "] ++ N ++ ["/"] ++ M ++
        (if (p <? t)%Z then [ascii_of_nat 8; ascii_of_nat 13] else [ascii_of_nat 10]))%char /\
    (k <= 50)%nat /\ decimal P (100 * p / t) /\ decimal N p /\ decimal M t /\
    Z.abs (Z.of_nat k - Z.min 50 (50 * p / t)) <= 1 /\ (t <= 335544 -> Z.of_nat k = Z.min 50 (50 * p / t)).
Proof.
  intros found t p Ht Hp. exists (Z.to_nat (shown p t)), (print_int (100 * p / t)), (print_int p), (print_int t).
  assert (SB : 0 <= shown p t <= 50) by (unfold shown; lia). split; [|split; [lia|split; [|split; [|split; [|split]]]]].
  - rewrite line_text by assumption. f_equal. cbn [app]. rewrite <- ?app_assoc. cbn [app]. reflexivity.
  - apply print_int_dec. apply Z.div_pos; lia.
  - apply print_int_dec; lia.
  - apply print_int_dec; lia.
  - rewrite Z2Nat.id by lia. apply fill_close; assumption.
  - intros L. rewrite Z2Nat.id by lia. unfold shown. destruct (Z.le_gt_cases p t) as [A|A].
    + rewrite fill_exact by lia. assert (0 <= 50 * p / t) by (apply Z.div_pos; lia). lia.
    + pose proof (fill_full p t ltac:(lia) ltac:(lia)). assert (50 <= 50 * p / t) by (apply Z.div_le_lower_bound; lia). lia.
Qed.
Print Assumptions C113_line.

(** The bar never shrinks: with a later save, the cells filled are at least as many. *)
Theorem C113_grows : forall found t p q, 1 <= t <= 2147483647 -> 0 <= p <= q -> q <= 21474836 ->
  exists k l r s, bar_line rnd32 found t p = Ok (["["] ++ repeat "#" k ++ r)%char /\ bar_line rnd32 found t q = Ok (["["] ++ repeat "#" l ++ s)%char /\
    hd_error r <> Some "#"%char /\ hd_error s <> Some "#"%char /\ (k <= l)%nat.
Proof.
  intros found t p q Ht Hp Hq. rewrite !line_text by (unfold INT_MAX; lia). cbn [app]. rewrite <- !app_assoc.
  exists (Z.to_nat (shown p t)), (Z.to_nat (shown q t)). do 2 eexists. split; [reflexivity|]. split; [reflexivity|].
  assert (HD : forall n r, hd_error (repeat " "%char n ++ ["]"; " "]%char ++ r) <> Some "#"%char) by (intros [|n] r; discriminate).
  split; [apply HD|]. split; [apply HD|].
  pose proof (fill_mono p q t ltac:(lia) ltac:(lia)). unfold shown. lia.
Qed.
Print Assumptions C113_grows.

(** It is not true that the bar is full at the end: with 671089 saves one cell stays empty. *)
Lemma witness_product : rnd32 (671089 * 50) = 33554448%R.
Proof.
  replace (671089 * 50)%R with 33554450%R by lra. unfold rnd32, round, scaled_mantissa, cexp.
  rewrite (mag_unique radix2 33554450 26) by (rewrite Rabs_pos_eq by lra; cbn; lra).
  change (fexp32 26) with 2. change (bpow radix2 (- (2))) with (/ 4)%R.
  replace (33554450 * / 4)%R with (8388612 + / 2)%R by lra.
  assert (E : ZnearestE (8388612 + / 2) = 8388612).
  { unfold Znearest. rewrite (Zfloor_imp 8388612) by (rewrite plus_IZR; lra). rewrite Rcompare_Eq by lra. reflexivity. }
  rewrite E. unfold F2R. cbn. lra.
Qed.
Theorem C113_full_refuted : exists found t r, 1 <= t <= 21474836 /\
  bar_line rnd32 found t t = Ok (["["] ++ repeat "#" 49 ++ [" "; "]"] ++ r)%char.
Proof.
  exists true, 671089. rewrite line_text by (unfold INT_MAX; lia).
  assert (F : shown 671089 671089 = 49).
  { unfold shown. assert (E : fill 671089 671089 = 49); [|rewrite E; reflexivity]. unfold fill. rewrite (int32 671089) by (cbn; lia). rewrite witness_product.
    assert (G : single (50 - bpow radix2 (-18))).
    { replace (50 - bpow radix2 (-18))%R with (IZR (50 * 2 ^ 18 - 1) * bpow radix2 (-18))%R; [apply single_dyadic; cbn; lia|]. cbn. lra. }
    pose proof (near32 (33554448 / 671089) _ G) as N. change (bpow radix2 (-18)) with (/ 262144)%R in N.
    rewrite (Rabs_left1 (50 - / 262144 - 33554448 / 671089)) in N by lra. apply Rabs_le_inv in N.
    rewrite trunc_floor by lra. apply Zfloor_imp. cbn. lra. }
  rewrite F. eexists. split; [lia|]. change (Z.to_nat 49) with 49%nat. change (50 - 49)%nat with 1%nat. cbn [repeat app]. reflexivity.
Qed.
Print Assumptions C113_full_refuted.

(** Nor that a run without an end (MaxNumberSaves 0) is possible: the first bar divides by
    zero, whatever the rounding; *)
Theorem C113_unlimited_refuted : forall rnd found p, bar_line rnd found 0 p = UB.
Proof. intros rnd found p. reflexivity. Qed.
Print Assumptions C113_unlimited_refuted.
(** nor that every number of saves that fits an int does: from save 21474837 on the
    percentage overflows. *)
Theorem C113_overflow_refuted : forall found t p, 1 <= t <= 2147483647 -> 21474837 <= p <= t -> bar_line rnd32 found t p = UB.
Proof.
  intros found t p Ht Hp.
  unfold bar_line, pb_print, scaled_progress. cbn [pb_update sampler_bar showCount showPercent pb_init total progress b_length symbol startSymbol endSymbol format completedText showPercent_ showCount_].
  unfold cat at 1. cbn [List.length Nat.add Nat.ltb Nat.leb app bind]. destruct (Z.eqb_spec t 0); [lia|].
  destruct (int (Ztrunc _)) as [k| | |] eqn:E; cbn [bind]; try reflexivity; try (unfold int in E; destruct (_ && _) in E; discriminate).
  rewrite cells_ok by (cbn; lia). cbn [bind]. unfold cat at 1.
  match goal with |- bind (if ?c then _ else _) _ = _ => destruct c; [|reflexivity] end. cbn [bind].
  unfold int at 1. destruct (Z.leb_spec (p * 100) INT_MAX) as [A|A]; [unfold INT_MAX in A; lia|]. rewrite andb_false_r. reflexivity.
Qed.
Print Assumptions C113_overflow_refuted.

Example C113_line_case : bar_line rnd32 false 2000 500 = Ok (["["] ++ repeat "#" 12 ++ repeat " " 38 ++ str_ "] 25% 500/2000" ++ [ascii_of_nat 8; ascii_of_nat 13])%char.
Proof.
  rewrite line_text by (unfold INT_MAX; lia). unfold shown. rewrite fill_exact by lia. reflexivity.
Qed.
Example C113_end_case : bar_line rnd32 false 2000 2000 = Ok (["["] ++ repeat "#" 50 ++ str_ "] 100% 2000/2000" ++ [ascii_of_nat 10])%char.
Proof.
  rewrite line_text by (unfold INT_MAX; lia). unfold shown. rewrite fill_exact by lia. reflexivity.
Qed.
