(** Property C95: the option files written for the sampler.

    [decimals k x y]: y is a double nearest to a decimal with k digits after the
    point that is nearest to x, and has the sign of x. *)
From Coq Require Import ZArith QArith Qreals Reals Lra String List Bool Lia Ascii.
From Flocq Require Import Core BinarySingleNaN.
From Verif Require Import CPrelude ListLemmas TagModel TagSpec TagProofs TagFacts ParsetModel PropTags ScanModel ScanProofs ScanProofs2 ScanProofs3 TextModel TextProofs TextReal
  LevTextModel LevTextProofs PropSampText PropTab OptModel.
Import ListNotations.

Definition decimals (k : nat) (x y : b64) : Prop :=
  finite y /\ Bsign y = Bsign x /\
  exists n : Z, (Rabs (B2R x - IZR n / 10 ^ k) <= / 2 / 10 ^ k)%R /\
    forall z, finite z -> (Rabs (B2R y - IZR n / 10 ^ k) <= Rabs (B2R z - IZR n / 10 ^ k))%R.
(** The number read is the value of the double y. *)
Definition holds (n : num) (y : b64) : Prop := exists q, n = Num q /\ Q2R q = B2R y.
Definition two_digits_kept (x : b64) (n : num) : Prop := exists y, decimals 2 x y /\ holds n y.

(** ** Numbers in texts *)
Definition scaled (k : nat) (x : b64) : Z := ZnearestE (Rabs (B2R x) * 10 ^ k).
Lemma ten_k : forall k, IZR (10 ^ Z.of_nat k) = (10 ^ k)%R. Proof. intros k. rewrite pow_IZR. reflexivity. Qed.
Lemma ten_pos : forall k, (1 <= 10 ^ k)%R. Proof. intros k. apply pow_R1_Rle. lra. Qed.
Lemma print_pt_eq : forall k x, finite x -> print_pt k x = fixed_pt k (Bsign x) (scaled k x).
Proof.
  intros k [s|s| |s m e H] F; try discriminate F; unfold scaled.
  - cbn [B2R print_pt Bsign]. rewrite Rabs_R0, Rmult_0_l. rewrite (Znearest_imp _ 0 0); [reflexivity|]. rewrite Rminus_0_r, Rabs_R0. lra.
  - cbn [print_pt Bsign]. rewrite nearest_ok by apply denom_pos. do 2 f_equal.
    rewrite mult_IZR, B2R_abs, <- numer_denom, ten_k. assert (0 < IZR (denom e))%R by (apply IZR_lt, denom_pos). field. lra.
Qed.
Lemma scaled_nonneg : forall k x, (0 <= scaled k x)%Z.
Proof.
  intros k x. unfold scaled. rewrite <- (@Zrnd_IZR ZnearestE (valid_rnd_N _) 0). apply (@Zrnd_le ZnearestE (valid_rnd_N _)).
  apply Rmult_le_pos; [apply Rabs_pos|]. assert (T := ten_pos k). lra.
Qed.
Lemma fixed_pt_numeral : forall k s n, (0 <= n)%Z -> numeral (fixed_pt k s n) (to_b64 s n (- Z.of_nat k)).
Proof.
  intros k s n H. assert (P : (0 < 10 ^ Z.of_nat k)%Z) by (apply Z.pow_pos_nonneg; lia).
  destruct (print_d_ok (n / 10 ^ Z.of_nat k)) as (NE & D & V); [apply Z.div_pos; lia|].
  destruct (pad_ok k n [] H) as (w' & E & D' & L & V'). rewrite app_nil_r in E.
  exists s, (print_d (n / 10 ^ Z.of_nat k)), w', (DOT :: w'), 0%Z, [].
  split; [exact NE|]. split; [exact D|]. split; [right; auto|]. split; [left; auto|]. split.
  - unfold fixed_pt. rewrite E, app_nil_r. reflexivity.
  - rewrite L. replace (0 - Z.of_nat k)%Z with (- Z.of_nat k)%Z by lia. f_equal.
    change (n = valf 0 (print_d (n / 10 ^ Z.of_nat k) ++ w')). rewrite valf_app, V'.
    change (valf 0 (print_d (n / 10 ^ Z.of_nat k))) with (dec_value (print_d (n / 10 ^ Z.of_nat k))).
    rewrite V. rewrite Z.mul_comm. apply Z.div_mod. lia.
Qed.
Lemma dec_val_k : forall k n, dec_val n (- Z.of_nat k) = (IZR n / 10 ^ k)%R.
Proof.
  intros k n. unfold dec_val. rewrite Z.opp_involutive, Nat2Z.id. destruct k as [|k]; [cbn; field|].
  destruct (Z.leb_spec 0 (- Z.of_nat (S k))); [lia|reflexivity].
Qed.
Definition again (k : nat) (x : b64) : b64 := to_b64 (Bsign x) (scaled k x) (- Z.of_nat k).
Lemma again_ok : forall k x, finite x -> decimals k x (again k x).
Proof.
  intros k x F. assert (FX : format (Rabs (B2R x))) by (apply generic_format_abs, generic_format_B2R).
  assert (T := ten_pos k). set (n := scaled k x).
  assert (H : (Rabs (Rabs (B2R x) - IZR n / 10 ^ k) <= / 2 / 10 ^ k)%R).
  { assert (H := Znearest_half (fun t => negb (Z.even t)) (Rabs (B2R x) * 10 ^ k)). fold (scaled k x) in H. fold n in H.
    replace (Rabs (B2R x) * 10 ^ k - IZR n)%R with ((Rabs (B2R x) - IZR n / 10 ^ k) * 10 ^ k)%R in H by (field; lra).
    rewrite Rabs_mult, (Rabs_pos_eq (10 ^ k)) in H by lra. apply Rmult_le_reg_r with (10 ^ k)%R; [lra|].
    replace (/ 2 / 10 ^ k * 10 ^ k)%R with (/ 2)%R by (field; lra). exact H. }
  assert (H2 : (/ 2 / 10 ^ k <= / 2)%R).
  { apply Rmult_le_reg_r with (10 ^ k)%R; [lra|]. replace (/ 2 / 10 ^ k * 10 ^ k)%R with (/ 2)%R by (field; lra). lra. }
  assert (B : (Rabs (rnd (dec_val n (- Z.of_nat k))) < bpow radix2 1024)%R).
  { rewrite dec_val_k. assert (NF := near_format (Rabs (B2R x)) (IZR n / 10 ^ k) FX).
    assert (MX := abs_B2R_le_emax_minus_prec 53 1024 Hprec x).
    assert (G : (1 < bpow radix2 (1024 - 53))%R) by (change 1%R with (bpow radix2 0); apply bpow_lt; lia).
    assert (X : (Rabs (rnd (IZR n / 10 ^ k) - Rabs (B2R x)) <= 1)%R).
    { replace (rnd (IZR n / 10 ^ k) - Rabs (B2R x))%R with ((rnd (IZR n / 10 ^ k) - IZR n / 10 ^ k) + - (Rabs (B2R x) - IZR n / 10 ^ k))%R by ring.
      eapply Rle_trans; [apply Rabs_triang|]. rewrite Rabs_Ropp. lra. }
    assert (Y := Rabs_pos (B2R x)). apply Rabs_le_inv in X. apply Rabs_def1; lra. }
  destruct (to_b64_ok (Bsign x) n (- Z.of_nat k) (scaled_nonneg k x) B) as (C1 & C2 & C3).
  rewrite dec_val_k in C2. change (to_b64 (Bsign x) n (- Z.of_nat k)) with (again k x) in C1, C2, C3. split; [exact C1|]. split; [exact C3|].
  exists (if Bsign x then - n else n)%Z. split.
  - rewrite (sign_val x F) at 1. destruct (Bsign x).
    + rewrite opp_IZR. replace (- Rabs (B2R x) - - IZR n / 10 ^ k)%R with (- (Rabs (B2R x) - IZR n / 10 ^ k))%R by (unfold Rdiv; ring).
      rewrite Rabs_Ropp. exact H.
    + exact H.
  - intros z Fz. rewrite (sign_val (again k x) C1), C3, C2. assert (Gz := generic_format_B2R 53 1024 z). destruct (Bsign x).
    + assert (G' : format (- B2R z)) by (apply generic_format_opp; exact Gz).
      assert (X := near_format _ (IZR n / 10 ^ k) G'). rewrite opp_IZR.
      replace (- rnd (IZR n / 10 ^ k) - - IZR n / 10 ^ k)%R with (- (rnd (IZR n / 10 ^ k) - IZR n / 10 ^ k))%R by (unfold Rdiv; ring).
      replace (B2R z - - IZR n / 10 ^ k)%R with (- (- B2R z - IZR n / 10 ^ k))%R by (unfold Rdiv; ring).
      rewrite !Rabs_Ropp. exact X.
    + apply near_format. exact Gz.
Qed.
Lemma exact_ok : forall x, finite x -> holds (exact x) x.
Proof.
  intros [s|s| |s m e H] F; try discriminate F; unfold holds, exact.
  - exists 0%Q. split; [reflexivity|]. unfold Q2R. cbn. lra.
  - eexists. split; [reflexivity|]. unfold Q2R. cbn [Qnum Qden]. rewrite Z2Pos.id by apply denom_pos.
    cbn [B2R]. unfold F2R. cbn [Fnum Fexp]. assert (X := numer_denom m e). fold (Rdiv (IZR (SpecFloat.cond_Zopp s (numer m e))) (IZR (denom e))).
    destruct s; cbn [SpecFloat.cond_Zopp].
    + change (Z.neg m) with (- Z.pos m)%Z. rewrite !opp_IZR. unfold Rdiv in *. rewrite Ropp_mult_distr_l_reverse, X. ring.
    + exact X.
Qed.
Lemma atof_numeral : forall t y, numeral t y -> atof64 t = exact y.
Proof.
  intros t y N. unfold atof64. assert (E := scan_lf_ok [] t [] y N ltac:(constructor) Logic.I). cbn [app] in E. rewrite app_nil_r in E.
  rewrite E. reflexivity.
Qed.
Lemma print_pt_numeral : forall k x, finite x -> numeral (print_pt k x) (again k x).
Proof. intros k x F. rewrite print_pt_eq by exact F. apply fixed_pt_numeral, scaled_nonneg. Qed.
Lemma atof_pt : forall x, finite x -> two_digits_kept x (atof64 (print_pt 2 x)).
Proof.
  intros x F. exists (again 2 x). split; [apply again_ok; exact F|]. rewrite (atof_numeral _ _ (print_pt_numeral 2 x F)).
  apply exact_ok. apply (again_ok 2 x F).
Qed.

(** ** Integers *)
Lemma decimal_numeral : forall w n, decimal w n -> numeral w (to_b64 false n 0).
Proof.
  intros w n (NE & D & V). exists false, w, [], [], 0%Z, []. split; [exact NE|]. split; [exact D|]. split; [left; auto|]. split; [left; auto|].
  split; [rewrite !app_nil_r; reflexivity|]. rewrite app_nil_r. cbn [length]. change (0 - Z.of_nat 0)%Z with 0%Z. f_equal. symmetry. exact V.
Qed.
Lemma int_exact : forall n, (0 <= n < 2 ^ 32)%Z -> holds (exact (to_b64 false n 0)) (to_b64 false n 0) /\ B2R (to_b64 false n 0) = IZR n.
Proof.
  intros n H. assert (E : rnd (dec_val n 0) = IZR n).
  { assert (X : dec_val n 0 = IZR n) by (unfold dec_val; cbn; ring). rewrite X. apply round_generic; [apply valid_rnd_N|].
    change fe with (FLT_exp (-1074) 53). apply generic_format_FLT. exists (Float radix2 n 0).
    - unfold F2R. cbn. ring.
    - cbn [Fnum]. apply Z.lt_trans with (2 ^ 32)%Z; [|reflexivity]. rewrite Z.abs_eq by lia. lia.
    - vm_compute. discriminate. }
  assert (B : (Rabs (rnd (dec_val n 0)) < bpow radix2 1024)%R).
  { rewrite E, Rabs_pos_eq by (apply IZR_le; lia). apply Rlt_trans with (bpow radix2 32); [|apply bpow_lt; lia].
    change (bpow radix2 32) with (IZR (2 ^ 32)). apply IZR_lt. lia. }
  destruct (to_b64_ok false n 0 ltac:(lia) B) as (C1 & C2 & C3). split; [apply exact_ok; exact C1|].
  rewrite (sign_val _ C1), C3, C2. exact E.
Qed.
Lemma to_uint_int : forall q n, Q2R q = IZR n -> (0 <= n < 2 ^ 32)%Z -> to_uint (Num q) = Ok n.
Proof.
  intros [a d] n E H. unfold Q2R in E. cbn [Qnum Qden] in E. assert (P : (0 < IZR (Z.pos d))%R) by (apply IZR_lt; reflexivity).
  assert (X : IZR a = IZR (n * Z.pos d)). { rewrite mult_IZR, <- E. field. lra. }
  apply eq_IZR in X. unfold to_uint, trunc. cbn [Qnum Qden]. rewrite X, Z.quot_mul by lia.
  rewrite (proj2 (Z.leb_le _ _)), (proj2 (Z.ltb_lt _ _)) by lia. reflexivity.
Qed.
Lemma atof_decimal : forall w n, decimal w n -> (0 <= n < 2 ^ 32)%Z -> to_uint (atof64 w) = Ok n.
Proof.
  intros w n D H. rewrite (atof_numeral _ _ (decimal_numeral w n D)). destruct (int_exact n H) as [(q & E & V) X]. rewrite E.
  apply to_uint_int; [congruence|exact H].
Qed.
Lemma print_int_dec : forall z, (0 <= z)%Z -> decimal (print_int z) z.
Proof. intros z H. unfold print_int. destruct (Z.ltb_spec z 0); [lia|]. cbn [minus app]. rewrite Z.abs_eq by exact H. apply print_d_ok; exact H. Qed.

(** ** The lines of the file *)
Definition quiet (l : list ascii) : Prop := Forall (fun c => c <> nl /\ c <> NUL) l.
Definition join (ls : list (list ascii)) (last : list ascii) : list ascii := flat_map (fun l => l ++ [nl]) ls ++ last.
Lemma join_lines : forall ls last, Forall quiet ls -> quiet last -> lines (join ls last) = ls ++ [last].
Proof.
  intros ls last F L. induction F as [|l ls Q F IH]; unfold join in *.
  - cbn [flat_map app]. unfold lines. apply split_at_none. eapply Forall_impl; [|exact L]. intros c [N _]. cbv beta. destruct (ascii_dec c nl); [congruence|reflexivity].
  - cbn [flat_map]. rewrite <- !app_assoc. unfold lines in *. cbn [app]. rewrite split_at_app.
    + rewrite IH. reflexivity.
    + eapply Forall_impl; [|exact Q]. intros c [N _]. cbv beta. destruct (ascii_dec c nl); [congruence|reflexivity].
    + destruct (ascii_dec nl nl); [reflexivity|congruence].
Qed.
Lemma join_plain : forall ls last, Forall quiet ls -> quiet last -> Forall (fun l => (List.length l <= 198)%nat) (ls ++ [last]) -> plain (join ls last).
Proof.
  intros ls last F L B. split.
  - unfold join. intros I. apply in_app_iff in I as [I|I].
    + apply in_flat_map in I as (l & I & J). rewrite Forall_forall in F. specialize (F l I). apply in_app_iff in J as [J|[J|[]]]; [|discriminate J].
      unfold quiet in F. rewrite Forall_forall in F. apply (F _ J). reflexivity.
    + unfold quiet in L. rewrite Forall_forall in L. apply (L _ I). reflexivity.
  - rewrite join_lines by assumption. intros l I. rewrite Forall_forall in B. apply B, I.
Qed.
Definition rowl (tag : string) (k : nat) (v : list ascii) : list ascii := w_of tag ++ repeat BL k ++ v.
Definition heads (what : string) : list (list ascii) :=
  map w_of [ "# File containing parameters for DNest."; "# Put comments at the top, or at the end of the line.";
    "# Do not change the order of lines."; "# Lines beginning with '#' are regarded as comments."; what; ""; "" ]%string.
Definition tails (np nl sf ts : string) : list (list ascii) :=
  map w_of [ ""; ""; "# Full options and their default values (if not specified) are:"; "# MaxNumberSaves           2000 #maximum number of saves";
    "# PTol                     0.1   #likelihood tolerance in loge"; np; nl; sf; ts;
    "# MaxNumberLevels          0  #maximum number of levels; unlimited for 0"; "# BacktrackingLength       10.0  #backforward tracking length (lambda)" ]%string.
Definition end_line : list ascii := w_of "# StrengthEqualPush        100.0 #strength to force equal push (beta)".
Definition rows9 (p : sset) : list (list ascii) :=
  [ rowl "MaxNumberSaves" 12 (print_int (s_saves p)); rowl "PTol" 22 (print_pt 2 (s_ptol p)); rowl "NumberParticles" 11 (print_int (s_particles p));
    rowl "NewLevelIntervalFactor" 4 (print_pt 2 (s_nlif p)); rowl "SaveIntervalFactor" 8 (print_pt 2 (s_sif p));
    rowl "ThreadStepsFactor" 9 (print_pt 2 (s_tsf p)); rowl "MaxNumberLevels" 11 (print_int (s_levels p));
    rowl "BacktrackingLength" 8 (print_pt 2 (s_lam p)); rowl "StrengthEqualPush" 9 (print_pt 2 (s_beta p)) ].
Definition line_heads := heads "# DNest options for continuum-line time lag analysis".
Definition line_tails := tails "# NumberParticles          1  #number of particles" "# NewLevelIntervalFactor   1  #new level interval"
    "# SaveIntervalFactor       1  #particular saving interval" "# ThreadStepsFactor        1 #thread steps before communications between cores".
Lemma join_app : forall a b last, join (a ++ b) last = join a (join b last).
Proof. intros a b last. unfold join. rewrite flat_map_app, app_assoc. reflexivity. Qed.
Lemma write_join : forall p, write_options_line p = join (line_heads ++ rows9 p ++ line_tails) end_line.
Proof.
  intros p. rewrite !join_app. unfold write_options_line. unfold join at 1. f_equal.
  unfold rows9, rowl, join at 1. cbn [flat_map]. rewrite <- !app_assoc.
  change (w_of "MaxNumberSaves            ") with (w_of "MaxNumberSaves" ++ repeat BL 12). change (w_of "PTol                      ") with (w_of "PTol" ++ repeat BL 22).
  change (w_of "NumberParticles           ") with (w_of "NumberParticles" ++ repeat BL 11). change (w_of "NewLevelIntervalFactor    ") with (w_of "NewLevelIntervalFactor" ++ repeat BL 4).
  change (w_of "SaveIntervalFactor        ") with (w_of "SaveIntervalFactor" ++ repeat BL 8). change (w_of "ThreadStepsFactor         ") with (w_of "ThreadStepsFactor" ++ repeat BL 9).
  change (w_of "MaxNumberLevels           ") with (w_of "MaxNumberLevels" ++ repeat BL 11). change (w_of "BacktrackingLength        ") with (w_of "BacktrackingLength" ++ repeat BL 8).
  change (w_of "StrengthEqualPush         ") with (w_of "StrengthEqualPush" ++ repeat BL 9). rewrite <- !app_assoc. reflexivity.
Qed.
Lemma kind_row : forall tag k v, nonspace (w_of tag) -> (1 <= k)%nat -> nonspace v -> (match w_of tag with c :: _ => opt_comment c | [] => true end) = false ->
  kind_of opt_comment (rowl tag k v) = Setting (w_of tag) v /\ words (rowl tag k v) = [w_of tag; v].
Proof.
  intros tag k v NT K NV C. assert (E : words (rowl tag k v) = [w_of tag; v]).
  { unfold rowl. destruct k as [|k]; [lia|]. rewrite words_word; [|exact NT|reflexivity].
    rewrite PropTab.words_space; [|apply Forall_forall; intros c I; apply repeat_spec in I; subst c; reflexivity].
    rewrite <- (app_nil_r v) at 1. rewrite words_word; [reflexivity|exact NV|exact Logic.I]. }
  split; [|exact E]. unfold kind_of. rewrite E. destruct (w_of tag) as [|c t]; [discriminate C|]. rewrite C. reflexivity.
Qed.
Lemma nonspace_quiet : forall v, nonspace v -> ~ In NUL v -> quiet v.
Proof.
  intros v [_ F] N. apply Forall_forall. intros c I. rewrite Forall_forall in F. specialize (F c I). split; [intros ->; discriminate F|intros ->; exact (N I)].
Qed.
Lemma numeral_noNUL : forall t y, numeral t y -> ~ In NUL t.
Proof.
  intros t y (s & w & w' & f & e & g & NE & D & OF & OE & -> & _) I.
  assert (ND : forall v, Forall isdigit v -> ~ In NUL v).
  { intros v Dv J. rewrite Forall_forall in Dv. destruct (Dv _ J) as [A B]. unfold code in *. simpl in *. lia. }
  apply in_app_iff in I as [I|I]; [destruct s; [destruct I as [I|[]]; discriminate I|destruct I]|].
  apply in_app_iff in I as [I|I]; [exact (ND _ D I)|]. apply in_app_iff in I as [I|I].
  - destruct OF as [[-> _]|[-> D']]; [destruct I|]. destruct I as [I|I]; [discriminate I|exact (ND _ D' I)].
  - destruct OE as [[-> _]|(v & D' & _ & [[-> _]|[-> _]])]; [destruct I| |]; (destruct I as [I|[I|I]]; [discriminate I|discriminate I|exact (ND _ D' I)]).
Qed.
Lemma print_pt_len : forall x, finite x -> (Rabs (B2R x) <= 10 ^ 60)%R -> (List.length (print_pt 2 x) <= 65)%nat.
Proof.
  intros x F B. rewrite print_pt_eq by exact F. unfold fixed_pt. rewrite app_length, app_length. cbn [List.length].
  assert (MN := scaled_nonneg 2 x). rewrite pad_len by exact MN. assert (MS := minus_len (Bsign x)).
  assert (MB : (scaled 2 x <= 10 ^ 62)%Z).
  { unfold scaled. rewrite <- (@Zrnd_IZR ZnearestE (valid_rnd_N _) (10 ^ 62)). apply (@Zrnd_le ZnearestE (valid_rnd_N _)).
    rewrite pow10 by lia. change (Z.to_nat 62) with (60 + 2)%nat. rewrite pow_add. apply Rmult_le_compat_r; [|exact B]. apply pow_le. lra. }
  assert (L : (List.length (print_d (scaled 2 x / 10 ^ Z.of_nat 2)) <= 61)%nat); [|cbn [List.length]; lia].
  apply print_d_len; [|lia]. split; [apply Z.div_pos; [exact MN|reflexivity]|]. apply Z.div_lt_upper_bound; [reflexivity|].
  apply Z.le_lt_trans with (10 ^ 62)%Z; [exact MB|reflexivity].
Qed.
Lemma print_int_len : forall z, (0 <= z < 2 ^ 31)%Z -> (List.length (print_int z) <= 10)%nat.
Proof.
  intros z H. unfold print_int. destruct (Z.ltb_spec z 0); [lia|]. cbn [minus app]. rewrite Z.abs_eq by lia. apply print_d_len; [|lia].
  split; [lia|]. apply Z.lt_le_trans with (2 ^ 31)%Z; [lia|]. vm_compute. discriminate.
Qed.

(** Settings the file can hold: integers of type int that are not negative and
    numbers up to 1e60. *)
Definition fits (x : b64) : Prop := finite x /\ (Rabs (B2R x) <= 10 ^ 60)%R.
Definition ok_sset (p : sset) : Prop :=
  (0 <= s_saves p < 2 ^ 31)%Z /\ (0 <= s_particles p < 2 ^ 31)%Z /\ (0 <= s_levels p < 2 ^ 31)%Z /\
  fits (s_ptol p) /\ fits (s_nlif p) /\ fits (s_sif p) /\ fits (s_tsf p) /\ fits (s_lam p) /\ fits (s_beta p).

Definition value_ok (v : list ascii) : Prop := nonspace v /\ quiet v /\ (List.length v <= 65)%nat.
Lemma value_pt : forall x, fits x -> value_ok (print_pt 2 x).
Proof.
  intros x [F B]. assert (N := print_pt_numeral 2 x F). assert (NS := numeral_nonspace _ _ N). split; [exact NS|]. split; [|apply print_pt_len; assumption].
  apply nonspace_quiet; [exact NS|]. eapply numeral_noNUL; exact N.
Qed.
Lemma value_int : forall z, (0 <= z < 2 ^ 31)%Z -> value_ok (print_int z).
Proof.
  intros z H. assert (N := decimal_numeral _ _ (print_int_dec z ltac:(lia))). assert (NS := numeral_nonspace _ _ N). split; [exact NS|].
  split; [|assert (L := print_int_len z H); lia]. apply nonspace_quiet; [exact NS|]. eapply numeral_noNUL; exact N.
Qed.
Definition quietb (l : list ascii) : bool := forallb (fun c => if ascii_dec c nl then false else if ascii_dec c NUL then false else true) l.
Lemma quietb_ok : forall l, quietb l = true -> quiet l.
Proof.
  intros l H. unfold quietb in H. rewrite forallb_forall in H. apply Forall_forall. intros c I. specialize (H c I).
  destruct (ascii_dec c nl); [discriminate|]. destruct (ascii_dec c NUL); [discriminate|]. auto.
Qed.
Definition calmb (ls : list (list ascii)) : bool := forallb (fun l => quietb l && (List.length l <=? 198)%nat) ls.
Lemma calmb_ok : forall ls, calmb ls = true -> Forall quiet ls /\ Forall (fun l => (List.length l <= 198)%nat) ls.
Proof.
  intros ls H. unfold calmb in H. rewrite forallb_forall in H. split; apply Forall_forall; intros l I; specialize (H l I); apply andb_true_iff in H as [A B].
  - apply quietb_ok; exact A.
  - apply Nat.leb_le; exact B.
Qed.
Lemma row_calm : forall tag k v, quiet (w_of tag) -> (List.length (w_of tag) + k <= 100)%nat -> value_ok v ->
  quiet (rowl tag k v) /\ (List.length (rowl tag k v) <= 198)%nat.
Proof.
  intros tag k v Q L (_ & QV & LV). unfold rowl. split.
  - apply Forall_app. split; [exact Q|]. apply Forall_app. split; [|exact QV]. apply Forall_forall. intros c I. apply repeat_spec in I. subst c. split; discriminate.
  - rewrite !app_length, repeat_length. lia.
Qed.
Lemma rows_value : forall p, ok_sset p -> Forall (fun r => exists tag k v, r = rowl tag k v /\ quiet (w_of tag) /\ (List.length (w_of tag) + k <= 100)%nat /\ value_ok v) (rows9 p).
Proof.
  intros p (S1 & S2 & S3 & F1 & F2 & F3 & F4 & F5 & F6). unfold rows9.
  repeat (apply Forall_cons; [do 3 eexists; split; [reflexivity|]; split; [apply quietb_ok; vm_compute; reflexivity|]; split; [vm_compute; lia|];
    first [apply value_int; assumption|apply value_pt; assumption]|]). constructor.
Qed.
Lemma rows_calm9 : forall p, ok_sset p -> Forall quiet (rows9 p) /\ Forall (fun l => (List.length l <= 198)%nat) (rows9 p).
Proof.
  intros p H. apply rows_value in H. split; (eapply Forall_impl; [|exact H]); intros r (tag & k & v & -> & Q & L & V); apply row_calm; assumption.
Qed.
Lemma line_calm : forall p, ok_sset p -> Forall quiet (line_heads ++ rows9 p ++ line_tails) /\ quiet end_line /\
  Forall (fun l => (List.length l <= 198)%nat) ((line_heads ++ rows9 p ++ line_tails) ++ [end_line]).
Proof.
  intros p H. destruct (rows_calm9 p H) as [Q L].
  destruct (calmb_ok line_heads) as [Q1 L1]; [vm_compute; reflexivity|]. destruct (calmb_ok line_tails) as [Q2 L2]; [vm_compute; reflexivity|].
  destruct (calmb_ok [end_line]) as [Q3 L3]; [vm_compute; reflexivity|].
  split; [repeat (apply Forall_app; split); assumption|]. split; [inversion Q3; assumption|]. repeat (apply Forall_app; split); assumption.
Qed.
Lemma write_plain : forall p, ok_sset p -> plain (write_options_line p).
Proof. intros p H. rewrite write_join. destruct (line_calm p H) as (Q & L & B). apply join_plain; assumption. Qed.
Lemma write_lines : forall p, ok_sset p -> lines (write_options_line p) = (line_heads ++ rows9 p ++ line_tails) ++ [end_line].
Proof. intros p H. rewrite write_join. destruct (line_calm p H) as (Q & L & B). apply join_lines; assumption. Qed.
Definition settings9 (p : sset) : list (word * word) :=
  [ (w_of "MaxNumberSaves", print_int (s_saves p)); (w_of "PTol", print_pt 2 (s_ptol p)); (w_of "NumberParticles", print_int (s_particles p));
    (w_of "NewLevelIntervalFactor", print_pt 2 (s_nlif p)); (w_of "SaveIntervalFactor", print_pt 2 (s_sif p));
    (w_of "ThreadStepsFactor", print_pt 2 (s_tsf p)); (w_of "MaxNumberLevels", print_int (s_levels p));
    (w_of "BacktrackingLength", print_pt 2 (s_lam p)); (w_of "StrengthEqualPush", print_pt 2 (s_beta p)) ].
Lemma write_settings : forall p, ok_sset p -> settings opt_comment (write_options_line p) = settings9 p.
Proof.
  intros p H. unfold settings. rewrite write_lines by exact H. rewrite !flat_map_app.
  set (f := fun l => match kind_of opt_comment l with Setting t v => [(t, v)] | _ => [] end).
  change (flat_map f line_heads) with (@nil (word * word)). change (flat_map f line_tails) with (@nil (word * word)). change (flat_map f [end_line]) with (@nil (word * word)).
  cbn [app]. rewrite !app_nil_r.
  assert (K : forall tag k v, nonspace (w_of tag) -> (1 <= k)%nat -> (match w_of tag with c :: _ => opt_comment c | [] => true end) = false -> value_ok v -> f (rowl tag k v) = [(w_of tag, v)]).
  { intros tag k v NT K C (NV & _). unfold f. rewrite (proj1 (kind_row tag k v NT K NV C)). reflexivity. }
  destruct H as (S1 & S2 & S3 & F1 & F2 & F3 & F4 & F5 & F6). unfold rows9, settings9. cbn [flat_map].
  assert (NT : forall tag, forallb (fun c => negb (isspace c)) (w_of tag) = true -> tag <> ""%string -> nonspace (w_of tag)).
  { intros tag A B. split; [destruct tag; [congruence|discriminate]|]. rewrite forallb_forall in A. apply Forall_forall. intros c I. specialize (A c I). apply negb_true_iff. exact A. }
  rewrite !K by first [apply NT; [vm_compute; reflexivity|discriminate]|lia|reflexivity|apply value_int; assumption|apply value_pt; assumption].
  reflexivity.
Qed.

(** ** The number of particles *)
Definition particles_name : word := w_of "NumberParticles".
Definition hash (l : list ascii) : bool := match l with c :: _ => if ascii_dec c "#" then true else false | [] => false end.
(** Lines of a single word are comments. *)
Definition no_single (f : list ascii) : Prop := forall l w, In l (lines f) -> words l = [w] -> exists r, l = "#"%char :: r.
Definition step (b : list ascii) (next : outcome Z) : outcome Z :=
  if hash b then next
  else match sscanf_words 2 (cstr b) with
       | [] => next
       | [_] => Exit
       | buf1 :: buf2 :: _ => if weqb buf1 (w_of "NumberParticles") then atoi buf2 else next
       end.
Definition found (l : list ascii) (next : outcome Z) : outcome Z :=
  match kind_of opt_comment l with Setting t v => if weqb t particles_name then atoi v else next | _ => next end.
Lemma hash_words : forall r, match words ("#"%char :: r) with (c :: _) :: _ => c = "#"%char | _ => False end.
Proof.
  intros r. unfold words. cbn [split_at]. change (isspace "#") with false. cbv iota.
  assert (N := split_at_nonempty isspace r). destruct (split_at isspace r) as [|w ws]; [congruence|]. reflexivity.
Qed.
Lemma step_line : forall b l next, ~ In NUL b -> words b = words l -> hash b = hash l -> (forall w, words l = [w] -> hash l = true) -> step b next = found l next.
Proof.
  intros b l next N W HB S. unfold step, found. rewrite HB. destruct (hash l) eqn:H.
  - destruct l as [|c l]; [discriminate H|]. cbn [hash] in H. destruct (ascii_dec c "#") as [->|]; [|discriminate H].
    unfold kind_of. assert (X := hash_words l). destruct (words ("#"%char :: l)) as [|[|c w1] [|w2 ws]]; try reflexivity; try contradiction.
    subst c. reflexivity.
  - rewrite cstr_id by exact N. rewrite sscanf_words_spec, W. unfold kind_of. destruct (words l) as [|w1 [|w2 ws]] eqn:E.
    + reflexivity.
    + specialize (S w1 eq_refl). discriminate S.
    + cbn [firstn]. assert (NE : w1 <> []) by (apply (words_nonempty l); rewrite E; left; reflexivity).
      destruct w1 as [|c w1]; [congruence|]. destruct (opt_comment c) eqn:C; [|reflexivity].
      destruct (weqb (c :: w1) (w_of "NumberParticles")) eqn:Q; [|reflexivity]. apply weqb_eq in Q. injection Q as -> _. discriminate C.
Qed.
Definition lookup (ls : list (list ascii)) : outcome Z := fold_right found (Ok 1%Z) ls.
Lemma lookup_given : forall ls, lookup ls = match given (flat_map (fun l => match kind_of opt_comment l with Setting t v => [(t, v)] | _ => [] end) ls) particles_name with
  Some w => atoi w | None => Ok 1%Z end.
Proof.
  induction ls as [|l ls IH]; [reflexivity|]. cbn [lookup fold_right flat_map]. unfold found at 1. fold (lookup ls). destruct (kind_of opt_comment l) as [| |t v]; try exact IH.
  cbn [app]. unfold given in *. cbn [find fst]. unfold weqb. destruct (list_eq_dec ascii_dec t particles_name); [reflexivity|exact IH].
Qed.
Lemma loop_line : forall n f buf, (List.length f < n)%nat -> plain f -> no_single f ->
  match buf with None => f <> [] | Some b => forall next, step b next = next end ->
  particles_loop n f buf = lookup (lines f).
Proof.
  induction n as [|n IH]; intros f buf Hn Hp HS HB; [lia|]. cbn [particles_loop].
  destruct (first_sep is_nl f) as [Hl|(l & c & r & -> & Hl & Hc)].
  - destruct Hp as [H0 H1]. unfold no_single in HS. unfold lines in *. fold is_nl in *. rewrite split_at_none in * by exact Hl.
    specialize (H1 f (or_introl eq_refl)). rewrite (fgets_last 255 f Hl) by lia. cbn [lookup fold_right]. destruct f as [|c f].
    + destruct buf as [b|]; [|congruence]. fold (hash b). fold (step b (Ok 1%Z)). rewrite HB. reflexivity.
    + fold (hash (c :: f)). fold (step (c :: f) (Ok 1%Z)). apply step_line; auto. intros w W. destruct (HS (c :: f) w (or_introl eq_refl) W) as [r E]. rewrite E. reflexivity.
  - assert (c = nl) as -> by (unfold is_nl in Hc; destruct (ascii_dec c nl); [assumption|discriminate]).
    destruct (plain_cons l r Hl Hp) as (Hlen & HN & Hr). rewrite fgets_line by (auto; lia).
    assert (E : lines (l ++ nl :: r) = l :: lines r) by (apply split_at_app; auto). rewrite E.
    assert (SL : forall next, step (l ++ [nl]) next = found l next).
    { intros next. apply step_line.
      - intros H. apply in_app_or in H as [H|[H|[]]]; [apply HN, H|discriminate H].
      - apply words_app_space. reflexivity.
      - destruct l; reflexivity.
      - intros w W. destruct (HS l w) as [r' ->]; [rewrite E; left; reflexivity|exact W|reflexivity]. }
    replace (match l ++ [nl] with [] => buf | _ :: _ => Some (l ++ [nl]) end) with (Some (l ++ [nl])) by (destruct l; reflexivity).
    fold (hash (l ++ [nl])). cbn [lookup fold_right]. fold (lookup (lines r)).
    match goal with |- (if _ then ?x else _) = _ => change (step (l ++ [nl]) x = found l (lookup (lines r))) end.
    rewrite SL. unfold found in *. destruct (kind_of opt_comment l) as [| |t v] eqn:K.
    1,2: apply IH; [rewrite app_length in Hn; simpl in Hn; lia|exact Hr|intros l' w' I W; apply (HS l' w'); [rewrite E; right; exact I|exact W]|exact SL].
    destruct (weqb t particles_name) eqn:Q; [reflexivity|].
    apply IH; [rewrite app_length in Hn; simpl in Hn; lia|exact Hr|intros l' w' I W; apply (HS l' w'); [rewrite E; right; exact I|exact W]|exact SL].
Qed.

(** The routine gives the first value of the option, one if there is none. *)
Theorem C95_particles : forall f, plain f -> f <> [] -> no_single f ->
  get_num_particles f = match given (settings opt_comment f) particles_name with Some w => atoi w | None => Ok 1%Z end.
Proof. intros f P N S. unfold get_num_particles. rewrite loop_line; [apply lookup_given|lia|exact P|exact S|exact N]. Qed.
Print Assumptions C95_particles.
Lemma atoi_decimal : forall w n, decimal w n -> (n < 2 ^ 31)%Z -> atoi w = Ok n.
Proof. intros w n D B. unfold atoi. assert (E := scan_d_ok [] w [] n ltac:(constructor) D B Logic.I). cbn [app] in E. rewrite app_nil_r in E. rewrite E. reflexivity. Qed.
Lemma dec_nonneg : forall w n, decimal w n -> (0 <= n)%Z.
Proof.
  intros w n (NE & D & <-). unfold dec_value. assert (G : forall w a, (0 <= a)%Z -> Forall isdigit w -> (0 <= fold_left (fun a c => 10 * a + (code c - 48)) w a)%Z).
  { induction w0 as [|c w0 IH]; intros a A F; [exact A|]. inversion F as [|? ? [F0 _] F1]; subst. cbn [fold_left]. apply IH; [lia|exact F1]. }
  apply G; [lia|exact D].
Qed.
(** The program and the sampler take the same number if it is written in digits. *)
Theorem C95_agree : forall f num_params totaltask o, plain f -> f <> [] -> no_single f ->
  (forall w, given (settings opt_comment f) particles_name = Some w -> exists n, decimal w n /\ (n < 2 ^ 31)%Z) ->
  options_load atof64 f num_params totaltask = Ok o -> get_num_particles f = Ok (op_particles o).
Proof.
  intros f num_params totaltask o P N S D H. rewrite C95_particles by assumption.
  destruct (C20_values _ _ _ _ _ P H) as (_ & I & _). unfold int_value in I. fold particles_name in I. destruct (given (settings opt_comment f) particles_name) as [w|].
  - destruct (D w eq_refl) as (n & W & B). rewrite (atoi_decimal w n W B). rewrite (atof_decimal w n W) in I; [congruence|].
    split; [eapply dec_nonneg; exact W|]. apply Z.lt_trans with (2 ^ 31)%Z; [exact B|reflexivity].
  - congruence.
Qed.
Print Assumptions C95_agree.

(** ** What the sampler reads in the written file *)
Ltac fv := cbn [settings9 given find fst snd]; reflexivity.
Lemma given9 : forall p, given (settings9 p) (w_of "MaxNumberSaves") = Some (print_int (s_saves p)) /\ given (settings9 p) (w_of "PTol") = Some (print_pt 2 (s_ptol p)) /\
  given (settings9 p) (w_of "NumberParticles") = Some (print_int (s_particles p)) /\ given (settings9 p) (w_of "NewLevelIntervalFactor") = Some (print_pt 2 (s_nlif p)) /\
  given (settings9 p) (w_of "SaveIntervalFactor") = Some (print_pt 2 (s_sif p)) /\ given (settings9 p) (w_of "ThreadStepsFactor") = Some (print_pt 2 (s_tsf p)) /\
  given (settings9 p) (w_of "MaxNumberLevels") = Some (print_int (s_levels p)) /\ given (settings9 p) (w_of "BacktrackingLength") = Some (print_pt 2 (s_lam p)) /\
  given (settings9 p) (w_of "StrengthEqualPush") = Some (print_pt 2 (s_beta p)).
Proof. intros p. repeat split. Qed.
Lemma int_read : forall z, (0 <= z < 2 ^ 31)%Z -> to_uint (atof64 (print_int z)) = Ok z.
Proof. intros z H. apply atof_decimal; [apply print_int_dec; lia|]. split; [lia|]. apply Z.lt_trans with (2 ^ 31)%Z; [lia|reflexivity]. Qed.
(** All nine settings arrive: integers exactly, numbers with two decimals. *)
Theorem C95_line : forall p num_params totaltask o, ok_sset p ->
  options_load atof64 (write_options_line p) num_params totaltask = Ok o ->
  op_particles o = s_particles p /\ op_maxlevels o = s_levels p /\ op_maxsaves o = s_saves p /\
  two_digits_kept (s_ptol p) (op_ptol o) /\ two_digits_kept (s_nlif p) (op_nlif o) /\ two_digits_kept (s_sif p) (op_sif o) /\
  two_digits_kept (s_tsf p) (op_tsf o) /\ two_digits_kept (s_lam p) (op_lam o) /\ two_digits_kept (s_beta p) (op_beta o).
Proof.
  intros p num_params totaltask o K H. destruct (C20_values _ _ _ _ _ (write_plain p K) H) as (_ & I1 & D1 & D2 & D3 & I2 & D4 & D5 & I3 & D6).
  rewrite (write_settings p K) in *. destruct (given9 p) as (G1 & G2 & G3 & G4 & G5 & G6 & G7 & G8 & G9).
  unfold int_value, dbl_value in *. rewrite G3 in I1. rewrite G7 in I2. rewrite G1 in I3. rewrite G4 in D1. rewrite G5 in D2. rewrite G6 in D3. rewrite G8 in D4. rewrite G9 in D5. rewrite G2 in D6.
  destruct K as (S1 & S2 & S3 & (F1 & _) & (F2 & _) & (F3 & _) & (F4 & _) & (F5 & _) & (F6 & _)).
  rewrite int_read in I1, I2, I3 by assumption. rewrite D1, D2, D3, D4, D5, D6.
  split; [congruence|]. split; [congruence|]. split; [congruence|]. repeat split; apply atof_pt; assumption.
Qed.
Print Assumptions C95_line.
(** The routine that looks up the particles finds the same number. *)
Theorem C95_line_particles : forall p, ok_sset p -> get_num_particles (write_options_line p) = Ok (s_particles p).
Proof.
  intros p K. rewrite C95_particles; [|apply write_plain; exact K|discriminate|].
  - rewrite (write_settings p K). destruct (given9 p) as (_ & _ & G3 & _). unfold particles_name. rewrite G3.
    destruct K as (S1 & S2 & S3 & _). apply atoi_decimal; [apply print_int_dec|]; lia.
  - intros l w I W. rewrite (write_lines p K) in I.
    assert (CL : forall ls, forallb (fun l => match words l with [_] => hash l | _ => true end) ls = true -> In l ls -> exists r, l = "#"%char :: r).
    { intros ls B J. rewrite forallb_forall in B. specialize (B l J). rewrite W in B. destruct l as [|c l]; [discriminate B|]. cbn [hash] in B.
      destruct (ascii_dec c "#") as [->|]; [eauto|discriminate B]. }
    apply in_app_iff in I as [I|I]; [|apply (CL [end_line]); [vm_compute; reflexivity|exact I]].
    apply in_app_iff in I as [I|I]; [apply (CL line_heads); [vm_compute; reflexivity|exact I]|].
    apply in_app_iff in I as [I|I]; [|apply (CL line_tails); [vm_compute; reflexivity|exact I]].
    exfalso. destruct K as (S1 & S2 & S3 & F1 & F2 & F3 & F4 & F5 & F6).
    assert (NT : forall tag k v, forallb (fun c => negb (isspace c)) (w_of tag) = true -> tag <> ""%string -> (1 <= k)%nat ->
      (match w_of tag with c :: _ => opt_comment c | [] => true end) = false -> value_ok v -> words (rowl tag k v) = [w] -> False).
    { intros tag k v A B L C (NV & _) X. rewrite (proj2 (kind_row tag k v ltac:(split; [destruct tag; [congruence|discriminate]|];
        rewrite forallb_forall in A; apply Forall_forall; intros c J; specialize (A c J); apply negb_true_iff; exact A) L NV C)) in X. discriminate X. }
    unfold rows9 in I. repeat (destruct I as [<-|I]; [revert W; apply NT; first [apply value_int; assumption|apply value_pt; assumption|lia|discriminate|vm_compute; reflexivity]|]).
    destruct I.
Qed.
Print Assumptions C95_line_particles.

(** ** When the written file is accepted *)
Lemma kept_close : forall x y, finite x -> decimals 2 x y -> (Rabs (B2R y - B2R x) <= / 100)%R.
Proof.
  intros x y F (FY & _ & n & H & N). specialize (N x F). replace (/ 2 / 10 ^ 2)%R with (/ 200)%R in H by (cbn; lra).
  replace (B2R y - B2R x)%R with ((B2R y - IZR n / 10 ^ 2) + - (B2R x - IZR n / 10 ^ 2))%R by ring. eapply Rle_trans; [apply Rabs_triang|]. rewrite Rabs_Ropp. lra.
Qed.
Lemma kept_ge : forall c x y, (0 <= c <= 1)%Z -> decimals 2 x y -> (IZR c <= B2R x)%R -> (IZR c <= B2R y)%R.
Proof.
  intros c x y C (FY & _ & n & H & N) X. replace (/ 2 / 10 ^ 2)%R with (/ 200)%R in H by (cbn; lra).
  replace (IZR n / 10 ^ 2)%R with (IZR n / 100)%R in * by (cbn; lra).
  assert (NC : (100 * c <= n)%Z).
  { apply Rabs_le_inv in H. assert (A : (IZR (100 * c) - 1 < IZR n)%R) by (rewrite mult_IZR; lra). rewrite <- minus_IZR in A. apply lt_IZR in A. lia. }
  apply IZR_le in NC. rewrite mult_IZR in NC.
  destruct (int_exact c) as [_ V]; [split; [lia|]; apply Z.le_lt_trans with 1%Z; [lia|reflexivity]|].
  assert (FC : finite (to_b64 false c 0)). { assert (E : (c = 0 \/ c = 1)%Z) by lia. destruct E as [-> | ->]; vm_compute; reflexivity. }
  specialize (N _ FC). rewrite V in N. destruct (Rle_lt_dec (IZR c) (B2R y)) as [L|L]; [exact L|exfalso].
  rewrite (Rabs_left1 (B2R y - _)), (Rabs_left1 (IZR c - _)) in N; lra.
Qed.
Lemma trunc_ok : forall q, (0 <= Q2R q)%R -> (0 <= trunc q)%Z /\ (IZR (trunc q) <= Q2R q)%R.
Proof.
  intros [a d] H. unfold Q2R in *. cbn [Qnum Qden] in *. unfold trunc. cbn [Qnum Qden]. assert (P : (0 < IZR (Z.pos d))%R) by (apply IZR_lt; reflexivity).
  assert (A : (0 <= a)%Z).
  { apply le_IZR. apply Rmult_le_reg_r with (/ IZR (Z.pos d))%R; [apply Rinv_0_lt_compat; exact P|]. rewrite Rmult_0_l. exact H. }
  rewrite Z.quot_div_nonneg by lia. split; [apply Z.div_pos; lia|]. apply Rmult_le_reg_r with (IZR (Z.pos d)); [exact P|].
  rewrite Rmult_assoc, Rinv_l, Rmult_1_r by lra. rewrite <- mult_IZR. apply IZR_le. rewrite Z.mul_comm. apply Z.mul_div_le. lia.
Qed.
Lemma Q2R_inj : forall z, Q2R (inject_Z z) = IZR z. Proof. intros z. unfold Q2R, inject_Z. cbn. field. Qed.

Theorem C95_accepted : forall p num_params totaltask, ok_sset p ->
  (1 <= B2R (s_nlif p))%R -> (0 <= B2R (s_sif p))%R -> (0 <= B2R (s_tsf p))%R -> (0 <= num_params)%Z -> (1 <= totaltask)%Z ->
  let steps := ((B2R (s_tsf p) + / 100) * IZR num_params * IZR (s_particles p))%R in
  (IZR totaltask * steps * (B2R (s_nlif p) + / 100) < 2 ^ 32)%R -> (IZR totaltask * steps * (B2R (s_sif p) + / 100) < 2 ^ 32)%R ->
  exists o, options_load atof64 (write_options_line p) num_params totaltask = Ok o.
Proof.
  intros p num_params totaltask K N1 N2 N3 P T steps B1 B2.
  assert (ST := write_settings p K). destruct (given9 p) as (G1 & G2 & G3 & G4 & G5 & G6 & G7 & G8 & G9).
  assert (KK := K). destruct KK as (S1 & S2 & S3 & F1 & (F2 & _) & (F3 & _) & (F4 & _) & F5 & F6).
  destruct (atof_pt _ F2) as (y1 & Y1 & q & Q & VQ). destruct (atof_pt _ F3) as (y2 & Y2 & s & S & VS). destruct (atof_pt _ F4) as (y3 & Y3 & t & TT & VT).
  assert (C1 := kept_close _ _ F2 Y1). assert (C2 := kept_close _ _ F3 Y2). assert (C3 := kept_close _ _ F4 Y3).
  apply Rabs_le_inv in C1. apply Rabs_le_inv in C2. apply Rabs_le_inv in C3.
  assert (L1 : (1 <= B2R y1)%R) by (apply (kept_ge 1 (s_nlif p)); [lia|exact Y1|exact N1]).
  assert (L2 : (0 <= B2R y2)%R) by (apply (kept_ge 0 (s_sif p)); [lia|exact Y2|exact N2]).
  assert (L3 : (0 <= B2R y3)%R) by (apply (kept_ge 0 (s_tsf p)); [lia|exact Y3|exact N3]).
  assert (PR : (0 <= IZR num_params)%R) by (apply IZR_le; exact P). assert (SR : (0 <= IZR (s_particles p))%R) by (apply IZR_le; lia).
  assert (TR : (1 <= IZR totaltask)%R) by (apply IZR_le; exact T).
  set (Qt := (inject_Z (s_particles p) * (inject_Z num_params * t))%Q).
  assert (VQt : Q2R Qt = (IZR (s_particles p) * (IZR num_params * B2R y3))%R) by (unfold Qt; rewrite !Q2R_mult, !Q2R_inj, VT; reflexivity).
  assert (MP : (0 <= IZR num_params * IZR (s_particles p))%R) by (apply Rmult_le_pos; assumption).
  assert (Qt0 : (0 <= Q2R Qt)%R) by (rewrite VQt; repeat apply Rmult_le_pos; assumption).
  assert (Qts : (Q2R Qt <= steps)%R).
  { rewrite VQt. unfold steps. replace (IZR (s_particles p) * (IZR num_params * B2R y3))%R with (B2R y3 * (IZR num_params * IZR (s_particles p)))%R by ring.
    rewrite Rmult_assoc. apply Rmult_le_compat_r; [exact MP|lra]. }
  destruct (trunc_ok Qt Qt0) as [TQ0 TQ1]. set (ts := trunc Qt) in *.
  assert (W32 : IZR (2 ^ 32) = (2 ^ 32)%R) by (rewrite (pow_IZR 2 32); reflexivity).
  assert (BND : forall a b, (0 <= a <= b + / 100)%R -> (IZR totaltask * steps * (b + / 100) < 2 ^ 32)%R -> (IZR (totaltask * ts) * a < 2 ^ 32)%R).
  { intros a b A X. eapply Rle_lt_trans; [|exact X]. rewrite mult_IZR. apply Rmult_le_compat; [|lra| |lra].
    - apply Rmult_le_pos; [lra|apply IZR_le; exact TQ0].
    - apply Rmult_le_compat_l; [lra|]. lra. }
  assert (BB1 : (IZR (totaltask * ts) * B2R y1 < 2 ^ 32)%R) by (apply (BND _ (B2R (s_nlif p))); [lra|exact B1]).
  assert (BB2 : (IZR (totaltask * ts) * B2R y2 < 2 ^ 32)%R) by (apply (BND _ (B2R (s_sif p))); [lra|exact B2]).
  assert (TS32 : (ts < 2 ^ 32)%Z).
  { apply lt_IZR. rewrite W32. eapply Rle_lt_trans; [|exact BB1]. rewrite mult_IZR. assert (0 <= IZR ts)%R by (apply IZR_le; exact TQ0).
    rewrite <- (Rmult_1_r (IZR ts)) at 1. apply Rmult_le_compat; [lra|lra| |lra]. rewrite <- (Rmult_1_l (IZR ts)) at 1. apply Rmult_le_compat_r; lra. }
  apply (C20_accepted atof64 (write_options_line p) num_params totaltask q s ts).
  - apply write_plain. exact K.
  - rewrite ST. split.
    + apply TagFacts.nodupb_ok. cbn [settings9 map fst]. vm_compute. reflexivity.
    + cbn [settings9 map fst]. unfold option_names. intros w I. cbn [map In] in *. tauto.
  - rewrite ST. intros tg v I J. unfold settings9 in I. cbn [In] in I.
    assert (NI : forall x, ~ In x option_ints -> In x option_ints -> exists z, to_uint (atof64 v) = Ok z) by (intros x A B; contradiction).
    repeat (destruct I as [I|I]; [injection I as <- <-; first [eexists; apply int_read; assumption|exfalso; cbn in J; repeat (destruct J as [J|J]; [discriminate J|]); destruct J]|]).
    destruct I.
  - rewrite ST. unfold dbl_value. rewrite G4. exact Q.
  - apply Rle_Qle. rewrite VQ. replace (Q2R 1) with 1%R by (unfold Q2R; cbn; field). exact L1.
  - rewrite ST. unfold dbl_value. rewrite G5. exact S.
  - apply Rle_Qle. rewrite VS. replace (Q2R 0) with 0%R by (unfold Q2R; cbn; field). exact L2.
  - rewrite ST. intros np I. unfold int_value in I. rewrite G3, int_read in I by exact S2. injection I as <-.
    unfold dbl_value. rewrite G6, TT. cbn [qmul]. fold Qt. unfold to_uint. fold ts.
    rewrite (proj2 (Z.leb_le _ _)), (proj2 (Z.ltb_lt _ _)) by assumption. reflexivity.
  - lia.
  - apply Rlt_Qlt. rewrite Q2R_mult, !Q2R_inj, VQ, W32. exact BB1.
  - apply Rlt_Qlt. rewrite Q2R_mult, !Q2R_inj, VS, W32. exact BB2.
Qed.
Print Assumptions C95_accepted.

(** ** The file of the continuum run *)
Definition equals (n : num) (r : R) : Prop := exists q, n = Num q /\ Q2R q = r.
(** The double nearest to 0.1. *)
Definition tenth : R := (IZR 7205759403792794 / IZR 72057594037927936)%R.
Definition q5 : Q := Qmake 5629499534213120 1125899906842624.
Definition q20 : Q := Qmake 5629499534213120 281474976710656.
Definition q01 : Q := Qmake 7205759403792794 72057594037927936.
Lemma con_read : read_file atof64 opt_comment opt_dict write_options_con opt_dflt =
  Ok (mkrs [true; true; false; true; false; false; false; true; true]
        [VI 2; VD (Num q5); VD (Num 2); VD (Num q20); VI 0; VD (Num 10); VD (Num 100); VI 2000; VD (Num q01)]).
Proof. vm_compute. reflexivity. Qed.
Theorem C95_con : forall num_params totaltask, (0 <= num_params)%Z -> (1 <= totaltask)%Z -> (totaltask * (40 * num_params) * 5 < 2 ^ 32)%Z ->
  exists o, options_load atof64 write_options_con num_params totaltask = Ok o /\
  op_particles o = 2%Z /\ op_maxlevels o = 0%Z /\ op_maxsaves o = 2000%Z /\
  equals (op_nlif o) 5 /\ equals (op_sif o) 5 /\ equals (op_tsf o) 20 /\ equals (op_lam o) 10 /\ equals (op_beta o) 100 /\ equals (op_ptol o) tenth /\
  op_steps o = (40 * num_params)%Z /\ op_nli o = (totaltask * (40 * num_params) * 5)%Z /\ op_si o = (totaltask * (40 * num_params) * 5)%Z.
Proof.
  intros np tot P T B. assert (A0 : (0 <= tot * (40 * np))%Z) by nia. set (A := (tot * (40 * np))%Z) in *.
  assert (V5 : Q2R q5 = 5%R) by (unfold Q2R, q5; cbn [Qnum Qden]; lra). assert (V20 : Q2R q20 = 20%R) by (unfold Q2R, q20; cbn [Qnum Qden]; lra).
  assert (V2 : inject_Z 2 = 2%Q) by reflexivity.
  assert (E1 : to_uint (qmul (qmul (Num q20) (inject_Z np)) (inject_Z 2)) = Ok (40 * np)%Z).
  { cbn [qmul]. apply to_uint_int; [|split; [lia|]; unfold A in *; nia]. rewrite !Q2R_mult, !Q2R_inj, V20, mult_IZR. ring. }
  assert (U : u32 A = A) by (unfold u32; apply Z.mod_small; lia).
  assert (E2 : to_uint (qmul (Num q5) (inject_Z A)) = Ok (A * 5)%Z).
  { cbn [qmul]. apply to_uint_int; [|lia]. rewrite Q2R_mult, Q2R_inj, V5, mult_IZR. reflexivity. }
  unfold options_load. rewrite con_read. cbn [bind fields isset get nth_error as_int as_num]. rewrite E1. cbn [bind]. fold A. rewrite U. rewrite E2. cbn [bind].
  rewrite (proj2 (Z.ltb_ge _ _)) by lia. eexists. split; [reflexivity|]. cbn [op_particles op_nlif op_sif op_tsf op_maxlevels op_lam op_beta op_maxsaves op_ptol op_steps op_nli op_si].
  assert (EQ : forall q r, Q2R q = r -> equals (Num q) r) by (intros q r H; exists q; auto).
  repeat (split; [first [reflexivity|apply EQ; assumption|apply EQ; unfold Q2R, q01, tenth; cbn [Qnum Qden]; lra]|]). reflexivity.
Qed.
Print Assumptions C95_con.
Example C95_con_case : exists o, options_load atof64 write_options_con 3 4 = Ok o /\ op_steps o = 120%Z /\ op_nli o = 2400%Z.
Proof. destruct (C95_con 3 4) as (o & H & R); [lia|lia|reflexivity|]. exists o. decompose [and] R. auto. Qed.

(** ** A case, and what goes wrong *)
Definition d01 : b64 := @B754_finite 53 1024 false 7205759403792794 (-56) eq_refl.  (* 0.1 *)
Definition d0003 : b64 := @B754_finite 53 1024 false 6917529027641082 (-61) eq_refl.  (* 0.003 *)
Definition d1 : b64 := @B754_finite 53 1024 false 4503599627370496 (-52) eq_refl.
Definition d10 : b64 := @B754_finite 53 1024 false 5629499534213120 (-49) eq_refl.
Definition d100 : b64 := @B754_finite 53 1024 false 7036874417766400 (-46) eq_refl.
Definition ex_set : sset := mksset 2000 d01 1 d1 d1 d1 0 d10 d100.
Definition small_set : sset := mksset 2000 d0003 1 d1 d1 d0003 0 d10 d100.
Lemma abs_lit : forall m e H, (Z.pos m * 2 ^ 0 <= 10 ^ 60)%Z -> (e <= 0)%Z -> fits (@B754_finite 53 1024 false m e H).
Proof.
  intros m e H M E. split; [reflexivity|]. rewrite B2R_abs. apply Rle_trans with (IZR (Z.pos m) * 1)%R.
  - apply Rmult_le_compat_l; [apply IZR_le; lia|]. change 1%R with (bpow radix2 0). apply bpow_le. exact E.
  - rewrite Rmult_1_r. change (10 ^ 60)%R with (10 ^ (Z.to_nat 60))%R. rewrite <- pow10 by lia. apply IZR_le. lia.
Qed.
Ltac okset := unfold ok_sset; cbn [s_saves s_particles s_levels s_ptol s_nlif s_sif s_tsf s_lam s_beta ex_set small_set];
  repeat split; try lia; try reflexivity; try (apply abs_lit; [vm_compute; discriminate|lia]).
Example C95_example : ok_sset ex_set /\ write_options_line ex_set <> [] /\
  exists o, options_load atof64 (write_options_line ex_set) 12 4 = Ok o /\ op_steps o = 12%Z /\ op_nli o = 48%Z /\ get_num_particles (write_options_line ex_set) = Ok 1%Z.
Proof.
  split; [|split; [discriminate|]].
  - okset.
  - eexists. split; [vm_compute; reflexivity|]. split; [reflexivity|]. split; [reflexivity|]. vm_compute. reflexivity.
Qed.
(** A tolerance and a factor of 0.003 are written as 0.00: the sampler gets the
    tolerance zero and makes no steps. *)
Theorem C95_small_refuted : exists p o, ok_sset p /\ (0 < B2R (s_ptol p))%R /\ (0 < B2R (s_tsf p))%R /\
  options_load atof64 (write_options_line p) 1000 4 = Ok o /\ equals (op_ptol o) 0 /\ op_steps o = 0%Z /\
  (1 <= B2R (s_tsf p) * 1000 * IZR (s_particles p))%R.
Proof.
  exists small_set. eexists. split; [okset|]. assert (V : B2R d0003 = (6917529027641082 / 2305843009213693952)%R).
  { unfold d0003. cbn [B2R SpecFloat.cond_Zopp]. unfold F2R. cbn [Fnum Fexp]. change (-61)%Z with (- (61))%Z. rewrite bpow_opp. change (bpow radix2 61) with 2305843009213693952%R. reflexivity. }
  cbn [s_ptol s_tsf s_particles small_set]. rewrite V. split; [lra|]. split; [lra|]. split; [vm_compute; reflexivity|].
  split; [|split; [reflexivity|lra]]. exists 0%Q. split; [reflexivity|]. unfold Q2R. cbn. lra.
Qed.
Print Assumptions C95_small_refuted.
(** Files the sampler accepts on which the routine that looks up the particles
    stops the program (a line of one word), reads uninitialised memory (an empty
    file) or finds another number (an exponent). *)
Theorem C95_lookup_refuted : exists f1 f2 f3 o1 o2 o3, plain f1 /\ plain f2 /\ plain f3 /\
  options_load atof64 f1 10 4 = Ok o1 /\ get_num_particles f1 = Exit /\
  options_load atof64 f2 10 4 = Ok o2 /\ get_num_particles f2 = UB /\
  options_load atof64 f3 10 4 = Ok o3 /\ op_particles o3 = 100%Z /\ get_num_particles f3 = Ok 1%Z.
Proof.
  exists (txt ["lonely"; "NumberParticles 2"]%string), [], (txt ["NumberParticles 1e2"]%string). do 3 eexists.
  do 3 (split; [apply plainb_ok; vm_compute; reflexivity|]). split; [vm_compute; reflexivity|]. split; [vm_compute; reflexivity|].
  split; [vm_compute; reflexivity|]. split; [vm_compute; reflexivity|]. split; [vm_compute; reflexivity|]. split; [reflexivity|]. vm_compute. reflexivity.
Qed.
Print Assumptions C95_lookup_refuted.
Example C95_agree_example : let f := txt ["# mine"; ""; "NumberParticles 007"; "PTol 0.2"]%string in
  plain f /\ f <> [] /\ no_single f /\ get_num_particles f = Ok 7%Z /\ exists o, options_load atof64 f 10 4 = Ok o /\ op_particles o = 7%Z.
Proof.
  cbv zeta. split; [apply plainb_ok; vm_compute; reflexivity|]. split; [discriminate|]. split.
  - intros l w I W. vm_compute in I. repeat (destruct I as [<-|I]; [try (vm_compute in W; discriminate W); eauto|]). destruct I.
  - split; [vm_compute; reflexivity|]. eexists. split; [vm_compute; reflexivity|]. reflexivity.
Qed.
