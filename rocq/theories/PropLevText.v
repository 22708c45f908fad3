(** Property C93: the level file and the information on the samples, from the
    sampler to the post-processing.

    [digits p x y]: y is a double nearest to a decimal of p significant digits
    that is nearest to x, and has the sign of x. *)
From Coq Require Import ZArith Reals Lra String List Bool Lia Ascii.
From Flocq Require Import Core BinarySingleNaN.
From Verif Require Import CPrelude ListLemmas TagModel TagSpec TagProofs ScanModel ScanProofs ScanProofs2 ScanProofs3 TextModel TextProofs TextReal TextSci SampTextModel PropSampText LevTextModel LevTextProofs PostModel PropPost.
Import ListNotations.
Open Scope R_scope.

Definition dec (n k : Z) : R := IZR n * powerRZ 10 k.
Definition digits (p : Z) (x y : b64) : Prop :=
  finite y /\ Bsign y = Bsign x /\
  exists n k : Z, (Z.abs n < 10 ^ p)%Z /\
    (forall n' k', (Z.abs n' < 10 ^ p)%Z -> Rabs (B2R x - dec n k) <= Rabs (B2R x - dec n' k')) /\
    forall z, finite z -> Rabs (B2R y - dec n k) <= Rabs (B2R z - dec n k).
(** What the sampler holds: the tiebreakers are in the unit interval, the counts
    are 64-bit, the other numbers ints. *)
Definition ok_level (r : lrow) : Prop :=
  finite (l_logX r) /\ finite (l_logL r) /\ finite (l_tb r) /\ Rabs (B2R (l_tb r)) <= 1 /\
  Forall (fun c => 0 <= c < 2 ^ 64)%Z [l_acc r; l_try r; l_exc r; l_vis r].
Definition ok_info (r : irow) : Prop :=
  (0 <= i_level r < 2 ^ 31)%Z /\ finite (i_logl r) /\ finite (i_tb r) /\ Rabs (B2R (i_tb r)) <= 1 /\ (0 <= i_id r < 2 ^ 31)%Z.
(** Levels and samples with the numbers the sampler has. *)
Definition level_true (r : lrow) : plevel := mkpl (B2R (l_logX r)) (B2R (l_logL r)).
Definition info_true (r : irow) : sinfo := mksi (i_level r) (B2R (i_logl r)) (B2R (i_tb r)).

(** ** Numbers *)
Lemma p10_dec : forall n k, IZR n * p10 k = dec n k.
Proof. intros n k. unfold dec. rewrite bpow_powerRZ. reflexivity. Qed.
Lemma back_digits : forall p x y, (0 < p)%Z -> back p x y -> digits p x y.
Proof.
  intros p x y P (F & V & S). split; [exact F|]. split; [exact S|].
  assert (VE : Valid_exp (flx p)) by (apply FLX_exp_valid; exact P).
  assert (FD : generic_format ten (flx p) (dig p (B2R x))) by (apply generic_format_round; [exact VE|apply valid_rnd_N]).
  assert (PG : Prec_gt_0 p) by exact P. apply (FLX_format_generic ten p) in FD. destruct FD as [f E B]. exists (Fnum f), (Fexp f). split; [exact B|].
  unfold F2R in E. rewrite p10_dec in E. rewrite <- E. split.
  - intros n' k' B'. rewrite (Rabs_minus_sym (B2R x)), (Rabs_minus_sym (B2R x) (dec n' k')).
    destruct (round_N_pt ten (flx p) (fun t => negb (Z.even t)) (B2R x)) as [_ H]. apply H. rewrite <- p10_dec. apply dig_format; auto.
  - intros z _. rewrite V. apply near_format. apply generic_format_B2R.
Qed.
Lemma print_d_writes : forall n, (0 <= n)%Z -> writes (print_d n) false (IZR n).
Proof.
  intros n N. exists n, 0%Z. split; [exact N|]. destruct (print_d_ok n N) as (NE & D & V). split.
  - exists false, (print_d n), [], [], 0%Z, []. rewrite !app_nil_r. rewrite V. repeat split; auto; left; auto.
  - rewrite dec_val_p10. change (p10 0) with 1. ring.
Qed.
Lemma rnd_int : forall n, (0 <= n < 2 ^ 31)%Z -> rnd (IZR n) = IZR n.
Proof.
  intros n B. apply round_generic; [apply valid_rnd_N|]. apply generic_format_FLT. exists (Float radix2 n 0).
  - unfold F2R. cbn. ring.
  - cbn [Fnum]. change (Zpower radix2 53) with 9007199254740992%Z. rewrite Z.abs_eq by lia. lia.
  - vm_compute. discriminate.
Qed.
Lemma scan_level : forall n sp r, (0 <= n < 2 ^ 31)%Z -> space sp -> ends r -> exists y, scan_lf (sp ++ print_d n ++ r) = Some (y, r) /\ B2R y = IZR n.
Proof.
  intros n sp r B SP E. destruct (writes_read _ _ _ sp r (print_d_writes n ltac:(lia))) as (y & S & _ & V & _); [|exact SP|exact E|].
  - rewrite dbl_max_Z. apply IZR_le. apply Z.le_trans with (2 ^ 31)%Z; [lia|]. vm_compute. discriminate.
  - exists y. split; [exact S|]. rewrite V. cbn [signed]. apply rnd_int. exact B.
Qed.
Lemma scan_f : forall x sp r, finite x -> space sp -> ends r -> exists y, scan_lf (sp ++ print_f x ++ r) = Some (y, r) /\ six_decimals x y.
Proof. intros x sp r F SP E. exists (reread x). split; [apply scan_print; auto|]. apply reread_six. exact F. Qed.

(** ** Rows *)
Definition calm (t : list ascii) : Prop := Forall (fun c => c <> nl /\ c <> NUL) t.
Lemma calm_app : forall a b, calm a -> calm b -> calm (a ++ b). Proof. intros. apply Forall_app; auto. Qed.
Lemma calm_cons : forall t, calm t -> calm (BL :: t). Proof. intros t H. constructor; [split; discriminate|exact H]. Qed.
Lemma calm_writes : forall t s v, writes t s v -> calm t.
Proof.
  intros t s v (n & p & _ & N & _). destruct (numeral_plain _ _ N) as [_ H]. eapply Forall_impl; [|exact H].
  intros c (A & _ & _ & _ & _ & B). split; [|exact B]. intros ->. discriminate A.
Qed.
Lemma calm_blanks : forall k, calm (repeat BL k). Proof. intros k. apply Forall_forall. intros c I. apply repeat_spec in I. subst. split; discriminate. Qed.
Lemma space_blanks : forall k, space (repeat BL k). Proof. intros k. apply Forall_forall. intros c I. apply repeat_spec in I. subst. reflexivity. Qed.
Lemma calm_fgets : forall l r, calm l -> (length l <= 254)%nat -> fgets 255 (l ++ nl :: r) = (l ++ [nl], r, false) /\ cstr (l ++ [nl]) = l ++ [nl].
Proof.
  intros l r C L. split.
  - apply fgets_line; [|lia]. eapply Forall_impl; [|exact C]. intros c [A _]. unfold is_nl. destruct (ascii_dec c nl); [congruence|reflexivity].
  - apply cstr_id. intros I. apply in_app_iff in I as [I|[I|[]]]; [|discriminate I]. unfold calm in C. rewrite Forall_forall in C. apply C in I. destruct I as [_ I]. congruence.
Qed.
Definition level_line (r : lrow) : list ascii :=
  padl 14 (print_g (l_logX r)) ++ BL :: padl 14 (print_g (l_logL r)) ++ BL :: print_f (l_tb r) ++
  BL :: print_d (l_acc r) ++ BL :: print_d (l_try r) ++ BL :: print_d (l_exc r) ++ BL :: print_d (l_vis r).
Definition info_line (r : irow) : list ascii := print_d (i_level r) ++ BL :: print_e (i_logl r) ++ BL :: print_f (i_tb r) ++ BL :: print_d (i_id r).
Ltac assoc := repeat (rewrite <- app_assoc || rewrite <- app_comm_cons).
Lemma print_level_line : forall r, print_level r = level_line r ++ [nl].
Proof. intros r. unfold print_level, level_line. assoc. reflexivity. Qed.
Lemma print_info_line : forall r, print_info r = info_line r ++ [nl].
Proof. intros r. unfold print_info, info_line. assoc. reflexivity. Qed.
Lemma calm_g : forall x, finite x -> calm (padl 14 (print_g x)).
Proof. intros x F. apply calm_app; [apply calm_blanks|]. eapply calm_writes, print_g_writes. exact F. Qed.
Lemma calm_f : forall x, finite x -> calm (print_f x). Proof. intros x F. eapply calm_writes, print_f_writes. exact F. Qed.
Lemma calm_e : forall x, finite x -> calm (print_e x). Proof. intros x F. eapply calm_writes, print_e_writes. exact F. Qed.
Lemma calm_d : forall n, (0 <= n)%Z -> calm (print_d n). Proof. intros n F. eapply calm_writes, print_d_writes. exact F. Qed.
Lemma level_calm : forall r, ok_level r -> calm (level_line r).
Proof.
  intros r (A & B & C & _ & D). inversion D as [|? ? D1 D']; inversion D' as [|? ? D2 D'']; inversion D'' as [|? ? D3 D3']; inversion D3' as [|? ? D4 _]; subst. unfold level_line.
  repeat (first [apply calm_g; assumption|apply calm_f; assumption|apply calm_d; lia|apply calm_cons|apply calm_app]).
Qed.
Lemma info_calm : forall r, ok_info r -> calm (info_line r).
Proof.
  intros r (A & B & C & _ & D). unfold info_line.
  repeat (first [apply calm_e; assumption|apply calm_f; assumption|apply calm_d; lia|apply calm_cons|apply calm_app]).
Qed.
Lemma padl_len : forall w t, (length (padl w t) <= w + length t)%nat.
Proof. intros w t. unfold padl. rewrite app_length, repeat_length. lia. Qed.
Lemma level_len : forall r, ok_level r -> (length (level_line r) <= 254)%nat.
Proof.
  intros r (A & B & C & U & D). inversion D as [|? ? D1 D']; inversion D' as [|? ? D2 D'']; inversion D'' as [|? ? D3 D3']; inversion D3' as [|? ? D4 _]; subst. unfold level_line.
  repeat (rewrite app_length || cbn [length]). assert (P1 := padl_len 14 (print_g (l_logX r))). assert (P2 := padl_len 14 (print_g (l_logL r))).
  assert (G1 := print_g_len _ A). assert (G2 := print_g_len _ B). assert (F := print_f_len _ C U).
  assert (Q : forall c, (0 <= c < 2 ^ 64)%Z -> (length (print_d c) <= 20)%nat).
  { intros c Hc. apply print_d_len; [|lia]. split; [lia|]. apply Z.lt_le_trans with (2 ^ 64)%Z; [lia|]. vm_compute. discriminate. }
  assert (Q1 := Q _ D1). assert (Q2 := Q _ D2). assert (Q3 := Q _ D3). assert (Q4 := Q _ D4). lia.
Qed.
Lemma info_len : forall r, ok_info r -> (length (info_line r) <= 254)%nat.
Proof.
  intros r (A & B & C & U & D). unfold info_line. repeat (rewrite app_length || cbn [length]).
  assert (E := print_e_len _ B). assert (F := print_f_len _ C U).
  assert (Q : forall c, (0 <= c < 2 ^ 31)%Z -> (length (print_d c) <= 20)%nat).
  { intros c Hc. apply print_d_len; [|lia]. split; [lia|]. apply Z.lt_le_trans with (2 ^ 31)%Z; [lia|]. vm_compute. discriminate. }
  assert (Q1 := Q _ A). assert (Q2 := Q _ D). lia.
Qed.
Lemma ends_bl : forall r, ends (BL :: r). Proof. intros. left. reflexivity. Qed.
Lemma three_level : forall r, ok_level r -> exists x y z, three (level_line r ++ [nl]) = Some (x, y, z) /\
  back 12 (l_logX r) x /\ back 12 (l_logL r) y /\ six_decimals (l_tb r) z.
Proof.
  intros r (A & B & C & _ & _). unfold level_line, padl. assoc. unfold three.
  match goal with |- context [scan_lf (repeat BL ?k ++ print_g _ ++ BL :: ?rest)] =>
    destruct (scan_g (l_logX r) (repeat BL k) (BL :: rest) A (space_blanks k) (ends_bl rest)) as (x & E & BX) end.
  rewrite E. clear E.
  match goal with |- context [scan_lf (BL :: repeat BL ?k ++ print_g _ ++ BL :: ?rest)] =>
    destruct (scan_g (l_logL r) (BL :: repeat BL k) (BL :: rest) B (space_blanks (S k)) (ends_bl rest)) as (y & E & BY) end.
  cbn [app] in E. rewrite E. clear E.
  match goal with |- context [scan_lf (BL :: print_f _ ++ BL :: ?rest)] =>
    destruct (scan_f (l_tb r) [BL] (BL :: rest) C (space_blanks 1) (ends_bl rest)) as (z & E & BZ) end.
  cbn [app] in E. rewrite E. exists x, y, z. auto.
Qed.
Lemma three_info : forall r, ok_info r -> exists x y z, three (info_line r ++ [nl]) = Some (x, y, z) /\
  B2R x = IZR (i_level r) /\ back 7 (i_logl r) y /\ six_decimals (i_tb r) z.
Proof.
  intros r (A & B & C & _ & _). unfold info_line. assoc. unfold three.
  match goal with |- context [scan_lf (print_d _ ++ BL :: ?rest)] =>
    destruct (scan_level (i_level r) [] (BL :: rest) A (space_blanks 0) (ends_bl rest)) as (x & E & BX) end.
  cbn [app] in E. rewrite E. clear E.
  match goal with |- context [scan_lf (BL :: print_e _ ++ BL :: ?rest)] =>
    destruct (scan_e (i_logl r) [BL] (BL :: rest) B (space_blanks 1) (ends_bl rest)) as (y & E & BY) end.
  cbn [app] in E. rewrite E. clear E.
  match goal with |- context [scan_lf (BL :: print_f _ ++ BL :: ?rest)] =>
    destruct (scan_f (i_tb r) [BL] (BL :: rest) C (space_blanks 1) (ends_bl rest)) as (z & E & BZ) end.
  cbn [app] in E. rewrite E. exists x, y, z. auto.
Qed.
Definition level_row (r : lrow) (t : b64 * b64 * b64) : Prop :=
  let '(x, y, z) := t in back 12 (l_logX r) x /\ back 12 (l_logL r) y /\ six_decimals (l_tb r) z.
Definition info_row (r : irow) (t : b64 * b64 * b64) : Prop :=
  let '(x, y, z) := t in B2R x = IZR (i_level r) /\ back 7 (i_logl r) y /\ six_decimals (i_tb r) z.
Lemma read_levels : forall rows more, Forall ok_level rows ->
  exists ls, read_table (length rows) (levels_text (rows ++ more)) = Ok ls /\ Forall2 level_row rows ls.
Proof.
  intros rows more F. unfold read_table, levels_text.
  rewrite (proj1 (calm_fgets levels_head _ ltac:(unfold calm; repeat (apply Forall_cons; [split; discriminate|]); apply Forall_nil) ltac:(cbn; lia))).
  rewrite flat_map_app. generalize (flat_map print_level more) as rest. intros rest.
  induction F as [|r rows O F (ls & E & R)]; [exists []; split; [reflexivity|constructor]|].
  destruct (three_level r O) as (x & y & z & T & B). cbn [length flat_map read_rows]. rewrite print_level_line. assoc. cbn [app].
  destruct (calm_fgets (level_line r) (flat_map print_level rows ++ rest) (level_calm r O) (level_len r O)) as [G C]. rewrite G, C, T, E. cbn [bind].
  exists ((x, y, z) :: ls). split; [reflexivity|]. constructor; [exact B|exact R].
Qed.
Lemma read_info : forall rows more, Forall ok_info rows ->
  exists ls, read_table (length rows) (info_text (rows ++ more)) = Ok ls /\ Forall2 info_row rows ls.
Proof.
  intros rows more F. unfold read_table, info_text.
  rewrite (proj1 (calm_fgets info_head _ ltac:(unfold calm; repeat (apply Forall_cons; [split; discriminate|]); apply Forall_nil) ltac:(cbn; lia))).
  rewrite flat_map_app. generalize (flat_map print_info more) as rest. intros rest.
  induction F as [|r rows O F (ls & E & R)]; [exists []; split; [reflexivity|constructor]|].
  destruct (three_info r O) as (x & y & z & T & B). cbn [length flat_map read_rows]. rewrite print_info_line. assoc. cbn [app].
  destruct (calm_fgets (info_line r) (flat_map print_info rows ++ rest) (info_calm r O) (info_len r O)) as [G C]. rewrite G, C, T, E. cbn [bind].
  exists ((x, y, z) :: ls). split; [reflexivity|]. constructor; [exact B|exact R].
Qed.
Lemma read_state_ok : forall a b, (0 <= a < 2 ^ 31)%Z -> (0 <= b < 2 ^ 31)%Z -> read_state (state_text a b) = Ok (a, b).
Proof.
  intros a b A B. unfold read_state, state_text.
  assert (E1 := scan_d_ok [] (print_d a) (BL :: print_d b ++ [nl]) a). cbn [app] in E1.
  rewrite E1; [|constructor|apply print_d_ok; lia|lia|intros [H _]; unfold code in H; cbn in H; lia].
  assert (E2 := scan_d_ok [BL] (print_d b) [nl] b). cbn [app] in E2.
  cbn [bind]. rewrite E2; [|repeat constructor|apply print_d_ok; lia|lia|apply no_digit_nl]. reflexivity.
Qed.

Lemma F2_impl : forall A B (R S : A -> B -> Prop) l m, (forall a b, R a b -> S a b) -> Forall2 R l m -> Forall2 S l m.
Proof. intros A B R S l m H F. induction F; constructor; auto. Qed.

(** ** C93 *)
(** Level files are read back with twelve digits, the tiebreaker with six
    decimals.  The file may hold more rows than are asked for. *)
Theorem C93_levels : forall rows more, Forall ok_level rows ->
  exists ls, read_table (length rows) (levels_text (rows ++ more)) = Ok ls /\
    Forall2 (fun r t => let '(x, y, z) := t in digits 12 (l_logX r) x /\ digits 12 (l_logL r) y /\ six_decimals (l_tb r) z) rows ls.
Proof.
  intros rows more F. destruct (read_levels rows more F) as (ls & E & R). exists ls. split; [exact E|]. eapply F2_impl; [|exact R].
  intros r [[x y] z] (A & B & C). split; [apply back_digits; [lia|exact A]|]. split; [apply back_digits; [lia|exact B]|exact C].
Qed.
(** The information on the samples is read back with the level itself, seven
    digits of the likelihood and six decimals of the tiebreaker. *)
Theorem C93_info : forall rows more, Forall ok_info rows ->
  exists ls, read_table (length rows) (info_text (rows ++ more)) = Ok ls /\
    Forall2 (fun r t => let '(x, y, z) := t in B2R x = IZR (i_level r) /\ digits 7 (i_logl r) y /\ six_decimals (i_tb r) z) rows ls.
Proof.
  intros rows more F. destruct (read_info rows more F) as (ls & E & R). exists ls. split; [exact E|]. eapply F2_impl; [|exact R].
  intros r [[x y] z] (A & B & C). split; [exact A|]. split; [apply back_digits; [lia|exact B]|exact C].
Qed.
(** Likelihoods written again after reading, as in the file of weights, have the
    same text. *)
Theorem C93_again : forall rows more ls, Forall ok_info rows ->
  (forall r, In r rows -> B2R (i_logl r) = 0 \/ bpow radix2 (-1000) <= Rabs (B2R (i_logl r))) ->
  read_table (length rows) (info_text (rows ++ more)) = Ok ls ->
  Forall2 (fun r t => let '(_, y, _) := t in print_e y = print_e (i_logl r)) rows ls.
Proof.
  intros rows more ls F N E. destruct (read_info rows more F) as (ls' & E' & R). rewrite E in E'. injection E' as <-. clear E.
  induction R as [|r [[x y] z] rows ls (_ & B & _) R IH]; constructor.
  - apply print_e_again; [inversion F as [|? ? (_ & Q & _) _]; exact Q|apply N; left; reflexivity|exact B].
  - inversion F; subst. apply IH; auto. intros q I. apply N. right. exact I.
Qed.

(** All three files together. *)
Definition saved (levels : list lrow) (infos : list irow) : outcome (list plevel * list sinfo) :=
  load (state_text (Z.of_nat (length levels)) (Z.of_nat (length infos))) (levels_text levels) (info_text infos).
Definition ok_run (levels : list lrow) (infos : list irow) : Prop :=
  Forall ok_level levels /\ Forall ok_info infos /\ (Z.of_nat (length levels) < 2 ^ 31)%Z /\ (Z.of_nat (length infos) < 2 ^ 31)%Z.
Definition near_level (r : lrow) (l : plevel) : Prop :=
  exists x y, back 12 (l_logX r) x /\ back 12 (l_logL r) y /\ l = mkpl (B2R x) (B2R y).
Definition near_info (r : irow) (s : sinfo) : Prop :=
  exists y t, back 7 (i_logl r) y /\ s = mksi (i_level r) (B2R y) t.
Lemma saved_ok : forall levels infos, ok_run levels infos -> exists L I, saved levels infos = Ok (L, I) /\ Forall2 near_level levels L /\ Forall2 near_info infos I.
Proof.
  intros levels infos (A & B & C & D). unfold saved, load. rewrite read_state_ok by lia. cbn [bind].
  destruct (read_levels levels [] A) as (ls & E & R). destruct (read_info infos [] B) as (is & E' & R'). rewrite app_nil_r in E, E'.
  rewrite !Nat2Z.id, E, E'. cbn [bind]. exists (map level_of ls), (map info_of is). split; [reflexivity|]. split.
  - clear - R. induction R as [|r [[x y] z] rows ls (P & Q & _) R IH]; constructor; [|exact IH]. exists x, y. auto.
  - clear - R'. induction R' as [|r [[x y] z] rows ls (P & Q & _) R IH]; constructor; [|exact IH]. exists y, (B2R z). split; [exact Q|].
    cbn [info_of]. rewrite P, Ztrunc_IZR. reflexivity.
Qed.
Lemma saved_inv : forall levels infos L I, ok_run levels infos -> saved levels infos = Ok (L, I) -> Forall2 near_level levels L /\ Forall2 near_info infos I.
Proof. intros levels infos L I K E. destruct (saved_ok levels infos K) as (L' & I' & E' & R). rewrite E in E'. injection E' as <- <-. exact R. Qed.
Lemma F2_nth : forall A B (R : A -> B -> Prop) l m, Forall2 R l m -> forall i b, nth_error m i = Some b -> exists a, nth_error l i = Some a /\ R a b.
Proof.
  intros A B R l m H. induction H as [|a b l m H0 H IH]; intros [|i] c E; cbn in E; try discriminate; [injection E as <-; exists a; split; [reflexivity|exact H0]|]. apply IH. exact E.
Qed.
Lemma F2_nth' : forall A B (R : A -> B -> Prop) l m, Forall2 R l m -> forall i a, nth_error l i = Some a -> exists b, nth_error m i = Some b /\ R a b.
Proof.
  intros A B R l m H. induction H as [|a b l m H0 H IH]; intros [|i] c E; cbn in E; try discriminate; [injection E as <-; exists b; split; [reflexivity|exact H0]|]. apply IH. exact E.
Qed.
Lemma F2_In : forall A B (R : A -> B -> Prop) l m, Forall2 R l m -> forall b, In b m -> exists a, In a l /\ R a b.
Proof. intros A B R l m H. induction H as [|a b l m H0 H IH]; intros c C; [destruct C|]. destruct C as [C|C]; [subst; exists a; split; [left; reflexivity|exact H0]|]. destruct (IH c C) as (z & Z1 & Z2). exists z. split; [right|]; auto. Qed.
Lemma F2_len : forall A B (R : A -> B -> Prop) l m, Forall2 R l m -> length l = length m.
Proof. intros A B R l m H. induction H; cbn; congruence. Qed.
Lemma tiny : bpow radix2 (-1075) <= / 1000000000000000.
Proof.
  apply Rle_trans with (bpow radix2 (-53)); [apply bpow_le; lia|]. change (-53)%Z with (- (53))%Z. rewrite b2_neg by lia. change (2 ^ 53)%Z with 9007199254740992%Z. lra.
Qed.
Lemma back12 : forall x y, back 12 x y -> Rabs (B2R y - B2R x) <= / 10 ^ 11 * (51 / 100) * Rabs (B2R x) + bpow radix2 (-1075).
Proof.
  intros x y B. assert (E := back_error 12 x y (or_intror eq_refl) B). change (7 - 12)%Z with (- (5))%Z in E. rewrite p10_neg in E by lia. change (10 ^ 5)%Z with 100000%Z in E.
  replace (/ 10 ^ 11 * (51 / 100)) with (/ 10 ^ 6 * (51 / 100) * / 100000) by lra. exact E.
Qed.
Lemma back7 : forall x y, back 7 x y -> Rabs (B2R y - B2R x) <= / 10 ^ 6 * (51 / 100) * Rabs (B2R x) + bpow radix2 (-1075).
Proof. intros x y B. assert (E := back_error 7 x y (or_introl eq_refl) B). change (7 - 7)%Z with 0%Z in E. change (p10 0) with 1 in E. rewrite Rmult_1_r in E. exact E. Qed.
(** Levels whose log prior mass is not positive and falls by more than a part in
    10^10 are read as admissible input of the post-processing. *)
Definition falling (levels : list lrow) : Prop :=
  (forall r, In r levels -> - 10 ^ 299 < B2R (l_logX r) <= 0) /\
  (forall i a b, nth_error levels i = Some a -> nth_error levels (S i) = Some b ->
     B2R (l_logX b) + (1 + Rabs (B2R (l_logX b))) / 10 ^ 10 < B2R (l_logX a)).
Theorem C93_admissible : forall levels infos, ok_run levels infos -> levels <> [] -> infos <> [] -> falling levels ->
  exists L I, saved levels infos = Ok (L, I) /\ length L = length levels /\ length I = length infos /\ admissible L I.
Proof.
  intros levels infos K NL NI (R & G). destruct (saved_ok levels infos K) as (L & I & E & RL & RI). exists L, I.
  split; [exact E|]. assert (LL := F2_len _ _ _ _ _ RL). assert (LI := F2_len _ _ _ _ _ RI). split; [auto|]. split; [auto|].
  assert (T := tiny). assert (TP := bpow_gt_0 radix2 (-1075)).
  split; [intros ->; destruct levels; [congruence|discriminate LL]|]. split; [intros ->; destruct infos; [congruence|discriminate LI]|]. split; [|split].
  - intros i a b EA EB. destruct (F2_nth _ _ _ _ _ RL i a EA) as (ra & QA & xa & ya & BA & _ & ->). destruct (F2_nth _ _ _ _ _ RL (S i) b EB) as (rb & QB & xb & yb & BB & _ & ->).
    cbn [pl_logX]. assert (H := G i ra rb QA QB). apply back12 in BA. apply back12 in BB.
    destruct (R ra (nth_error_In _ _ QA)) as [_ NA]. destruct (R rb (nth_error_In _ _ QB)) as [_ NB].
    rewrite (Rabs_left1 (B2R (l_logX ra))) in BA by exact NA. rewrite (Rabs_left1 (B2R (l_logX rb))) in BB, H by exact NB.
    apply Rabs_le_inv in BA. apply Rabs_le_inv in BB. lra.
  - intros l IL. destruct (F2_In _ _ _ _ _ RL l IL) as (r & IR & x & y & B & _ & ->). cbn [pl_logX]. destruct (R r IR) as [LO NR]. apply back12 in B.
    rewrite (Rabs_left1 (B2R (l_logX r))) in B by exact NR. apply Rabs_le_inv in B.
    assert (P : 10 ^ 299 * 10 = IZR (10 ^ 300)). { replace 10 with (IZR 10) by reflexivity. rewrite pow_IZR, <- mult_IZR. f_equal. }
    assert (1 <= 10 ^ 299) by (apply pow_R1_Rle; lra). lra.
  - intros s IS. destruct (F2_In _ _ _ _ _ RI s IS) as (r & IR & y & t & _ & ->). cbn [si_level]. destruct K as (_ & K & _). rewrite Forall_forall in K. apply K. exact IR.
Qed.
(** The order of two levels' likelihoods, and of two samples', is kept. *)
Theorem C93_order : forall levels infos L I, ok_run levels infos -> saved levels infos = Ok (L, I) ->
  (forall i j a b a' b', nth_error levels i = Some a -> nth_error levels j = Some b -> nth_error L i = Some a' -> nth_error L j = Some b' ->
     B2R (l_logL a) <= B2R (l_logL b) -> pl_logL a' <= pl_logL b') /\
  (forall i j a b a' b', nth_error infos i = Some a -> nth_error infos j = Some b -> nth_error I i = Some a' -> nth_error I j = Some b' ->
     B2R (i_logl a) <= B2R (i_logl b) -> si_logl a' <= si_logl b').
Proof.
  intros levels infos L I K E. destruct (saved_inv _ _ _ _ K E) as [RL RI]. split; intros i j a b a' b' A B A' B' H.
  - destruct (F2_nth _ _ _ _ _ RL i a' A') as (ra & QA & xa & ya & _ & BA & ->). destruct (F2_nth _ _ _ _ _ RL j b' B') as (rb & QB & xb & yb & _ & BB & ->).
    rewrite A in QA. rewrite B in QB. injection QA as <-. injection QB as <-. cbn [pl_logL]. eapply back_le; [|exact BA|exact BB|exact H]. lia.
  - destruct (F2_nth _ _ _ _ _ RI i a' A') as (ra & QA & ya & ta & BA & ->). destruct (F2_nth _ _ _ _ _ RI j b' B') as (rb & QB & yb & tb & BB & ->).
    rewrite A in QA. rewrite B in QB. injection QA as <-. injection QB as <-. cbn [si_logl]. eapply back_le; [|exact BA|exact BB|exact H]. lia.
Qed.
(** A sample that differs from every level by more than a part in 10^6 is put
    into the same level as with the numbers of the sampler. *)
Definition apart_from (s : irow) (r : lrow) : Prop :=
  Rmax (Rabs (B2R (i_logl s))) (Rabs (B2R (l_logL r))) / 10 ^ 6 + bpow radix2 (-1000) < Rabs (B2R (i_logl s) - B2R (l_logL r)).
Lemma apart_lt : forall s r y z, apart_from s r -> back 7 (i_logl s) y -> back 12 (l_logL r) z ->
  (B2R z < B2R y <-> B2R (l_logL r) < B2R (i_logl s)) /\ (B2R y <= B2R z <-> B2R (i_logl s) <= B2R (l_logL r)).
Proof.
  intros s r y z A B C. unfold apart_from in A. apply back7 in B. apply back12 in C. set (u := B2R (i_logl s)) in *. set (v := B2R (l_logL r)) in *.
  assert (M1 := Rmax_l (Rabs u) (Rabs v)). assert (M2 := Rmax_r (Rabs u) (Rabs v)). set (m := Rmax (Rabs u) (Rabs v)) in *.
  assert (T : bpow radix2 (-1075) * 4 <= bpow radix2 (-1000)).
  { change 4 with (bpow radix2 2). rewrite <- bpow_plus. apply bpow_le. lia. }
  assert (TP := bpow_gt_0 radix2 (-1075)). assert (U0 := Rabs_pos u). assert (V0 := Rabs_pos v).
  apply Rabs_le_inv in B. apply Rabs_le_inv in C.
  assert (D : Rabs (u - v) = u - v \/ Rabs (u - v) = v - u). { destruct (Rle_dec 0 (u - v)); [left; apply Rabs_pos_eq; auto|right; rewrite Rabs_left1 by lra; ring]. }
  destruct D as [D|D]; rewrite D in A; repeat split; intros H; lra.
Qed.
Theorem C93_sandwich : forall levels infos L I a s, ok_run levels infos -> saved levels infos = Ok (L, I) ->
  nth_error infos a = Some s -> (forall r, In r levels -> apart_from s r) ->
  forall i, in_level L I a i <-> in_level (map level_true levels) (map info_true infos) a i.
Proof.
  intros levels infos L I a s K E ES AP i. destruct (saved_inv _ _ _ _ K E) as [RL RI]. assert (LL := F2_len _ _ _ _ _ RL).
  destruct (F2_nth' _ _ _ _ _ RI a s ES) as (s' & ES' & y & t & BY & EQ).
  unfold in_level. rewrite ES'. rewrite (map_nth_error info_true _ _ ES).
  assert (W : sits L s' i <-> sits (map level_true levels) (info_true s) i).
  { unfold sits. subst s'. cbn [si_level si_logl info_true]. rewrite map_length, LL.
    assert (P1 : (exists l, nth_error L i = Some l /\ pl_logL l < B2R y) <-> (exists l, nth_error (map level_true levels) i = Some l /\ pl_logL l < B2R (i_logl s))).
    { split; intros (l & N & H).
      - destruct (F2_nth _ _ _ _ _ RL i l N) as (r & Q & x & z & _ & BZ & ->). exists (level_true r). split; [apply map_nth_error; exact Q|]. cbn [pl_logL level_true] in *.
        apply (apart_lt s r y z (AP r (nth_error_In _ _ Q)) BY BZ). exact H.
      - rewrite nth_error_map in N. destruct (nth_error levels i) as [r|] eqn:Q; [|discriminate N]. injection N as <-. destruct (F2_nth' _ _ _ _ _ RL i r Q) as (l & NL & x & z & _ & BZ & ->).
        eexists. split; [exact NL|]. cbn [pl_logL level_true] in *. apply (apart_lt s r y z (AP r (nth_error_In _ _ Q)) BY BZ). exact H. }
    assert (P2 : (forall j l, (i < j)%nat -> nth_error L j = Some l -> B2R y <= pl_logL l) <-> (forall j l, (i < j)%nat -> nth_error (map level_true levels) j = Some l -> B2R (i_logl s) <= pl_logL l)).
    { split; intros H j l J N.
      - rewrite nth_error_map in N. destruct (nth_error levels j) as [r|] eqn:Q; [|discriminate N]. injection N as <-. destruct (F2_nth' _ _ _ _ _ RL j r Q) as (l & NL & x & z & _ & BZ & ->).
        cbn [pl_logL level_true] in *. apply (apart_lt s r y z (AP r (nth_error_In _ _ Q)) BY BZ). exact (H j _ J NL).
      - destruct (F2_nth _ _ _ _ _ RL j l N) as (r & Q & x & z & _ & BZ & ->). cbn [pl_logL level_true] in *.
        apply (apart_lt s r y z (AP r (nth_error_In _ _ Q)) BY BZ). apply (H j (level_true r) J). apply map_nth_error. exact Q. }
    rewrite P1, P2. reflexivity. }
  split; intros (q & Q & H); injection Q as <-; eexists; (split; [reflexivity|]); apply W; exact H.
Qed.

(** Three levels and two samples.  The likelihoods of the samples are between the
    second and the third level. *)
Definition ex_level0 : lrow := mklr (B754_zero false) (@B754_finite 53 1024 true 9007199254740991 (971) eq_refl) (@B754_finite 53 1024 false 4503599627370496 (-53) eq_refl) 0 0 0 0.
Definition ex_level1 : lrow := mklr (@B754_finite 53 1024 true 4503599627370496 (-52) eq_refl) (@B754_finite 53 1024 false 8796095661035907 (-43) eq_refl) (@B754_finite 53 1024 false 4503599627370496 (-54) eq_refl) 3 10 4 12.
Definition ex_level2 : lrow := mklr (@B754_finite 53 1024 true 4644337115725824 (-51) eq_refl) (@B754_finite 53 1024 false 8796100059082418 (-43) eq_refl) (@B754_finite 53 1024 false 6755399441055744 (-53) eq_refl) 2 9 0 11.
Definition ex_low : irow := mkir 0 (@B754_finite 53 1024 false 8796096540645209 (-43) eq_refl) (@B754_finite 53 1024 false 4503599627370496 (-55) eq_refl) 5.
Definition ex_high : irow := mkir 1 (@B754_finite 53 1024 false 8796098299863813 (-43) eq_refl) (@B754_finite 53 1024 false 5629499534213120 (-53) eq_refl) 0.
Definition ex_far : irow := mkir 0 (@B754_finite 53 1024 false 8708132091985920 (-43) eq_refl) (@B754_finite 53 1024 false 6755399441055744 (-54) eq_refl) 7.

Lemma b2r_lit : forall s m k (H : SpecFloat.bounded 53 1024 m (- k) = true), (0 <= k)%Z -> B2R (@B754_finite 53 1024 s m (- k) H) = IZR (SpecFloat.cond_Zopp s (Zpos m)) / IZR (2 ^ k).
Proof. intros s m k H K. unfold B2R, F2R. cbn [Fnum Fexp]. rewrite b2_neg by exact K. reflexivity. Qed.
Ltac lits :=
  repeat match goal with |- context [B2R (@B754_finite 53 1024 ?s ?m (Z.neg ?k) ?H)] =>
    change (B2R (@B754_finite 53 1024 s m (Z.neg k) H)) with (B2R (@B754_finite 53 1024 s m (- Z.pos k) H)); rewrite (b2r_lit s m (Z.pos k) H ltac:(lia)) end;
  repeat match goal with |- context [(2 ^ Z.pos ?k)%Z] => let v := eval vm_compute in (2 ^ Z.pos k)%Z in change (2 ^ Z.pos k)%Z with v end; cbn [SpecFloat.cond_Zopp Z.opp].
Ltac small := split; lits; lra.
Lemma ex_vals : Rabs (B2R (l_logL ex_level1) - 1000.0003) <= / 10 ^ 9 /\ Rabs (B2R (l_logL ex_level2) - 1000.0008) <= / 10 ^ 9 /\
  Rabs (B2R (i_logl ex_low) - 1000.0004) <= / 10 ^ 9 /\ Rabs (B2R (i_logl ex_high) - 1000.0006) <= / 10 ^ 9 /\ B2R (i_logl ex_far) = 990 /\ B2R (l_logL ex_level0) = - dbl_max.
Proof.
  unfold ex_level1, ex_level2, ex_low, ex_high, ex_far, ex_level0. cbn [l_logL i_logl]. repeat split.
  1, 2, 3, 4: apply Rabs_le; small.
  - lits. lra.
  - rewrite dbl_max_Z. unfold B2R, F2R. cbn [Fnum Fexp SpecFloat.cond_Zopp]. rewrite <- (IZR_Zpower radix2) by lia. change (Zpower radix2 971) with (2 ^ 971)%Z.
    rewrite <- mult_IZR, <- opp_IZR. f_equal.
Qed.
Lemma ex_run : ok_run [ex_level0; ex_level1; ex_level2] [ex_low; ex_high; ex_far].
Proof.
  split; [|split; [|split; reflexivity]].
  - unfold ex_level0, ex_level1, ex_level2. repeat (apply Forall_cons || apply Forall_nil); (split; [reflexivity|split; [reflexivity|split; [reflexivity|]]]); cbn [l_tb l_acc l_try l_exc l_vis];
      (split; [apply Rabs_le; small|repeat constructor; lia]).
  - unfold ex_low, ex_high, ex_far. repeat (apply Forall_cons || apply Forall_nil); unfold ok_info; cbn [i_level i_logl i_tb i_id]; (split; [lia|split; [reflexivity|split; [reflexivity|split; [apply Rabs_le; small|lia]]]]).
Qed.
Example C93_text :
  levels_text [ex_level0; ex_level1; ex_level2] = flat_map (fun l => list_ascii_of_string l ++ [nl])
   ["# log_X, log_likelihood, tiebreaker, accepts, tries, exceeds, visits";
    "             0 -1.79769313486e+308 0.500000 0 0 0 0"; "            -1      1000.0003 0.250000 3 10 4 12"; "       -2.0625      1000.0008 0.750000 2 9 0 11"]%string /\
  info_text [ex_low; ex_high; ex_far] = flat_map (fun l => list_ascii_of_string l ++ [nl])
   ["# level assignment, log likelihood, tiebreaker, ID."; "0 1.000000e+03 0.125000 5"; "1 1.000001e+03 0.625000 0"; "0 9.900000e+02 0.375000 7"]%string.
Proof. split; vm_compute; reflexivity. Qed.
Example C93_example : falling [ex_level0; ex_level1; ex_level2] /\ (forall r, In r [ex_level0; ex_level1; ex_level2] -> apart_from ex_far r).
Proof.
  destruct ex_vals as (V1 & V2 & _ & _ & V5 & V6). split; [split|].
  - assert (1000 <= 10 ^ 299). { apply Rle_trans with (10 ^ 3); [lra|]. apply Rle_pow; [lra|lia]. }
    intros r [<-|[<-|[<-|[]]]]; unfold ex_level0, ex_level1, ex_level2; cbn [l_logX]; [cbn [B2R]; lra|split; lits; lra|split; lits; lra].
  - intros [|[|[|i]]] a b A B; cbn in A, B; try discriminate B; injection A as <-; injection B as <-; unfold ex_level0, ex_level1, ex_level2; cbn [l_logX].
    + lits. cbn [B2R]. rewrite Rabs_left1 by lra. lra.
    + lits. rewrite Rabs_left1 by lra. lra.
  - assert (T : bpow radix2 (-1000) <= / 1000000). { apply Rle_trans with (bpow radix2 (-53)); [apply bpow_le; lia|]. change (-53)%Z with (- (53))%Z. rewrite b2_neg by lia. change (2 ^ 53)%Z with 9007199254740992%Z. lra. }
    intros r [<-|[<-|[<-|[]]]]; unfold apart_from; rewrite V5.
    + rewrite V6. assert (D : 10000 <= dbl_max) by (rewrite dbl_max_Z; apply IZR_le; vm_compute; discriminate). rewrite (Rabs_pos_eq (990)), (Rabs_left1 (- dbl_max)) by lra.
      rewrite Rmax_right by lra. rewrite Rabs_pos_eq by lra. lra.
    + apply Rabs_le_inv in V1. rewrite (Rabs_pos_eq 990), (Rabs_pos_eq (B2R (l_logL ex_level1))) by lra. rewrite Rmax_right by lra. rewrite Rabs_left1 by lra. lra.
    + apply Rabs_le_inv in V2. rewrite (Rabs_pos_eq 990), (Rabs_pos_eq (B2R (l_logL ex_level2))) by lra. rewrite Rmax_right by lra. rewrite Rabs_left1 by lra. lra.
Qed.
Lemma dig_above : forall p n k v, (0 < p)%Z -> (10 ^ (p - 1) < n < 10 ^ p)%Z -> (IZR n - / 2) * p10 k < v -> IZR n * p10 k <= dig p v.
Proof.
  intros p n k v P B H. unfold dig. set (u := IZR n * p10 k).
  assert (VE : Valid_exp (flx p)) by (apply FLX_exp_valid; exact P).
  assert (T : (0 < 10 ^ (p - 1))%Z) by (apply Z.pow_pos_nonneg; lia).
  apply round_N_ge_midp; [exact VE|apply dig_format; [exact P|rewrite Z.abs_eq; lia]|].
  assert (NP : 0 < IZR n) by (apply IZR_lt; lia). assert (KP : 0 < p10 k) by apply bpow_gt_0.
  assert (UP : 0 < u) by (unfold u; apply Rmult_lt_0_compat; auto).
  assert (LO : p10 (k + p - 1) < u).
  { unfold u. replace (k + p - 1)%Z with ((p - 1) + k)%Z by lia. rewrite bpow_plus. apply Rmult_lt_compat_r; [lra|]. rewrite p10_Z by lia. apply IZR_lt. lia. }
  assert (M : mag ten u = (k + p)%Z :> Z).
  { apply mag_unique_pos. split; [lra|]. unfold u. replace (k + p)%Z with (p + k)%Z by lia. rewrite bpow_plus. apply Rmult_lt_compat_r; [lra|]. rewrite p10_Z by lia. apply IZR_lt. lia. }
  rewrite pred_eq_pos by lra. unfold pred_pos. rewrite M. destruct (Req_bool_spec u (p10 (k + p - 1))) as [Q|Q]; [lra|].
  rewrite ulp_neq_0 by lra. unfold cexp. rewrite M. unfold FLX_exp. replace (k + p - p)%Z with k by lia. unfold u. lra.
Qed.
(** Near a level the seven digits of the likelihood do not decide: one sample is
    put into a level too low, another into a level too high. *)
Theorem C93_sandwich_refuted : exists levels infos L I, ok_run levels infos /\ falling levels /\ saved levels infos = Ok (L, I) /\
  in_level (map level_true levels) (map info_true infos) 0 1 /\ in_level L I 0 0 /\
  in_level (map level_true levels) (map info_true infos) 1 1 /\ in_level L I 1 2.
Proof.
  destruct ex_vals as (V1 & V2 & V3 & V4 & _ & V6). exists [ex_level0; ex_level1; ex_level2], [ex_low; ex_high; ex_far].
  destruct (saved_ok _ _ ex_run) as (L & I & E & RL & RI). exists L, I. split; [exact ex_run|]. split; [apply C93_example|]. split; [exact E|].
  inversion RL as [|? l0 ? L1 N0 RL1]; subst. inversion RL1 as [|? l1 ? L2 N1 RL2]; subst. inversion RL2 as [|? l2 ? L3 N2 RL3]; subst. inversion RL3; subst. clear RL RL1 RL2 RL3.
  inversion RI as [|? s0 ? I1 M0 RI1]; subst. inversion RI1 as [|? s1 ? I2 M1 RI2]; subst. clear RI RI1.
  destruct N0 as (x0 & z0 & _ & C0 & ->), N1 as (x1 & z1 & _ & C1 & ->), N2 as (x2 & z2 & _ & C2 & ->), M0 as (y0 & t0 & B0 & ->), M1 as (y1 & t1 & B1 & ->).
  apply back12 in C1. apply back12 in C2. assert (TI := tiny). assert (TP := bpow_gt_0 radix2 (-1075)).
  apply Rabs_le_inv in V1. apply Rabs_le_inv in V2. apply Rabs_le_inv in V3. apply Rabs_le_inv in V4.
  rewrite (Rabs_pos_eq (B2R (l_logL ex_level1))) in C1 by lra. rewrite (Rabs_pos_eq (B2R (l_logL ex_level2))) in C2 by lra. apply Rabs_le_inv in C1. apply Rabs_le_inv in C2.
  assert (E3 : p10 (-3) = / 1000). { change (-3)%Z with (- (3))%Z. rewrite p10_neg by lia. reflexivity. }
  assert (Y0 : B2R y0 <= 1000).
  { destruct B0 as (_ & -> & _). rewrite <- (rnd_int 1000) by lia. apply rnd_le.
    replace 1000 with (IZR 1000000 * p10 (-3)) by (rewrite E3; lra). apply dig_below; [lia|lia|]. rewrite E3. lra. }
  assert (Y1 : 1000.00099 <= B2R y1).
  { destruct B1 as (_ & -> & _). assert (D : IZR 1000001 * p10 (-3) <= dig 7 (B2R (i_logl ex_high))) by (apply dig_above; [lia|lia|rewrite E3; lra]).
    rewrite E3 in D. apply rnd_le in D. assert (X := rnd_error (1000001 * / 1000)). rewrite (Rabs_pos_eq (1000001 * / 1000)) in X by lra. apply Rabs_le_inv in X.
    change (-53)%Z with (- (53))%Z in X. rewrite b2_neg in X by lia. change (2 ^ 53)%Z with 9007199254740992%Z in X. lra. }
  assert (DM : 10000 <= dbl_max) by (rewrite dbl_max_Z; apply IZR_le; vm_compute; discriminate).
  split; [|split; [|split]].
  - exists (info_true ex_low). split; [reflexivity|]. split; [cbn; lia|]. split.
    + right. exists (level_true ex_level1). split; [reflexivity|]. cbn [pl_logL level_true si_logl info_true]. lra.
    + intros [|[|[|j]]] l J N; try lia; [|destruct j; discriminate N]. injection N as <-. cbn [pl_logL level_true si_logl info_true]. lra.
  - eexists. split; [reflexivity|]. split; [cbn; lia|]. split; [left; reflexivity|].
    intros [|[|[|j]]] l J N; try lia; [| |destruct j; discriminate N]; injection N as <-; cbn [pl_logL si_logl]; lra.
  - exists (info_true ex_high). split; [reflexivity|]. split; [cbn; lia|]. split; [left; reflexivity|].
    intros [|[|[|j]]] l J N; try lia; [|destruct j; discriminate N]. injection N as <-. cbn [pl_logL level_true si_logl info_true]. lra.
  - eexists. split; [reflexivity|]. split; [cbn; lia|]. split.
    + right. eexists. split; [reflexivity|]. cbn [pl_logL si_logl]. lra.
    + intros [|[|[|j]]] l J N; try lia. destruct j; discriminate N.
Qed.
Print Assumptions C93_levels.
Print Assumptions C93_info.
Print Assumptions C93_again.
Print Assumptions C93_admissible.
Print Assumptions C93_order.
Print Assumptions C93_sandwich.
Print Assumptions C93_sandwich_refuted.
