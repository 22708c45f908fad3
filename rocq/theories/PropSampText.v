(** Property C92: the sample files.

    [six_decimals x y]: y is a double nearest to a decimal with six digits after
    the point that is nearest to x, and has the sign of x. *)
From Coq Require Import ZArith Reals Lra String List Bool Lia Ascii.
From Flocq Require Import Core BinarySingleNaN.
From Verif Require Import CPrelude ListLemmas TagModel TagSpec TagProofs ScanModel ScanProofs ScanProofs2 TextModel TextProofs TextReal SampTextModel.
Import ListNotations.

Definition finite (x : b64) : Prop := is_finite x = true.
Definition six_decimals (x y : b64) : Prop :=
  finite y /\ Bsign y = Bsign x /\
  exists n : Z, (Rabs (B2R x - IZR n / 10 ^ 6) <= / 2 / 10 ^ 6)%R /\
    forall z, finite z -> (Rabs (B2R y - IZR n / 10 ^ 6) <= Rabs (B2R z - IZR n / 10 ^ 6))%R.

Lemma sign_val : forall x : b64, finite x -> B2R x = if Bsign x then (- Rabs (B2R x))%R else Rabs (B2R x).
Proof.
  intros [s|s| |s m e H] F; try discriminate F; cbn [B2R Bsign].
  - rewrite Rabs_R0. destruct s; lra.
  - destruct s; cbn [SpecFloat.cond_Zopp].
    + rewrite Rabs_left1; [lra|]. apply F2R_le_0. simpl. lia.
    + rewrite Rabs_pos_eq; [reflexivity|]. apply F2R_ge_0. simpl. lia.
Qed.
Lemma reread_six : forall x, finite x -> six_decimals x (reread x).
Proof.
  intros x F. destruct (reread_ok x F) as (F' & S & V & H & _). split; [exact F'|]. split; [exact S|].
  exists (if Bsign x then - micro x else micro x)%Z. split.
  - rewrite (sign_val x F) at 1. destruct (Bsign x).
    + rewrite opp_IZR. replace (- Rabs (B2R x) - - IZR (micro x) / 10 ^ 6)%R with (- (Rabs (B2R x) - IZR (micro x) / 10 ^ 6))%R by (unfold Rdiv; ring).
      rewrite Rabs_Ropp. exact H.
    + exact H.
  - intros z Fz. rewrite (sign_val (reread x) F'), S, V. assert (Gz := generic_format_B2R 53 1024 z). destruct (Bsign x).
    + assert (G' : format (- B2R z)) by (apply generic_format_opp; exact Gz).
      assert (X := near_format _ (IZR (micro x) / 10 ^ 6) G'). rewrite opp_IZR.
      replace (- rnd (IZR (micro x) / 10 ^ 6) - - IZR (micro x) / 10 ^ 6)%R with (- (rnd (IZR (micro x) / 10 ^ 6) - IZR (micro x) / 10 ^ 6))%R by (unfold Rdiv; ring).
      replace (B2R z - - IZR (micro x) / 10 ^ 6)%R with (- (- B2R z - IZR (micro x) / 10 ^ 6))%R by (unfold Rdiv; ring).
      rewrite !Rabs_Ropp. exact X.
    + apply near_format. exact Gz.
Qed.
Lemma reread_again : forall x, finite x -> print_f (reread x) = print_f x.
Proof.
  intros x F. destruct (reread_ok x F) as (F' & S & _ & _ & M). rewrite !print_f_eq by assumption. rewrite S, M. reflexivity.
Qed.
Lemma reread_reread : forall x, finite x -> reread (reread x) = reread x.
Proof. intros x F. destruct (reread_ok x F) as (F' & S & _ & _ & M). unfold reread at 1. rewrite S, M. reflexivity. Qed.
Lemma scan_print : forall sp x r, finite x -> space sp -> ends r -> scan_lf (sp ++ print_f x ++ r) = Some (reread x, r).
Proof.
  intros sp x r F SP E. rewrite print_f_eq by exact F. apply scan_lf_ok; [apply fixed6_numeral, micro_nonneg|exact SP|exact E].
Qed.

(** ** Reading what was printed *)
Definition good (n : nat) (rows : list (list b64)) : Prop := Forall (fun r => length r = n /\ Forall finite r) rows.
Definition body (pm : list b64) : list ascii := flat_map (fun x => print_f x ++ [BL]) pm.
Lemma body_ok : forall pm sp r, Forall finite pm -> space sp -> exists sp', space sp' /\
  read_particle (length pm) (sp ++ body pm ++ r) = Ok (map reread pm, sp' ++ r).
Proof.
  induction pm as [|x pm IH]; intros sp r F SP.
  - exists sp. split; auto.
  - inversion F as [|? ? F0 F1]; subst. cbn [length read_particle body flat_map]. rewrite <- !app_assoc.
    rewrite scan_print; [|exact F0|exact SP|left; reflexivity].
    destruct (IH [BL] r F1) as (sp' & SP' & E). { repeat constructor. }
    change ([BL] ++ flat_map (fun x => print_f x ++ [BL]) pm ++ r) with ([BL] ++ body pm ++ r). rewrite E. cbn [bind].
    exists sp'. split; [exact SP'|reflexivity].
Qed.
Lemma space_app : forall a b, space a -> space b -> space (a ++ b). Proof. intros. apply Forall_app; auto. Qed.
Lemma row_ok : forall pm sp r, Forall finite pm -> space sp -> exists sp', space sp' /\
  read_particle (length pm) (sp ++ print_particle pm ++ r) = Ok (map reread pm, sp' ++ r).
Proof.
  intros pm sp r F SP. unfold print_particle. rewrite <- app_assoc. destruct (body_ok pm sp ([nl] ++ r) F SP) as (sp' & SP' & E).
  exists (sp' ++ [nl]). split; [apply space_app; [exact SP'|repeat constructor]|]. unfold body in E. rewrite E. rewrite <- app_assoc. reflexivity.
Qed.
Lemma read_particles_ok : forall n rows more sp, good n rows -> space sp ->
  read_particles n (length rows) (sp ++ flat_map print_particle rows ++ more) = Ok (map (map reread) rows).
Proof.
  induction rows as [|p rows IH]; intros more sp G SP; [reflexivity|]. inversion G as [|? ? [L F] G']; subst.
  cbn [length read_particles flat_map map]. rewrite <- app_assoc.
  destruct (row_ok p sp (flat_map print_particle rows ++ more) F SP) as (sp' & SP' & ->). cbn [bind].
  rewrite (IH more sp' G' SP'). reflexivity.
Qed.
Lemma read_samples_ok : forall n rows more, good n rows ->
  read_samples n (length rows) (sample_text (rows ++ more)) = Ok (map (map reread) rows).
Proof.
  intros n rows more G. unfold read_samples, sample_text. cbn [app]. rewrite flat_map_app.
  change (read_particles n (length rows) (flat_map print_particle rows ++ flat_map print_particle more) = Ok (map (map reread) rows)).
  apply (read_particles_ok n rows (flat_map print_particle more) [] G). constructor.
Qed.
Lemma skip_skip : forall f, skip_space (skip_space f) = skip_space f.
Proof. induction f as [|c f IH]; [reflexivity|]. cbn [skip_space]. destruct (isspace c) eqn:E; [exact IH|]. cbn [skip_space]. rewrite E. reflexivity. Qed.
Lemma read_rest_skip : forall n k f, read_rest n k (skip_space f) = read_rest n k f.
Proof.
  intros [|n] k f.
  - assert (X : forall k f, read_rest 0 k f = Ok (repeat [] k)).
    { clear. induction k as [|k IH]; intros f; [reflexivity|]. cbn [read_rest read_particle bind repeat]. rewrite IH. reflexivity. }
    rewrite !X. reflexivity.
  - destruct k as [|k]; [reflexivity|]. cbn [read_rest read_particle]. unfold scan_lf. rewrite skip_skip. reflexivity.
Qed.
Lemma read_rest_ok : forall n rows sp, good n rows -> space sp ->
  read_rest n (length rows) (sp ++ flat_map print_particle rows) = Ok (map (map reread) rows).
Proof.
  induction rows as [|p rows IH]; intros sp G SP; [reflexivity|]. inversion G as [|? ? [L F] G']; subst.
  cbn [length read_rest flat_map map]. destruct (row_ok p sp (flat_map print_particle rows) F SP) as (sp' & SP' & ->). cbn [bind].
  rewrite skip_space_app by exact SP'. rewrite read_rest_skip. rewrite <- (app_nil_l (flat_map _ _)). rewrite IH by (auto; constructor). reflexivity.
Qed.

(** ** Picking *)
Lemma place_len : forall i p idx ps, length ps = length idx -> length (place i p idx ps) = length idx.
Proof. induction idx as [|j idx IH]; intros [|q ps] L; simpl in *; try lia. rewrite IH; lia. Qed.
Lemma place_nth : forall i p idx ps j k, length ps = length idx -> nth_error idx j = Some k ->
  nth_error (place i p idx ps) j = if (k =? i)%nat then Some (Some p) else nth_error ps j.
Proof.
  induction idx as [|a idx IH]; intros [|q ps] j k L N; simpl in L; try lia; [destruct j; discriminate N|].
  destruct j as [|j]; cbn [nth_error place] in *; [injection N as ->; destruct (k =? i)%nat; reflexivity|]. apply IH; [lia|exact N].
Qed.
Lemma pick_nth : forall rows i idx ps j k, length ps = length idx -> nth_error idx j = Some k ->
  nth_error (pick i rows idx ps) j = if (i <=? k)%nat then (match nth_error rows (k - i) with Some p => Some (Some p) | None => nth_error ps j end) else nth_error ps j.
Proof.
  induction rows as [|p rows IH]; intros i idx ps j k L N; cbn [pick].
  - destruct (i <=? k)%nat; [|reflexivity]. destruct (k - i)%nat; reflexivity.
  - rewrite (IH (S i) idx _ j k) by (auto; apply place_len; auto). rewrite (place_nth i p idx ps j k L N).
    destruct (Nat.leb_spec (S i) k) as [A|A], (Nat.leb_spec i k) as [B|B], (Nat.eqb_spec k i) as [C|C]; try lia.
    + replace (k - i)%nat with (S (k - S i)) by lia. reflexivity.
    + replace (k - i)%nat with 0%nat by lia. reflexivity.
    + reflexivity.
Qed.
Lemma pick_len : forall rows i idx ps, length ps = length idx -> length (pick i rows idx ps) = length idx.
Proof. induction rows as [|p rows IH]; intros i idx ps L; [exact L|]. cbn [pick]. apply IH. apply place_len; auto. Qed.
Lemma pick_ok : forall rows idx, Forall (fun i => (i < length rows)%nat) idx ->
  pick 0 rows idx (map (fun _ => None) idx) = map Some (map (fun i => nth i rows []) idx).
Proof.
  intros rows idx F. apply nth_ext with (d := None) (d' := None).
  - rewrite pick_len by apply map_length. rewrite !map_length. reflexivity.
  - intros j H. rewrite pick_len in H by apply map_length.
    destruct (nth_error idx j) as [k|] eqn:E; [|apply nth_error_None in E; lia].
    assert (K : (k < length rows)%nat) by (rewrite Forall_forall in F; apply F; eapply nth_error_In; eauto).
    apply nth_error_nth. rewrite (pick_nth rows 0 idx _ j k) by (auto; apply map_length). cbn [Nat.leb]. rewrite Nat.sub_0_r.
    rewrite (nth_error_nth' rows [] K). rewrite map_map. f_equal. symmetry. apply nth_error_nth. rewrite (map_nth_error _ _ _ E). reflexivity.
Qed.
Lemma mapM_some : forall (l : list (list b64)), mapM (fun q : option (list b64) => match q with Some p => Ok p | None => UB end) (map Some l) = Ok l.
Proof. induction l as [|a l IH]; [reflexivity|]. cbn [map mapM bind]. rewrite IH. reflexivity. Qed.

(** ** Lines *)
Lemma print_f_nonl : forall x, finite x -> Forall (fun c => c <> nl) (print_f x).
Proof.
  intros x F. rewrite print_f_eq by exact F. destruct (numeral_plain _ _ (fixed6_numeral (Bsign x) (micro x) (micro_nonneg x))) as [_ H].
  eapply Forall_impl; [|exact H]. intros c (A & _) ->. discriminate A.
Qed.
Lemma split_app : forall sep (w r : list ascii), Forall (fun c => sep c = false) w ->
  split_at sep (w ++ r) = match split_at sep r with a :: b => (w ++ a) :: b | [] => [w] end.
Proof.
  induction w as [|c w IH]; intros r F.
  - cbn [app]. destruct r as [|c r]; [reflexivity|]. cbn [split_at]. destruct (sep c); [reflexivity|]. destruct (split_at sep r); reflexivity.
  - inversion F as [|? ? F0 F1]; subst. cbn [app split_at]. rewrite F0, IH by exact F1. destruct (split_at sep r); reflexivity.
Qed.
Lemma lines_row : forall p r, Forall finite p -> lines (print_particle p ++ r) = body p :: lines r.
Proof.
  intros p r F. unfold lines, print_particle. rewrite <- app_assoc. fold (body p). rewrite split_app.
  - cbn [app split_at]. destruct (ascii_dec nl nl); [rewrite app_nil_r; reflexivity|congruence].
  - apply Forall_forall. intros c I. unfold body in I. apply in_flat_map in I as (x & X & I). rewrite Forall_forall in F. specialize (F x X).
    destruct (ascii_dec c nl) as [->|]; [|reflexivity]. exfalso. apply in_app_iff in I as [I|[I|[]]]; [|discriminate I].
    pose proof (print_f_nonl x F) as Q. rewrite Forall_forall in Q. apply (Q _ I). reflexivity.
Qed.
Lemma lines_rows : forall n rows, good n rows -> lines (flat_map print_particle rows) = map body rows ++ [[]].
Proof.
  induction rows as [|p rows IH]; intros G; [reflexivity|]. inversion G as [|? ? [L F] G']; subst. cbn [flat_map map app]. rewrite lines_row by exact F.
  rewrite IH by exact G'. reflexivity.
Qed.
Lemma lines_sample : forall n rows, good n rows -> lines (sample_text rows) = [HASH; BL] :: map body rows ++ [[]].
Proof. intros n rows G. rewrite <- (lines_rows n rows G). reflexivity. Qed.
Lemma good_app : forall n a b, good n (a ++ b) <-> good n a /\ good n b.
Proof. intros. unfold good. apply Forall_app. Qed.

(** ** C92 *)
(** A number written in a file, [-]digits[.digits][e+-digits], is read as the
    double nearest to its value if that is in the range of doubles. *)
Lemma dec_val_pow : forall n p, dec_val n p = (IZR n * powerRZ 10 p)%R.
Proof.
  intros n p. unfold dec_val. destruct (Z.leb_spec 0 p) as [L|L].
  - destruct p as [|p|p]; [reflexivity|reflexivity|lia].
  - destruct p as [|p|p]; try lia. reflexivity.
Qed.
Lemma valf_nonneg : forall w a, Forall isdigit w -> (0 <= a)%Z -> (0 <= valf a w)%Z.
Proof.
  induction w as [|c w IH]; intros a F A; [exact A|]. inversion F as [|? ? [C1 C2] F1]; subst. unfold valf. cbn [fold_left]. apply IH; [exact F1|lia].
Qed.
Lemma dec_value_nonneg : forall w, Forall isdigit w -> (0 <= dec_value w)%Z.
Proof. intros w F. apply valf_nonneg; [exact F|lia]. Qed.
Definition dbl_max : R := (bpow radix2 1024 - bpow radix2 971)%R.
Lemma dbl_max_format : format dbl_max.
Proof.
  assert (H := generic_format_B2R 53 1024 (@B754_finite 53 1024 false 9007199254740991 971 eq_refl)).
  replace dbl_max with (B2R (@B754_finite 53 1024 false 9007199254740991 971 eq_refl)); [exact H|].
  unfold B2R, F2R, dbl_max. cbn [SpecFloat.cond_Zopp Fnum Fexp]. change 1024%Z with (53 + 971)%Z. rewrite bpow_plus.
  replace (bpow radix2 53) with (IZR 9007199254740992) by (rewrite <- (IZR_Zpower radix2) by lia; f_equal).
  change 9007199254740992%Z with (9007199254740991 + 1)%Z. rewrite plus_IZR. ring.
Qed.
Theorem C92_numbers : forall sp (neg : bool) w w' f e g rest,
  space sp -> w <> [] -> Forall isdigit w -> optional_digits w' f -> optional_exponent e g -> ends rest ->
  let v := ((if neg then -1 else 1) * IZR (dec_value (w ++ w')) * powerRZ 10 (e - Z.of_nat (length w')))%R in
  (Rabs v <= dbl_max)%R ->
  exists x, scan_lf (sp ++ (minus neg ++ w ++ f ++ g) ++ rest) = Some (x, rest) /\ finite x /\ Bsign x = neg /\
    forall z, finite z -> (Rabs (B2R x - v) <= Rabs (B2R z - v))%R.
Proof.
  intros sp neg w w' f e g rest SP NE D OF OE EN v B.
  set (n := dec_value (w ++ w')) in *. set (p := (e - Z.of_nat (length w'))%Z) in *.
  exists (to_b64 neg n p). split.
  { apply scan_lf_ok; [|exact SP|exact EN]. exists neg, w, w', f, e, g. repeat split; auto. }
  assert (DW' : Forall isdigit w') by (destruct OF as [[_ ->]|(_ & A)]; [constructor|exact A]).
  assert (N0 : (0 <= n)%Z) by (apply dec_value_nonneg, Forall_app; auto).
  assert (V0 : (0 <= dec_val n p)%R).
  { rewrite dec_val_pow. apply Rmult_le_pos; [apply IZR_le; exact N0|]. apply powerRZ_le. lra. }
  assert (VE : v = (if neg then - dec_val n p else dec_val n p)%R).
  { unfold v. rewrite dec_val_pow. destruct neg; ring. }
  assert (VB : (dec_val n p <= dbl_max)%R).
  { rewrite VE in B. destruct neg; [rewrite Rabs_Ropp in B|]; rewrite Rabs_pos_eq in B; auto. }
  assert (RP : (0 <= rnd (dec_val n p))%R).
  { rewrite <- (round_0 radix2 fe ZnearestE). apply round_le; [apply fexp_correct; reflexivity|apply valid_rnd_N|exact V0]. }
  assert (RB : (rnd (dec_val n p) <= dbl_max)%R).
  { rewrite <- (round_generic radix2 fe ZnearestE dbl_max dbl_max_format). apply round_le; [apply fexp_correct; reflexivity|apply valid_rnd_N|exact VB]. }
  destruct (to_b64_ok neg n p N0) as (F & A & S).
  { rewrite Rabs_pos_eq by exact RP. assert (P := bpow_gt_0 radix2 971). unfold dbl_max in RB. lra. }
  split; [exact F|]. split; [exact S|]. intros z Fz. rewrite (sign_val _ F), S, A, VE.
  assert (Gz := generic_format_B2R 53 1024 z). destruct neg.
  - assert (X := near_format _ (dec_val n p) (generic_format_opp _ _ _ Gz)).
    replace (- rnd (dec_val n p) - - dec_val n p)%R with (- (rnd (dec_val n p) - dec_val n p))%R by ring.
    replace (B2R z - - dec_val n p)%R with (- (- B2R z - dec_val n p))%R by ring. rewrite !Rabs_Ropp. exact X.
  - apply near_format. exact Gz.
Qed.
(** The particles are read from the sample file as they were saved, to six
    decimals.  The file may hold more than are asked for. *)
Theorem C92_sample : forall n rows more, good n rows ->
  exists rows', read_samples n (length rows) (sample_text (rows ++ more)) = Ok rows' /\ Forall2 (Forall2 six_decimals) rows rows'.
Proof.
  intros n rows more G. exists (map (map reread) rows). split; [apply read_samples_ok; exact G|].
  induction G as [|p rows [_ F] G IH]; [constructor|]. constructor; [|exact IH].
  induction F as [|x p F0 F IHp]; constructor; [apply reread_six; exact F0|exact IHp].
Qed.
(** The posterior sample file has the number of particles and then copies of
    lines of the sample file: line i+1 for every index i drawn. *)
Definition posterior_text (f : list ascii) (idx : list nat) : list ascii :=
  [HASH; BL] ++ print_d (Z.of_nat (length idx)) ++ [nl] ++ flat_map (fun i => nth (S i) (lines f) [] ++ [nl]) idx.
Theorem C92_posterior : forall n rows idx, good n rows -> Forall (fun i => (i < length rows)%nat) idx ->
  posterior_file n (length rows) idx (sample_text rows) = Ok (posterior_text (sample_text rows) idx).
Proof.
  intros n rows idx G F. unfold posterior_file, posterior_text.
  pose proof (read_samples_ok n rows [] G) as R. rewrite app_nil_r in R. rewrite R. cbn [bind].
  rewrite pick_ok by (rewrite map_length; exact F). rewrite mapM_some. cbn [bind]. rewrite (lines_sample n rows G). do 4 f_equal.
  induction F as [|i idx F0 F IH]; [reflexivity|]. cbn [map flat_map]. rewrite IH. f_equal. cbn [nth].
  rewrite app_nth1 by (rewrite map_length; exact F0).
  rewrite (nth_indep _ [] (map reread [])) by (rewrite map_length; exact F0). rewrite map_nth.
  rewrite (nth_indep (map body rows) [] (body [])) by (rewrite map_length; exact F0). rewrite map_nth.
  unfold print_particle. f_equal. fold (body (map reread (nth i rows []))).
  assert (FN : Forall finite (nth i rows [])) by (unfold good in G; rewrite Forall_forall in G; apply G, nth_In, F0).
  clear - FN. induction FN as [|x p F0 F IH]; [reflexivity|]. cbn [map body flat_map]. fold (body (map reread p)). fold (body p). rewrite IH.
  rewrite reread_again by exact F0. reflexivity.
Qed.
(** All later readers get exactly the doubles the post-processing had read from
    the sample file. *)
Theorem C92_again : forall n rows rows' idx txt, good n rows -> Forall (fun i => (i < length rows)%nat) idx -> (Z.of_nat (length idx) < 2 ^ 31)%Z ->
  read_samples n (length rows) (sample_text rows) = Ok rows' -> posterior_file n (length rows) idx (sample_text rows) = Ok txt ->
  read_posterior n txt = Ok (map (fun i => nth i rows' []) idx).
Proof.
  intros n rows rows' idx txt G F B R P.
  pose proof (read_samples_ok n rows [] G) as R'. rewrite app_nil_r in R'. unfold posterior_file in P. rewrite R' in R, P. injection R as <-.
  cbn [bind] in P. rewrite pick_ok in P by (rewrite map_length; exact F). rewrite mapM_some in P. cbn [bind] in P. injection P as <-.
  set (ps0 := map (fun i => nth i (map (map reread) rows) []) idx).
  change ([HASH; BL] ++ print_d (Z.of_nat (length idx)) ++ [nl] ++ flat_map print_particle ps0) with (HASH :: ([BL] ++ print_d (Z.of_nat (length idx)) ++ [nl] ++ flat_map print_particle ps0)).
  unfold read_posterior. destruct (ascii_dec HASH HASH); [|congruence].
  change (BL :: print_d (Z.of_nat (length idx)) ++ nl :: flat_map print_particle ps0) with ([BL] ++ print_d (Z.of_nat (length idx)) ++ [nl] ++ flat_map print_particle ps0).
  rewrite (scan_d_ok [BL] (print_d (Z.of_nat (length idx))) _ (Z.of_nat (length idx))); [|repeat constructor|apply print_d_ok; lia|exact B|apply no_digit_nl].
  cbn [bind]. rewrite Nat2Z.id. subst ps0. set (ps := map (fun i => nth i (map (map reread) rows) []) idx).
  assert (G' : good n ps).
  { unfold ps, good. apply Forall_forall. intros p I. apply in_map_iff in I as (i & <- & I). rewrite Forall_forall in F. specialize (F i I).
    rewrite (nth_indep _ [] (map reread [])) by (rewrite map_length; exact F). rewrite map_nth. unfold good in G. rewrite Forall_forall in G.
    destruct (G (nth i rows [])) as [L FF]; [apply nth_In; exact F|]. rewrite map_length. split; [exact L|].
    apply Forall_forall. intros y Y. apply in_map_iff in Y as (x & <- & X). rewrite Forall_forall in FF. apply reread_ok. apply FF. exact X. }
  replace (length idx) with (length ps) by (unfold ps; apply map_length).
  rewrite (read_rest_ok n ps [nl] G') by (repeat constructor).
  f_equal. unfold ps. rewrite map_map. apply map_ext_in. intros i I. rewrite Forall_forall in F. specialize (F i I).
  rewrite (nth_indep _ [] (map reread [])) by (rewrite map_length; exact F). rewrite map_nth. rewrite map_map. apply map_ext_in. intros x X.
  apply reread_reread. unfold good in G. rewrite Forall_forall in G. destruct (G (nth i rows [])) as [_ FF]; [apply nth_In; exact F|].
  rewrite Forall_forall in FF. apply FF. exact X.
Qed.
Example C92_number_example : scan_lf (list_ascii_of_string "  -12.50e+01 x"%string) = Some (to_b64 true 1250 (-1), list_ascii_of_string " x"%string) /\
  B2R (to_b64 true 1250 (-1)) = (-125)%R.
Proof.
  split; [cbv -[to_b64]; reflexivity|].
  assert (SF : B2SF (to_b64 true 1250 (-1)) = SpecFloat.S754_finite true 8796093022208000 (-46)) by (vm_compute; reflexivity).
  rewrite <- (SF2R_B2SF 53 1024), SF. unfold SF2R, F2R. cbn [SpecFloat.cond_Zopp Fnum Fexp]. change (-46)%Z with (- (46))%Z. rewrite bpow_opp, <- (IZR_Zpower radix2) by lia.
  change (radix2 ^ 46)%Z with 70368744177664%Z. change (- (8796093022208000))%Z with (-125 * 70368744177664)%Z. rewrite mult_IZR. field.
Qed.
(** Two particles of two parameters; the second is drawn twice. *)
Definition ex_x : b64 := to_b64 false 31415926535 (-10).
Definition ex_y : b64 := to_b64 true 25 (-7).
Example C92_example : good 2 [[ex_x; ex_y]; [ex_y; ex_x]] /\
  posterior_file 2 2 [1%nat; 0%nat; 1%nat] (sample_text [[ex_x; ex_y]; [ex_y; ex_x]]) =
  Ok (flat_map (fun l => list_ascii_of_string l ++ [nl]) ["# 3"; "-0.000003 3.141593 "; "3.141593 -0.000003 "; "-0.000003 3.141593 "]%string).
Proof.
  split; [repeat constructor|]. vm_compute. reflexivity.
Qed.
(** The parameters themselves are not kept: the file does not determine them. *)
Theorem C92_exact_refuted : exists x y : b64, finite x /\ finite y /\ (B2R x <> B2R y)%R /\ B2R y = 0%R /\
  sample_text [[x]] = sample_text [[y]] /\ read_samples 1 1 (sample_text [[x]]) = Ok [[y]].
Proof.
  exists (to_b64 false 4 (-7)), (B754_zero false). split; [reflexivity|]. split; [reflexivity|].
  assert (E : sample_text [[to_b64 false 4 (-7)]] = sample_text [[B754_zero false]]) by (vm_compute; reflexivity).
  split; [|split; [reflexivity|split; [exact E|rewrite E; vm_compute; reflexivity]]].
  assert (SF : B2SF (to_b64 false 4 (-7)) = SpecFloat.S754_finite false 7555786372591432 (-74)) by (vm_compute; reflexivity).
  rewrite <- (SF2R_B2SF 53 1024), SF. intros H. apply eq_0_F2R in H. discriminate H.
Qed.
Print Assumptions C92_numbers.
Print Assumptions C92_sample.
Print Assumptions C92_posterior.
Print Assumptions C92_again.
Print Assumptions C92_exact_refuted.
