(** Property C115: what the program reads from the strings made by the
    Python interface. *)
From Coq Require Import ZArith List Bool Arith Lia Ascii String.
From Verif Require Import CPrelude TagModel ScanModel ScanProofs ScanProofs2 PropScan PyModel.
Import ListNotations.
Open Scope nat_scope.

Section Priors.
Context {U V : Type}.
Variable f : U -> list ascii.
Variable num : list ascii -> V -> Prop.
Variable lf : list ascii -> option (V * list ascii).
Hypothesis PN : plain_numerals num.
Hypothesis RN : reads_numbers num lf.
(** %f writes a numeral for a value; all that is used is that it is read back as
    [back] of the value (six decimals are kept) *)
Variable back : U -> V.
Hypothesis FN : forall v, num (f v) (back v).

Definition numerals (ps : list (U * U)) : list (list ascii) := flat_map (fun p => [f (fst p); f (snd p)]) ps.
Definition values (ps : list (U * U)) : list V := flat_map (fun p => [back (fst p); back (snd p)]) ps.
Lemma numerals_values ps : Forall2 num (numerals ps) (values ps).
Proof. induction ps as [|p ps IH]; [constructor|]. cbn. repeat (constructor; [apply FN|]). exact IH. Qed.
Lemma values_length ps : List.length (values ps) = 2 * List.length ps.
Proof. induction ps as [|p ps IH]; [reflexivity|]. cbn [values flat_map]. rewrite app_length. fold (values ps). rewrite IH. cbn. lia. Qed.
Lemma values_nth ps k : nth_error (values ps) (2 * k) = option_map (fun p => back (fst p)) (nth_error ps k)
  /\ nth_error (values ps) (2 * k + 1) = option_map (fun p => back (snd p)) (nth_error ps k).
Proof.
  revert k. induction ps as [|p ps IH]; intros [|k].
  - split; reflexivity.
  - replace (2 * S k) with (S (S (2 * k))) by lia. split; reflexivity.
  - split; reflexivity.
  - replace (2 * S k) with (S (S (2 * k))) by lia. exact (IH k).
Qed.
Lemma later_colon ps : forall n, n <= List.length ps ->
  exists r, later_pairs f [COLON] n ps = Ok r /\ forall w, w ++ r ++ [CLOSE] = colon_list (w :: numerals (firstn n ps)).
Proof.
  induction ps as [|p ps IH]; intros n L.
  - cbn in L. assert (n = 0) by lia. subst n. exists []. split; [reflexivity|]. intros w. reflexivity.
  - destruct n as [|n]; [exists []; split; reflexivity|]. cbn in L. destruct (IH n) as (r & E & H); [lia|].
    cbn [later_pairs]. rewrite E. cbn [bind]. eexists. split; [reflexivity|]. intros w. cbn [firstn numerals flat_map].
    unfold pair_text. change (flat_map _ (firstn n ps)) with (numerals (firstn n ps)). cbn [app]. rewrite !colon_list_cons.
    rewrite <- H. cbn [app]. rewrite <- !app_assoc. reflexivity.
Qed.
(** The string for n components is "[a0:b0:a1:b1:...]" with the first n pairs. *)
Lemma text_spec n ps : 1 <= n -> n <= List.length ps -> prior_text f n ps = Ok (prior_string (numerals (firstn n ps))).
Proof.
  intros N L. destruct ps as [|p ps]; [cbn in L; lia|]. destruct n as [|n]; [lia|]. cbn in L.
  destruct (later_colon ps n) as (r & E & H); [lia|]. unfold prior_text. replace (S n - 1) with n by lia. rewrite E. cbn [bind].
  unfold prior_string. f_equal. change "["%char with OPEN. f_equal. cbn [firstn numerals flat_map app]. rewrite colon_list_cons. change "]"%char with CLOSE.
  change (flat_map _ (firstn n ps)) with (numerals (firstn n ps)). rewrite <- H. unfold pair_text. rewrite <- !app_assoc. reflexivity.
Qed.

(** ** Limits of the lags and widths given in Python are what the program reads. *)
Theorem C115_prior_lag : forall n ps, 1 <= n -> n <= List.length ps ->
  exists t a, prior_text f n ps = Ok t /\ lag_prior lf n t = Ok a /\ List.length a = 2 * n /\
    forall k p, k < n -> nth_error ps k = Some p ->
      nth_error a (2 * k) = Some (Some (back (fst p))) /\ nth_error a (2 * k + 1) = Some (Some (back (snd p))).
Proof.
  intros n ps N L. rewrite text_spec by assumption.
  destruct (C45_lag num lf PN RN n _ _ N (numerals_values (firstn n ps))) as [H _].
  destruct H as (a & E & LA & H); [rewrite values_length, firstn_length; lia|].
  exists (prior_string (numerals (firstn n ps))), a. split; [reflexivity|]. split; [exact E|]. split; [exact LA|]. intros k p K P.
  destruct (H k K) as (H1 & H2). destruct (values_nth (firstn n ps) k) as (V1 & V2).
  rewrite (firstn_nth ps n k K), P in V1, V2. rewrite H1, H2, V1, V2. split; reflexivity.
Qed.
Theorem C115_prior_width : forall (le0 : V -> bool) (logv : V -> V) n ps, 1 <= n -> n <= List.length ps ->
  (forall p, In p ps -> le0 (back (fst p)) = false /\ le0 (back (snd p)) = false) ->
  exists t a, prior_text f n ps = Ok t /\ width_prior lf le0 logv n t = Ok a /\ List.length a = 2 * n /\
    forall k p, k < n -> nth_error ps k = Some p ->
      nth_error a (2 * k) = Some (logv (back (fst p))) /\ nth_error a (2 * k + 1) = Some (logv (back (snd p))).
Proof.
  intros le0 logv n ps N L P. rewrite text_spec by assumption.
  destruct (C45_width num lf PN RN le0 logv n _ _ N (numerals_values (firstn n ps))) as [H _].
  destruct H as (a & E & LA & H); [rewrite values_length, firstn_length; lia| |].
  { intros i v I NV. apply nth_error_In in NV. unfold values in NV. apply in_flat_map in NV as (p & IP & IV).
    assert (In p ps) by (rewrite <- (firstn_skipn n ps); apply in_or_app; left; exact IP).
    destruct (P p H) as (P1 & P2). cbn in IV. destruct IV as [<-|[<-|[]]]; assumption. }
  exists (prior_string (numerals (firstn n ps))), a. split; [reflexivity|]. split; [exact E|]. split; [exact LA|]. intros k p K PP.
  destruct (H k K) as (H1 & H2). destruct (values_nth (firstn n ps) k) as (V1 & V2).
  rewrite (firstn_nth ps n k K), PP in V1, V2. rewrite H1, H2, V1, V2. split; reflexivity.
Qed.
(** With too few pairs the interface stops. *)
Theorem C115_prior_short : forall n ps, List.length ps < n -> prior_text f n ps = Exit.
Proof.
  intros n ps L. destruct ps as [|p ps]; [reflexivity|]. unfold prior_text. cbn in L.
  assert (E : forall ps n, List.length ps < n -> later_pairs f [COLON] n ps = Exit).
  { clear. induction ps as [|p ps IH]; intros [|n] L; cbn in L; try lia; [reflexivity|]. cbn [later_pairs]. rewrite IH by lia. reflexivity. }
  rewrite E by lia. reflexivity.
Qed.

(** ** Gaps: one pair is read, two or more end the program. *)
Theorem C115_gap_one : forall (half : V -> V) p, exists t, gap_text f [p] = Ok t /\ gap_prior lf half 1 t = Ok [(back (fst p), half (back (snd p)))].
Proof.
  intros half p. exists (prior_string (numerals [p])). split.
  { unfold gap_text, prior_string, numerals, pair_text. cbn. rewrite <- app_assoc. reflexivity. }
  destruct (C43_first_set num lf PN RN half 1 (numerals [p]) [] (back (fst p)) (back (snd p)) ltac:(lia) (numerals_values [p]) ltac:(cbn; lia)) as (g & E).
  destruct (C43_actual num lf PN RN half 1 (numerals [p]) _ ltac:(lia) (numerals_values [p]) ltac:(cbn; lia)) as (g' & E' & L & _).
  rewrite E in E'. injection E' as <-. destruct g; [exact E|discriminate].
Qed.
(** what %lf does on two such texts without a colon between them: it does not stop
    at a colon (the second text has a decimal point, or begins with a sign) *)
Hypothesis joined : forall v w rest, exists x c r, lf (f v ++ f w ++ rest) = Some (x, c :: r) /\ c <> COLON.
Theorem C115_gap_refuted : forall (half : V -> V) p q ps,
  exists t, gap_text f (p :: q :: ps) = Ok t /\ gap_prior lf half (List.length (p :: q :: ps)) t = Exit.
Proof.
  intros half p q ps.
  assert (LP : forall ps, exists r, later_pairs f [] (List.length ps) ps = Ok r).
  { clear. induction ps as [|a ps (r & IH)]; [exists []; reflexivity|]. cbn [List.length later_pairs]. rewrite IH. eexists. reflexivity. }
  destruct (LP ps) as (r & E). unfold gap_text. cbn [List.length later_pairs]. rewrite E. cbn [bind]. eexists. split; [reflexivity|].
  cbn [app]. unfold pair_text. set (rest := f (snd q) ++ r). unfold gap_prior.
  set (t1 := f (snd p) ++ f (fst q) ++ COLON :: rest ++ ["]"%char]).
  assert (T : ((f (fst p) ++ COLON :: f (snd p)) ++ ((f (fst q) ++ COLON :: f (snd q)) ++ r) ++ ["]"%char]) = f (fst p) ++ COLON :: t1).
  { unfold t1, rest. rewrite <- !app_assoc. cbn [app]. rewrite <- ?app_assoc. reflexivity. }
  rewrite T. clearbody rest.
  destruct (joined (snd p) (fst q) (COLON :: rest ++ ["]"%char])) as (x & c & s & J & NC).
  change (lf t1 = Some (x, c :: s)) in J.
  assert (P0 : scan_pair lf (f (fst p) ++ COLON :: t1) = Some (back (fst p), x)).
  { unfold scan_pair. pose proof (RN [] (f (fst p)) (COLON :: t1) _ (FN (fst p)) (Forall_nil _) ltac:(cbn; auto)) as R. cbn [app] in R. rewrite R.
    replace (lit COLON (COLON :: t1)) with (Some t1) by (unfold lit; destruct (ascii_dec COLON COLON); [reflexivity|congruence]). rewrite J. reflexivity. }
  assert (P1 : scan_pair lf t1 = None).
  { unfold scan_pair. rewrite J. unfold lit. destruct (ascii_dec c COLON); [congruence|]. reflexivity. }
  assert (S0 : strchr COLON (f (fst p) ++ COLON :: t1) = Some (COLON :: t1)).
  { rewrite strchr_skip; [apply strchr_here|]. apply numchar_nc. apply (PN _ _ (FN (fst p))). }
  replace (S (S (List.length ps)) - 1) with (S (List.length ps)) by lia. cbn [gap_loop]. rewrite P0, S0.
  destruct (List.length ps) as [|m]; cbn [gap_loop bind]; rewrite P1; reflexivity.
Qed.
End Priors.

(** ** A reader of digits, point, digits is an instance; values are the texts. *)
Definition digitb (c : ascii) : bool := (48 <=? code c)%Z && (code c <=? 57)%Z.
Fixpoint take_digits (s : list ascii) : list ascii * list ascii :=
  match s with
  | c :: r => if digitb c then let '(d, t) := take_digits r in (c :: d, t) else ([], s)
  | [] => ([], [])
  end.
Definition POINT : ascii := "."%char.
Definition point_lf (s : list ascii) : option (list ascii * list ascii) :=
  let '(a, r) := take_digits (skip_space s) in
  match r with
  | c :: r' => if ascii_dec c POINT then let '(b, r'') := take_digits r' in Some (a ++ POINT :: b, r'') else match a with [] => None | _ => Some (a, r) end
  | [] => match a with [] => None | _ => Some (a, r) end
  end.
Definition fixed_point (w : list ascii) : Prop := exists a b, a <> [] /\ b <> [] /\ Forall isdigit a /\ Forall isdigit b /\ w = a ++ POINT :: b.
Definition point_num (w v : list ascii) : Prop := w = v /\ fixed_point w.
Lemma take_ok a : forall r, Forall isdigit a -> match r with [] => True | c :: _ => digitb c = false end -> take_digits (a ++ r) = (a, r).
Proof.
  induction a as [|c a IH]; intros r D H.
  - cbn. destruct r as [|c r]; [reflexivity|]. cbn. rewrite H. reflexivity.
  - inversion D; subst. cbn. replace (digitb c) with true.
    2:{ symmetry. unfold isdigit in *. unfold digitb. apply andb_true_intro. split; apply Z.leb_le; lia. }
    rewrite IH by assumption. reflexivity.
Qed.
Lemma skip_ok sp a r : space sp -> a <> [] -> Forall isdigit a -> skip_space (sp ++ a ++ r) = a ++ r.
Proof.
  intros S N D. induction S as [|c sp C S IH].
  - destruct a as [|c a]; [congruence|]. inversion D; subst. cbn. rewrite digit_nospace by assumption. reflexivity.
  - cbn. rewrite C. exact IH.
Qed.
Lemma point_plain : plain_numerals point_num.
Proof.
  intros w v (<- & a & b & NA & NB & DA & DB & ->). split; [destruct a; discriminate|].
  assert (Q : forall l, Forall isdigit l -> Forall numchar l).
  { intros l H. eapply Forall_impl; [|exact H]. intros c C. split; [apply digit_nospace, C|]. unfold isdigit in C. repeat split; intros ->; unfold code in C; cbn in C; lia. }
  apply Forall_app. split; [apply Q, DA|]. constructor; [|apply Q, DB]. repeat split; discriminate.
Qed.
Lemma point_reads : reads_numbers point_num point_lf.
Proof.
  intros sp w rest v (<- & a & b & NA & NB & DA & DB & ->) S E. unfold point_lf. rewrite <- app_assoc. cbn [app]. rewrite skip_ok by assumption.
  rewrite take_ok by (first [assumption|reflexivity]). destruct (ascii_dec POINT POINT); [|congruence].
  rewrite take_ok; [reflexivity|assumption|]. destruct rest as [|c r]; [exact I|]. cbn in E. unfold digitb. destruct E as [E|[->| ->]]; [|reflexivity|reflexivity].
  apply not_true_is_false. intros H. apply andb_prop in H as (H1 & H2). apply Z.leb_le in H1, H2.
  assert (D : isdigit c) by (unfold isdigit; lia). apply digit_nospace in D. congruence.
Qed.
(** texts with a point, made from a list of digits before and six after it *)
Record decimal_text := { whole : list ascii; fraction : list ascii; whole_ok : whole <> [] /\ Forall isdigit whole; fraction_ok : fraction <> [] /\ Forall isdigit fraction }.
Definition point_text (v : decimal_text) : list ascii := whole v ++ POINT :: fraction v.
Lemma point_joined : forall v w rest, exists x c r, point_lf (point_text v ++ point_text w ++ rest) = Some (x, c :: r) /\ c <> COLON.
Proof.
  intros v w rest. destruct (whole_ok v) as (N1 & D1), (fraction_ok v) as (N2 & D2), (whole_ok w) as (N3 & D3).
  unfold point_lf.
  replace (point_text v ++ point_text w ++ rest) with (whole v ++ POINT :: (fraction v ++ whole w) ++ POINT :: fraction w ++ rest)
    by (unfold point_text; rewrite <- !app_assoc; cbn [app]; rewrite <- ?app_assoc; reflexivity).
  pose proof (skip_ok [] (whole v) (POINT :: (fraction v ++ whole w) ++ POINT :: fraction w ++ rest) (Forall_nil _) N1 D1) as K. cbn [app] in K. rewrite K.
  rewrite take_ok by (first [assumption|reflexivity]). destruct (ascii_dec POINT POINT); [|congruence].
  rewrite take_ok by (first [apply Forall_app; split; assumption|reflexivity]).
  do 3 eexists. split; [reflexivity|discriminate].
Qed.
Example C115_gap_refuted_case :
  gap_text (fun x : list ascii => x) [(chars "180.000000", chars "60.000000"); (chars "170.000000", chars "50.000000")] = Ok (chars "[180.000000:60.000000170.000000:50.000000]")
  /\ gap_prior point_lf (fun v => v) 2 (chars "[180.000000:60.000000170.000000:50.000000]") = Exit
  /\ gap_prior point_lf (fun v => v) 1 (chars "[180.000000:60.000000]") = Ok [(chars "180.000000", chars "60.000000")].
Proof. repeat split. Qed.
Example C115_prior_case :
  prior_text (fun x : list ascii => x) 2 [(chars "0.000000", chars "5.500000"); (chars "2.000000", chars "9.000000")] = Ok (chars "[0.000000:5.500000:2.000000:9.000000]")
  /\ lag_prior point_lf 2 (chars "[0.000000:5.500000:2.000000:9.000000]")
     = Ok [Some (chars "0.000000"); Some (chars "5.500000"); Some (chars "2.000000"); Some (chars "9.000000")].
Proof. split; reflexivity. Qed.
Example C115_gap_instance : forall half p q ps,
  exists t, gap_text point_text (p :: q :: ps) = Ok t /\ gap_prior point_lf half (List.length (p :: q :: ps)) t = Exit.
Proof.
  apply (C115_gap_refuted point_text point_num point_lf point_plain point_reads point_text).
  - intros v. split; [reflexivity|]. destruct (whole_ok v) as (N1 & D1), (fraction_ok v) as (N2 & D2). exists (whole v), (fraction v). auto.
  - exact point_joined.
Qed.
Print Assumptions C115_prior_lag.
Print Assumptions C115_prior_width.
Print Assumptions C115_prior_short.
Print Assumptions C115_gap_one.
Print Assumptions C115_gap_refuted.
