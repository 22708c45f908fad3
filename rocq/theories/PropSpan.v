(** Seasonal gap, spans and cadences, report of the end points, and digits of
    the printed times (C79-C81). *)
From Coq Require Import ZArith Reals List Bool Lia Lra Permutation Sorted Arith.
From Verif Require Import CPrelude SortModel SortProofs SpanModel SpanProofs.
Import ListNotations.
Open Scope R_scope.

(** * C79: seasonal gap *)

(** The waiting times between neighbouring observations. *)
Definition waits (t : list R) : list R :=
  map (fun i => nth (S i) t 0 - nth i t 0) (seq 0 (length t - 1)).

Definition sum (l : list R) : R := fold_right Rplus 0 l.

(** The data run over [ny] years: more than [ny - 1] and at most [ny]. *)
Definition years (t : list R) (ny : nat) : Prop :=
  INR (ny - 1) * 365.25 < last t 0 - hd 0 t <= INR ny * 365.25.

(** [g] is the mean of the [k] longest of the numbers [l]. *)
Definition mean_longest (k : nat) (l : list R) (g : R) : Prop :=
  exists short long, Permutation l (short ++ long) /\ length long = k /\
    (forall x y, In x short -> In y long -> x <= y) /\ g * INR k = sum long.

Lemma intervals_waits : forall t, intervals t = waits t.
Proof.
  induction t as [|a t IH]; [reflexivity|]. destruct t as [|b t]; [reflexivity|].
  change (intervals (a :: b :: t)) with ((b - a) :: intervals (b :: t)). rewrite IH.
  unfold waits. cbn [length]. replace (S (S (length t)) - 1)%nat with (S (length t)) by lia.
  replace (S (length t) - 1)%nat with (length t) by lia.
  cbn [seq map nth]. f_equal. rewrite <- seq_shift, map_map. reflexivity.
Qed.

Lemma total_sum : forall l, total l = sum l.
Proof. induction l; cbn; [reflexivity|]. rewrite IHl. reflexivity. Qed.

Lemma years_ceil : forall t ny, t <> [] -> (1 <= ny)%nat -> years t ny ->
  ceilZ ((last t 0 - hd 0 t) / YEAR_DAY) = Z.of_nat ny.
Proof.
  intros t ny N L [H1 H2]. rewrite INR_IZR_INZ in *. apply ceilZ_eq. unfold YEAR_DAY.
  replace (Z.of_nat ny - 1)%Z with (Z.of_nat (ny - 1)) by lia.
  split.
  - apply Rmult_lt_reg_r with 365.25; [lra|].
    replace ((last t 0 - hd 0 t) / 365.25 * 365.25) with (last t 0 - hd 0 t) by (field; lra). lra.
  - apply Rmult_le_reg_r with 365.25; [lra|].
    replace ((last t 0 - hd 0 t) / 365.25 * 365.25) with (last t 0 - hd 0 t) by (field; lra). lra.
Qed.

Lemma gap_run : forall tcad t ny, (1 < ny <= length t)%nat -> years t ny ->
  exists g, get_seasonal_gap tcad t = Ok g /\ mean_longest (ny - 1) (waits t) g.
Proof.
  intros tcad t ny L Y. assert (N : t <> []) by (intro; subst; cbn in L; lia).
  unfold get_seasonal_gap. rewrite (at_last _ _ 0 N), (at0 _ N). cbn [bind].
  rewrite (years_ceil t ny N ltac:(lia) Y).
  replace (1 <? Z.of_nat ny)%Z with true by (symmetry; apply Z.ltb_lt; lia).
  replace (Z.to_nat (Z.of_nat ny - 1)) with (ny - 1)%nat by lia.
  set (dt := msort cmpfunc (intervals t)).
  assert (P : Permutation dt (intervals t)) by apply msort_perm.
  assert (Ld : length dt = (length t - 1)%nat).
  { rewrite <- intervals_length. apply Permutation_length. exact P. }
  set (k := (length dt - (ny - 1))%nat).
  assert (E : dt = firstn k dt ++ skipn k dt) by (symmetry; apply firstn_skipn).
  assert (Ll : length (skipn k dt) = (ny - 1)%nat) by (rewrite skipn_length; unfold k; lia).
  replace (count t - 2)%Z with (count dt - 1)%Z by (unfold count; lia).
  rewrite E. rewrite sum_down_ok by exact Ll. cbn [bind].
  eexists. split; [reflexivity|].
  exists (firstn k dt), (skipn k dt). split; [|split; [exact Ll|split]].
  - rewrite <- E, <- intervals_waits. apply Permutation_sym. exact P.
  - apply SS_app. rewrite <- E. apply sorted_intervals.
  - rewrite total_sum. rewrite INR_IZR_INZ. replace (Z.of_nat (ny - 1)) with (Z.of_nat ny - 1)%Z by lia.
    field. apply not_0_IZR. lia.
Qed.

(** With data over ny > 1 years and at least as many points as years, the gap
    of a data set is centred half a year after the start of the cycle and its
    half width is half of the mean of the ny - 1 longest waiting times. *)
Theorem C79_gap : forall tcad sets ny,
  Forall2 (fun t n => (1 < n <= length t)%nat /\ years t n) sets ny ->
  exists gaps, get_seasonal_gap_allset tcad sets = Ok gaps /\
    Forall2 (fun tn cw => fst cw = 365.25 / 2 /\ mean_longest (snd tn - 1) (waits (fst tn)) (2 * snd cw))
      (combine sets ny) gaps.
Proof.
  intros tcad sets ny H. induction H as [|t n sets ny [L Y] H IH]; [exists []; split; [reflexivity|constructor]|].
  destruct IH as (gaps & E & F). destruct (gap_run tcad t n L Y) as (g & E1 & M).
  exists ((YEAR_DAY / 2, g / 2) :: gaps). split.
  - unfold get_seasonal_gap_allset in *. cbn [mapM]. rewrite E1. cbn [bind]. rewrite E. reflexivity.
  - cbn [combine]. constructor; [|exact F]. cbn [fst snd]. split; [reflexivity|].
    replace (2 * (g / 2)) with g by lra. exact M.
Qed.
Print Assumptions C79_gap.

(** The ny - 1 gaps so found fit into the span of the data. *)
Theorem C79_bounds : forall tcad t ny, StronglySorted Rle t -> (1 < ny <= length t)%nat -> years t ny ->
  exists g, get_seasonal_gap tcad t = Ok g /\ 0 <= g /\ g * INR (ny - 1) <= last t 0 - hd 0 t.
Proof.
  intros tcad t ny S L Y. destruct (gap_run tcad t ny L Y) as (g & E & short & long & P & Ll & O & M).
  exists g. split; [exact E|].
  assert (N : t <> []) by (intro; subst; cbn in L; lia).
  pose proof (intervals_nonneg t S) as F. pose proof (intervals_total t N) as T.
  rewrite intervals_waits in *.
  assert (Fa : Forall (Rle 0) (short ++ long)) by (eapply Permutation_Forall; eassumption).
  apply Forall_app in Fa. destruct Fa as [Fs Fl].
  pose proof (total_nonneg _ Fs). pose proof (total_nonneg _ Fl).
  rewrite (total_perm _ _ P), total_app in T. rewrite <- !total_sum in M.
  assert (K : 0 < INR (ny - 1)) by (apply lt_0_INR; lia).
  split; [|lra].
  destruct (Rle_or_lt 0 g) as [?|G]; [assumption|]. assert (g * INR (ny - 1) < 0) by nra. lra.
Qed.
Print Assumptions C79_bounds.

(** Data within one year: the cadence is used. *)
Theorem C79_one_year : forall tcad t, t <> [] -> last t 0 - hd 0 t <= 365.25 ->
  get_seasonal_gap tcad t = Ok tcad.
Proof.
  intros tcad t N H. unfold get_seasonal_gap. rewrite (at_last _ _ 0 N), (at0 _ N). cbn [bind].
  assert (C : (ceilZ ((last t 0 - hd 0 t) / YEAR_DAY)%R <= 1)%Z).
  { apply ceilZ_le1. unfold YEAR_DAY. apply Rmult_le_reg_r with 365.25; [lra|].
    replace ((last t 0 - hd 0 t) / 365.25 * 365.25) with (last t 0 - hd 0 t) by (field; lra). lra. }
  destruct (Z.ltb_spec 1 (ceilZ ((last t 0 - hd 0 t) / YEAR_DAY))) as [B|B]; [exfalso; lia|reflexivity].
Qed.
Print Assumptions C79_one_year.

Lemma gap_out : forall tcad t ny, t <> [] -> (length t < ny)%nat -> (1 < ny)%nat -> years t ny ->
  get_seasonal_gap tcad t = UB.
Proof.
  intros tcad t ny N L L1 Y. unfold get_seasonal_gap. rewrite (at_last _ _ 0 N), (at0 _ N). cbn [bind].
  rewrite (years_ceil t ny N ltac:(lia) Y).
  replace (1 <? Z.of_nat ny)%Z with true by (symmetry; apply Z.ltb_lt; lia).
  rewrite sum_down_out; [reflexivity| | |].
  - unfold count. destruct t; [congruence|]. cbn [length]. lia.
  - unfold count. lia.
  - unfold count. rewrite (Permutation_length (msort_perm cmpfunc (intervals t))), intervals_length. lia.
Qed.

Lemma sum_down_cases : forall n dt i g, (exists v, sum_down dt i n g = Ok v) \/ sum_down dt i n g = UB.
Proof.
  induction n; intros dt i g; cbn [sum_down]; [left; eexists; reflexivity|].
  unfold at_, get. destruct (i <? 0)%Z; [right; reflexivity|].
  destruct (nth_error dt (Z.to_nat i)); [|right; reflexivity]. cbn [bind]. apply IHn.
Qed.

(** The bound on the number of points is needed: with fewer points than years
    the array of waiting times is read in front of its start, and without any
    continuum (always so in the virtual mode) the array of times is. *)
Theorem C79_sparse_refuted :
  (forall tcad t ny, t <> [] -> (length t < ny)%nat -> (1 < ny)%nat -> years t ny ->
    get_seasonal_gap tcad t = UB) /\
  (forall tcad sets, In [] sets -> get_seasonal_gap_allset tcad sets = UB) /\
  exists t ny, StronglySorted Rlt t /\ t <> [] /\ (length t < ny)%nat /\ years t ny.
Proof.
  split; [exact gap_out|split].
  - intros tcad sets I.
    assert (G : forall t, (exists g, get_seasonal_gap tcad t = Ok g) \/ get_seasonal_gap tcad t = UB).
    { intro t. unfold get_seasonal_gap.
      destruct t as [|a t]; [right; reflexivity|]. assert (N : a :: t <> []) by discriminate.
      rewrite (at_last _ _ 0 N), (at0 _ N). cbn [bind].
      match goal with |- context [(1 <? ?z)%Z] => destruct (1 <? z)%Z end; [|left; eexists; reflexivity].
      match goal with |- context [sum_down ?d ?i ?n ?g] => destruct (sum_down_cases n d i g) as [[v E]|E]; rewrite E end;
      cbn [bind]; [left; eexists; reflexivity|right; reflexivity]. }
    unfold get_seasonal_gap_allset. induction sets as [|t sets IH]; [destruct I|]. cbn [mapM].
    destruct I as [I|I]; [subst t; reflexivity|].
    destruct (G t) as [[g E]|E]; rewrite E; cbn [bind]; [|reflexivity]. rewrite (IH I). reflexivity.
  - exists [0; 1000; 2000], 6%nat. split; [repeat constructor; lra|]. split; [discriminate|]. split; [cbn; lia|].
    unfold years. cbn. lra.
Qed.
Print Assumptions C79_sparse_refuted.

(** Three seasons of two observations each: the two gaps are 330 and 350 days. *)
Example C79_case : forall tcad, get_seasonal_gap tcad [0; 30; 360; 400; 750; 760] = Ok 340.
Proof.
  intro tcad.
  destruct (gap_run tcad [0; 30; 360; 400; 750; 760] 3%nat) as (g & E & short & long & P & L & O & M).
  - cbn. lia.
  - unfold years. cbn. lra.
  - rewrite E. f_equal.
    assert (W : waits [0; 30; 360; 400; 750; 760] = [30 - 0; 360 - 30; 400 - 360; 750 - 400; 760 - 750]) by reflexivity.
    rewrite W in P.
    destruct long as [|x [|y [|z long]]]; try discriminate. cbn in M.
    assert (Ix : In x [30 - 0; 360 - 30; 400 - 360; 750 - 400; 760 - 750])
      by (eapply Permutation_in; [apply Permutation_sym; exact P|apply in_or_app; right; left; reflexivity]).
    assert (S : sum [30 - 0; 360 - 30; 400 - 360; 750 - 400; 760 - 750] = sum (short ++ [x; y]))
      by (rewrite <- !total_sum; apply total_perm; exact P).
    assert (B : forall w, In w [30 - 0; 360 - 30; 400 - 360; 750 - 400; 760 - 750] -> In w (short ++ [x; y]))
      by (intros w Hw; eapply Permutation_in; eassumption).
    assert (Iy : In y [30 - 0; 360 - 30; 400 - 360; 750 - 400; 760 - 750])
      by (eapply Permutation_in; [apply Permutation_sym; exact P|apply in_or_app; right; right; left; reflexivity]).
    assert (A1 := B (360 - 30) ltac:(cbn; auto)). assert (A2 := B (750 - 400) ltac:(cbn; auto)).
    apply in_app_or in A1, A2.
    assert (NE : x <> y).
    { intro Q. subst y.
      assert (D : NoDup (short ++ [x; x])).
      { eapply Permutation_NoDup; [exact P|]. repeat constructor; cbn; intuition lra. }
      apply NoDup_remove_2 in D. apply D. apply in_or_app. right. left. reflexivity. }
    destruct A1 as [A1|A1].
    { exfalso. pose proof (O _ x A1 ltac:(cbn; auto)). pose proof (O _ y A1 ltac:(cbn; auto)).
      assert (short = short) by reflexivity.
      assert (x = 360 - 30 \/ x = 750 - 400) by (cbn in Ix; intuition lra).
      assert (y = 360 - 30 \/ y = 750 - 400) by (cbn in Iy; intuition lra).
      assert (D : NoDup (short ++ [x; y])).
      { eapply Permutation_NoDup; [exact P|]. repeat constructor; cbn; intuition lra. }
      assert (In (360 - 30) [x; y]) by (cbn; intuition lra).
      apply in_split in A1. destruct A1 as (s1 & s2 & Es). subst short. rewrite <- app_assoc in D. cbn [app] in D.
      apply NoDup_remove_2 in D. apply D. apply in_or_app. right. apply in_or_app. right. assumption. }
    destruct A2 as [A2|A2].
    { exfalso. pose proof (O _ x A2 ltac:(cbn; auto)). pose proof (O _ y A2 ltac:(cbn; auto)).
      cbn in A1. intuition lra. }
    cbn in A1, A2. assert (x + y = 680) by (intuition lra). lra.
Qed.

(** * C80: spans, cadences, report of the end points *)

(** All curves of the data. *)
Definition curve_of (sets : list times) (c : list R) : Prop :=
  exists d, In d sets /\ (c = con_t d \/ In c (line_t d)).

Definition sorted_times (sets : list times) : Prop := forall c, curve_of sets c -> StronglySorted Rle c.

Lemma curves_of : forall sets c, In c (curves sets) <-> curve_of sets c.
Proof.
  intros sets c. unfold curves, curve_of. rewrite in_flat_map. split; intros (d & I & H); exists d; split; auto.
  - destruct H as [H|H]; auto.
  - destruct H as [H|H]; cbn; auto.
Qed.

Lemma hd_in : forall c : list R, c <> [] -> In (hd 0 c) c.
Proof. destruct c; [congruence|]. left. reflexivity. Qed.

(** tspan_max is the longest time between two observations of one curve, and
    tmax the time of the latest observation; the default upper limit of the
    lags is half of the former. *)
Theorem C80_span : forall lowest sets, sorted_times sets ->
  (forall c t, curve_of sets c -> In t c -> lowest <= t) ->
  exists s m, spans lowest sets = Ok (s, m) /\ 0 <= s /\
    (forall c t t', curve_of sets c -> In t c -> In t' c -> t' - t <= s) /\
    (s = 0 \/ exists c t t', curve_of sets c /\ In t c /\ In t' c /\ s = t' - t) /\
    (forall c t, curve_of sets c -> In t c -> t <= m) /\
    ((exists c, curve_of sets c /\ c <> []) -> exists c, curve_of sets c /\ In m c) /\
    forall u, (u < 0 -> upper_lag u s = s / 2) /\ (0 <= u -> upper_lag u s = u).
Proof.
  intros lowest sets S Lo. rewrite spans_flat.
  destruct (spans_inv (curves sets) (0, lowest)) as ([s m] & E & E1 & E2 & E3 & E4 & E5). cbn [fst snd] in *.
  exists s, m. split; [exact E|]. split; [exact E1|]. split; [|split; [|split; [|split]]].
  - intros c t t' C I I'. pose proof (S c C) as Sc.
    pose proof (SS_hd c t Sc I). pose proof (SS_last c t' Sc I').
    assert (N : c <> []) by (intro; subst; destruct I).
    destruct (E3 c) as [A _]; [apply curves_of; assumption|assumption|]. unfold curve_span in A. lra.
  - destruct E4 as [E4|(c & I & N & E4)]; [left; exact E4|right].
    exists c, (hd 0 c), (last c 0). split; [apply curves_of; assumption|].
    split; [apply hd_in; assumption|split; [apply last_in; assumption|exact E4]].
  - intros c t C I. pose proof (S c C) as Sc. pose proof (SS_last c t Sc I).
    assert (N : c <> []) by (intro; subst; destruct I).
    destruct (E3 c) as [_ A]; [apply curves_of; assumption|assumption|]. lra.
  - intros (c & C & N). destruct E5 as [E5|(c' & I' & N' & E5)].
    + exists c. split; [assumption|]. destruct (E3 c) as [_ A]; [apply curves_of; assumption|assumption|].
      pose proof (last_in c 0 N) as IL. pose proof (Lo c _ C IL).
      replace m with (last c 0) by lra. exact IL.
    + exists c'. split; [apply curves_of; assumption|]. rewrite E5. apply last_in. assumption.
  - intro u. unfold upper_lag. destruct Rlt_dec; split; intro; lra.
Qed.
Print Assumptions C80_span.

(** Mean time between observations of a curve of at least two points. *)
Definition mean_wait (c : list R) (q : R) : Prop :=
  (2 <= length c)%nat /\ q * INR (length c - 1) = sum (waits c).

Lemma mean_wait_iff : forall c q, (2 <= length c)%nat ->
  (mean_wait c q <-> q = curve_span c / INR (length c - 1)).
Proof.
  intros c q L. assert (N : c <> []) by (intro; subst; cbn in L; lia).
  assert (K : 0 < INR (length c - 1)) by (apply lt_0_INR; lia).
  unfold mean_wait. rewrite <- total_sum, <- intervals_waits, (intervals_total c N). fold (curve_span c). split.
  - intros [_ H]. rewrite <- H. field. lra.
  - intros ->. split; [assumption|]. field. lra.
Qed.

(** The two cadences are the smallest mean waiting times of the continua and
    of the lines, never more than tspan_max, which is their value without a
    curve of two points. *)
Theorem C80_cadence : forall s sets, exists c l,
  cadences s sets = Ok (c, l, Rmin c l) /\
  c <= s /\ l <= s /\
  (forall d q, In d sets -> mean_wait (con_t d) q -> c <= q) /\
  (c = s \/ exists d, In d sets /\ mean_wait (con_t d) c) /\
  (forall d k q, In d sets -> In k (line_t d) -> mean_wait k q -> l <= q) /\
  (l = s \/ exists d k, In d sets /\ In k (line_t d) /\ mean_wait k l).
Proof.
  intros s sets. unfold cadences. rewrite cadence_con, cadence_line.
  destruct (cadence_inv (map con_t sets) s) as (c & E1 & E2 & E3 & E4).
  destruct (cadence_inv (flat_map line_t sets) s) as (l & F1 & F2 & F3 & F4).
  rewrite E1, F1. cbn [bind]. exists c, l. split; [reflexivity|]. split; [assumption|]. split; [assumption|].
  split; [|split; [|split]].
  - intros d q I W. pose proof (proj1 W) as L. apply mean_wait_iff in W; [|assumption]. subst q.
    apply E3; [apply in_map; assumption|assumption].
  - destruct E4 as [E4|(k & I & L & E4)]; [left; assumption|right]. apply in_map_iff in I.
    destruct I as (d & <- & I). exists d. split; [assumption|]. apply mean_wait_iff; assumption.
  - intros d k q I Ik W. pose proof (proj1 W) as L. apply mean_wait_iff in W; [|assumption]. subst q.
    apply F3; [apply in_flat_map; eauto|assumption].
  - destruct F4 as [F4|(k & I & L & F4)]; [left; assumption|right]. apply in_flat_map in I.
    destruct I as (d & I & Ik). exists d, k. split; [assumption|]. split; [assumption|]. apply mean_wait_iff; assumption.
Qed.
Print Assumptions C80_cadence.

(** What is reported of a curve: nothing if it is empty, else both ends. *)
Definition ends (c : list R) : list (R * R) := match c with [] => [] | _ => [(hd 0 c, last c 0)] end.

Lemma report_lines_ends : forall (ls : list (list R)) out,
  foldM (fun out c => if (count c =? 0)%Z then Ok out
     else b <- at_ c 0 ;; e <- at_ c (count c - 1) ;; Ok (out ++ [(b, e)])) ls out = Ok (out ++ flat_map ends ls).
Proof.
  induction ls as [|c ls IH]; intro out; cbn [foldM flat_map]; [rewrite app_nil_r; reflexivity|].
  destruct c as [|a c]; [cbn [bind count length]; apply IH|].
  assert (N : a :: c <> []) by discriminate.
  replace (count (a :: c) =? 0)%Z with false by (symmetry; apply Z.eqb_neq; unfold count; cbn [length]; lia).
  rewrite (at0 _ N), (at_last _ _ 0 N). cbn [bind]. rewrite IH, <- app_assoc. reflexivity.
Qed.

(** With a continuum in every set, the root task reports both ends of every
    curve that has data. *)
Theorem C80_report : forall sets, (forall d, In d sets -> con_t d <> []) ->
  report true sets = Ok (map (fun d => flat_map ends (con_t d :: line_t d)) sets).
Proof.
  intros sets H. unfold report. induction sets as [|d sets IH]; [reflexivity|]. cbn [mapM map].
  assert (N : con_t d <> []) by (apply H; left; reflexivity).
  unfold report_set at 1. rewrite (at0 _ N), (at_last _ _ 0 N). cbn [bind]. rewrite report_lines_ends. cbn [bind app].
  rewrite IH by (intros; apply H; right; assumption). cbn [bind]. do 2 f_equal.
  cbn [flat_map]. destruct (con_t d); [congruence|]. reflexivity.
Qed.
Print Assumptions C80_report.

(** A set without a continuum makes the report read outside of the arrays,
    although the loops before it skip such continua. *)
Theorem C80_report_refuted : forall sets, (exists d, In d sets /\ con_t d = []) -> report true sets = UB.
Proof.
  intros sets (d & I & E). unfold report. induction sets as [|e sets IH]; [destruct I|]. cbn [mapM].
  destruct I as [I|I]; [subst e; unfold report_set; rewrite E; reflexivity|].
  unfold report_set at 1. destruct (con_t e) as [|a c] eqn:Ec; [reflexivity|].
  assert (N : a :: c <> []) by discriminate. rewrite (at0 _ N), (at_last _ _ 0 N). cbn [bind].
  rewrite report_lines_ends. cbn [bind]. rewrite (IH I). reflexivity.
Qed.
Print Assumptions C80_report_refuted.

(** One set with a continuum and two lines, one of them empty, and a set with
    a line only. *)
Definition case_sets : list times := [mktimes [0; 4; 10] [[2; 14]; []]; mktimes [] [[5; 6; 7]]].
Example C80_case :
  sorted_times case_sets /\
  spans (-1000) case_sets = Ok (12, 14) /\ cadences 12 case_sets = Ok (5, 1, 1) /\ report true case_sets = UB /\
  report true (firstn 1 case_sets) = Ok [[(0, 10); (2, 14)]].
Proof.
  split; [|split; [|split; [|split]]].
  - intros c (d & [<-|[<-|[]]] & [->|H]); cbn in *; try (repeat constructor; lra).
    + destruct H as [<-|[<-|[]]]; repeat constructor; lra.
    + destruct H as [<-|[]]; repeat constructor; lra.
  - rewrite spans_flat. cbn [case_sets curves flat_map con_t line_t app foldM].
    rewrite span_of_ok by discriminate. cbn [bind]. rewrite span_of_ok by discriminate. cbn [bind].
    rewrite span_of_nil. cbn [bind]. rewrite span_of_nil. cbn [bind]. rewrite span_of_ok by discriminate.
    unfold curve_span. cbn. do 2 f_equal; unfold Rmax; repeat destruct Rle_dec; lra.
  - unfold cadences. rewrite cadence_con, cadence_line. cbn [case_sets map flat_map con_t line_t app foldM].
    rewrite (cadence_of_ok [0; 4; 10]) by (cbn; lia). cbn [bind]. rewrite cadence_of_few by (cbn; lia). cbn [bind].
    rewrite (cadence_of_ok [2; 14]) by (cbn; lia). cbn [bind]. rewrite cadence_of_few by (cbn; lia). cbn [bind].
    rewrite (cadence_of_ok [5; 6; 7]) by (cbn; lia). cbn [bind]. unfold curve_span. cbn.
    assert (A : Rmin 12 ((10 - 0) / (1 + 1)) = 5) by (unfold Rmin; destruct Rle_dec; lra).
    assert (B : Rmin (Rmin 12 ((14 - 2) / 1)) ((7 - 5) / (1 + 1)) = 1) by (unfold Rmin; repeat destruct Rle_dec; lra).
    rewrite A, B. unfold Rmin. destruct Rle_dec; [lra|reflexivity].
  - apply C80_report_refuted. eexists. split; [right; left; reflexivity|reflexivity].
  - rewrite C80_report; [reflexivity|]. intros d [<-|[]]. discriminate.
Qed.

(** * C81: digits of the printed times *)

(** [p] is [t] printed with one digit before and [n] digits after the point,
    and a power of ten, rounded to nearest. *)
Definition printed (n : Z) (t p : R) : Prop :=
  (t = 0 /\ p = 0) \/
  exists e, powerRZ 10 e <= Rabs t < powerRZ 10 (e + 1) /\ Rabs (p - t) <= powerRZ 10 (e - n) / 2.

Lemma powsub : forall a b, powerRZ 10 (a - b) = powerRZ 10 a / powerRZ 10 b.
Proof. intros. unfold Zminus. rewrite powerRZ_add by lra. rewrite powerRZ_neg by lra. rewrite powerRZ_inv by lra. reflexivity. Qed.

Lemma floorZ_log10 : forall x k, powerRZ 10 k <= x < powerRZ 10 (k + 1) -> floorZ (log10 x) = k.
Proof.
  intros x k [H1 H2]. assert (P : 0 < x) by (pose proof (powerRZ_lt 10 k ltac:(lra)); lra).
  destruct (log10_floor x P) as [A B].
  pose proof (pow10_lt_inv k (floorZ (log10 x) + 1) ltac:(lra)).
  pose proof (pow10_lt_inv (floorZ (log10 x)) (k + 1) ltac:(lra)). lia.
Qed.

(** Rounding error of a printed time. *)
Lemma printed_error : forall m s nd n t p, 0 < s -> (0 < nd)%Z -> m <> 0 ->
  n_precision m s nd = Ok n -> Rabs t <= 10 * Rabs m -> printed n t p -> Rabs (p - t) <= s / IZR nd / 2.
Proof.
  intros m s nd n t p S N M E T P.
  assert (D : 0 < s / IZR nd) by (apply Rdiv_lt_0_compat; [assumption|apply IZR_lt; assumption]).
  destruct P as [[-> ->]|(e & [H1 H2] & H3)]; [rewrite Rminus_0_r, Rabs_R0; lra|].
  unfold n_precision, int_log10 in E.
  assert (M' : 0 < Rabs m) by (apply Rabs_pos_lt; assumption).
  destruct (Req_EM_T (Rabs m) 0) as [?|_]; [lra|]. cbn [bind] in E.
  replace (nd =? 0)%Z with false in E by (symmetry; apply Z.eqb_neq; lia).
  destruct (Req_EM_T (s / IZR nd) 0) as [?|_]; [lra|]. cbn [bind] in E. injection E as E.
  destruct (log10_floor (Rabs m) M') as [A1 A2]. destruct (log10_floor (s / IZR nd) D) as [B1 B2].
  set (L := floorZ (log10 (Rabs m))) in *. set (q := floorZ (log10 (s / IZR nd))) in *.
  assert (X : (e < L + 1 + 1)%Z).
  { apply pow10_lt_inv. rewrite powerRZ_add by lra. rewrite powerRZ_1. lra. }
  assert (Y : powerRZ 10 (e - n) <= powerRZ 10 q) by (apply pow10_le; lia).
  lra.
Qed.

(** Times more than tspan_max/nd_rec apart, none of them more than ten times
    as far from zero as the latest observation, are printed differently. *)
Theorem C81_distinct : forall m s nd n t t' p p', 0 < s -> (0 < nd)%Z -> m <> 0 ->
  n_precision m s nd = Ok n -> Rabs t <= 10 * Rabs m -> Rabs t' <= 10 * Rabs m ->
  s / IZR nd < Rabs (t' - t) -> printed n t p -> printed n t' p' -> p <> p'.
Proof.
  intros m s nd n t t' p p' S N M E T T' D P P' Q. subst p'.
  pose proof (printed_error m s nd n t p S N M E T P) as A.
  pose proof (printed_error m s nd n t' p S N M E T' P') as A'.
  replace (t' - t) with ((p - t) - (p - t')) in D by ring.
  pose proof (Rabs_triang (p - t) (- (p - t'))) as TR. rewrite Rabs_Ropp in TR.
  unfold Rminus at 1 in D. lra.
Qed.
Print Assumptions C81_distinct.

(** At least six digits after the point, for all data with a latest time other
    than zero and some extent. *)
Theorem C81_digits : forall m s nd, 0 < s -> (0 < nd)%Z -> m <> 0 -> exists n, n_precision m s nd = Ok n /\ (6 <= n)%Z.
Proof.
  intros m s nd S N M. unfold n_precision, int_log10.
  assert (M' : 0 < Rabs m) by (apply Rabs_pos_lt; assumption).
  assert (D : 0 < s / IZR nd) by (apply Rdiv_lt_0_compat; [assumption|apply IZR_lt; assumption]).
  destruct (Req_EM_T (Rabs m) 0) as [?|_]; [lra|]. cbn [bind].
  replace (nd =? 0)%Z with false by (symmetry; apply Z.eqb_neq; lia).
  destruct (Req_EM_T (s / IZR nd) 0) as [?|_]; [lra|]. cbn [bind]. eexists. split; [reflexivity|lia].
Qed.
Print Assumptions C81_digits.

(** If the latest observation is at time zero, or no curve has an extent, or
    nd_rec is zero (which the check of src/read.c:436 lets pass), an infinity
    or a NaN is converted to an integer. *)
Theorem C81_zero_refuted :
  (forall s nd, n_precision 0 s nd = UB) /\ (forall m nd, n_precision m 0 nd = UB) /\
  (forall m s, n_precision m s 0 = UB) /\
  exists t, StronglySorted Rlt t /\ (1 < length t)%nat /\
    exists s m, spans (-1000) [mktimes t []] = Ok (s, m) /\ forall nd, n_precision m s nd = UB.
Proof.
  assert (Z0 : forall s nd, n_precision 0 s nd = UB).
  { intros. unfold n_precision, int_log10. rewrite Rabs_R0. destruct Req_EM_T; [reflexivity|lra]. }
  split; [exact Z0|]. split; [|split].
  - intros m nd. unfold n_precision, int_log10. destruct Req_EM_T; [reflexivity|]. cbn [bind].
    destruct (nd =? 0)%Z; [reflexivity|]. unfold Rdiv. rewrite Rmult_0_l. destruct Req_EM_T; [reflexivity|lra].
  - intros m s. unfold n_precision, int_log10. destruct Req_EM_T; reflexivity.
  - exists [-20; -10; 0]. split; [repeat constructor; lra|]. split; [cbn; lia|].
    exists 20, 0. split; [|intro; apply Z0].
    rewrite spans_flat. cbn [curves flat_map con_t line_t app foldM].
    rewrite span_of_ok by discriminate. unfold curve_span. cbn. do 2 f_equal; unfold Rmax; destruct Rle_dec; lra.
Qed.
Print Assumptions C81_zero_refuted.
