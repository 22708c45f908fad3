(** C103: the likelihood does not depend on the origin of time, the order of the points,
    what is in the work arrays, or on added trends; other units of time and flux change it
    by a constant.  Real arithmetic, no rounding. *)
From Coq Require Import Reals List Arith Lia Lra FunctionalExtensionality.
From Coquelicot Require Import Coquelicot.
From Verif Require Import CPrelude SemisepModel SemisepProofs SemisepProofs2 MatBridge MatBridge2 SemisepProofs3 PartProofs PartProofs2 KernelCalc KernelSpec KernelModel KernelGauss2 PartModel
  CovModel LikeModel PredModel PropPart PropSemisep GlsAlgebra LikeProofs PropLike PredProofs PropPred.
From Verif Require Import PropCov MixSpec PropKernel MixModel PropMix PsdCore PsdKernel PropPsd EndModel VmapModel SetsModel UnitMat UnitProofs PropSets.
From Verif Require EndProofs PropEnd PropVmap ParamModel ParamSpec ParamProofs ParamProofs2 SmallModel PropSmall PropParam SpanModel PropSpan RangeModel PropRange.
Import ListNotations.
Open Scope R_scope.

(** ** What the statements are about *)
(** The same data written down differently.  Time counts from another origin, which may
    differ from curve to curve, in a unit [stretch] times smaller; the fluxes and errors of
    curve c are multiplied by [factor c]; point k of curve c used to be point [order c k];
    a trend has been added to the old fluxes.  Curve 0 is the continuum. *)
Record change := Change { stretch : R; origin : nat -> R; factor : nat -> R; order : nat -> nat -> nat; added : nat -> R }.
Definition permutes (n : nat) (p : nat -> nat) : Prop :=
  (forall k, (k < n)%nat -> (p k < n)%nat) /\ forall k l, (k < n)%nat -> (l < n)%nat -> p k = p l -> k = l.
Definition curve_error (d : lcset) (c k : nat) : R := match c with O => s_fe d k | S j => s_fel d j k end.
Definition curve_mean (d : lcset) (c : nat) : R := match c with O => s_em d | S j => s_eml d j end.
Definition curve_size (d : lcset) : nat -> nat := narr_of (s_ncon d) (s_nline d).
Definition curve_time (d : lcset) : nat -> nat -> R := times_of (s_tcon d) (s_tline d).
Definition proper (g : change) (d : lcset) : Prop :=
  0 < stretch g /\ forall c, (c < 1 + s_nl d)%nat -> 0 < factor g c /\ permutes (curve_size d c) (order g c).
Definition same_data (nq : nat) (g : change) (d d' : lcset) : Prop :=
  s_nl d' = s_nl d /\ forall c, (c < 1 + s_nl d)%nat -> curve_size d' c = curve_size d c /\ curve_mean d' c = factor g c * curve_mean d c
  /\ forall k, (k < curve_size d c)%nat -> let k0 := order g c k in
       curve_time d' c k = stretch g * curve_time d c k0 + origin g c
       /\ curve_error d' c k = factor g c * curve_error d c k0
       /\ s_fall d' (total (curve_size d) c + k)%nat = factor g c * (s_fall d (total (curve_size d) c + k0)%nat + trend_at nq (added g) c (curve_time d c k0)).
Definition in_order (d : lcset) : Prop := forall m, (S m < s_ncon d)%nat -> s_tcon d m <= s_tcon d (S m).
(** The same parameters in the new units: damping time, systematic errors (relative to the
    mean error of the curve), components of the lines. *)
Definition same_parameters (nset ng uniform : nat) (uniform_var : bool) (g : change) (ds ds' : nat -> lcset) (pm pm' : arr) (cs cs' : nat -> nat -> nat -> comp) (i : nat) : Prop :=
  set_taud uniform_var pm' i = stretch g * set_taud uniform_var pm i /\ pm' (var_slot uniform_var i 0) = pm (var_slot uniform_var i 0)
  /\ forall j, (j < s_nl (ds i))%nat ->
       pm' (line_slot nset ds' ng uniform uniform_var i j ParamSpec.SysErr) = pm (line_slot nset ds ng uniform uniform_var i j ParamSpec.SysErr)
       /\ forall k, (k < ng)%nat -> cs' i j k = Comp (factor g (S j) / factor g 0%nat * area (cs i j k)) (stretch g * centre (cs i j k) + (origin g (S j) - origin g 0%nat)) (stretch g * width (cs i j k)).
(** what the logarithm of the likelihood of curves f, f+1, ..., f+nc-1 loses *)
Definition cost (nq : nat) (g : change) (d : lcset) (f nc : nat) : R :=
  sumn nc (fun c => (INR (curve_size d (f + c)) - INR nq) * ln (factor g (f + c)%nat)) + INR nc * (INR nq * (INR nq - 1) / 2) * ln (stretch g).
Definition set_cost (nq : nat) (g : nat -> change) (ds : nat -> lcset) (i : nat) : R := cost nq (g i) (ds i) 0 (1 + s_nl (ds i)).
Definition lines_cost (nq : nat) (g : nat -> change) (ds : nat -> lcset) (i : nat) : R := cost nq (g i) (ds i) 1 (s_nl (ds i)).

(** ** Links to the proofs *)
Section Set_.
Variables (nset : nat) (ds ds' : nat -> lcset) (ng uniform : nat) (uniform_var : bool) (nq : nat) (pm pm' : arr) (g : nat -> change) (cs cs' : nat -> nat -> nat -> comp).
Hypothesis SD : forall i, (i < nset)%nat -> same_data nq (g i) (ds i) (ds' i).
Notation taud := (set_taud uniform_var pm).
Notation taud' := (set_taud uniform_var pm').
Notation err2 := (set_error2 nset ds ng uniform uniform_var pm).
Notation err2' := (set_error2 nset ds' ng uniform uniform_var pm').

Variable i : nat.
Hypothesis I : (i < nset)%nat.
Hypothesis PR : proper (g i) (ds i).
Hypothesis SP : same_parameters nset ng uniform uniform_var (g i) ds ds' pm pm' cs cs' i.
Notation nl := (s_nl (ds i)).
Notation size := (curve_size (ds i)).
Notation a := (stretch (g i)).
Notation b := (factor (g i)).
Notation o := (origin (g i)).
Notation ord := (order (g i)).
Notation ts := (curve_time (ds i)).
Notation ts' := (curve_time (ds' i)).
Notation SZ := (map size (seq 0 (1 + nl))).
Notation N := (total size (1 + nl)).
Notation prow := (row (1 + nl) size ord).
Notation pfac := (fac (1 + nl) size b).
Lemma nl_eq : s_nl (ds' i) = nl.
Proof. apply SD, I. Qed.
Lemma size_eq c : (c < 1 + nl)%nat -> curve_size (ds' i) c = size c.
Proof. intros C. apply SD; assumption. Qed.
Lemma sizes_eq : set_sizes ds' i = SZ /\ set_sizes ds i = SZ.
Proof.
  unfold set_sizes. rewrite !EndProofs.sizes_seq, nl_eq. split; [|reflexivity]. apply map_ext_in. intros c C. apply in_seq in C. apply size_eq. lia.
Qed.
Lemma total_eq m : (m <= 1 + nl)%nat -> total (curve_size (ds' i)) m = total size m.
Proof. induction m as [|m IH]; intros M; [reflexivity|]. cbn [total]. rewrite IH, size_eq by lia. reflexivity. Qed.
Lemma points_eq : set_points ds' i = N /\ set_points ds i = N.
Proof. unfold set_points. destruct sizes_eq as [-> ->]. split; apply EndProofs.total_seq. Qed.
Lemma Ho1 c k : (c < 1 + nl)%nat -> (k < size c)%nat -> (ord c k < size c)%nat.
Proof. intros C K. exact (proj1 (proj2 (proj2 PR c C)) k K). Qed.
Lemma Ho2 c k l : (c < 1 + nl)%nat -> (k < size c)%nat -> (l < size c)%nat -> ord c k = ord c l -> k = l.
Proof. intros C K LL. exact (proj2 (proj2 (proj2 PR c C)) k l K LL). Qed.
Lemma Hb c : (c < 1 + nl)%nat -> 0 < b c.
Proof. intros C. apply (proj2 PR c C). Qed.
Lemma Ha : 0 < a.
Proof. apply PR. Qed.
Lemma Ht c k : (c < 1 + nl)%nat -> (k < size c)%nat -> ts' c k = a * ts c (ord c k) + o c.
Proof. intros C K. apply (SD i I); assumption. Qed.
Lemma He c k : (c < 1 + nl)%nat -> (k < size c)%nat -> err2' i c k = b c * b c * err2 i c (ord c k).
Proof.
  intros C K. destruct (proj2 (SD i I) c C) as (_ & M & D). destruct (D k K) as (_ & E & _). destruct SP as (_ & S0 & S1).
  destruct c as [|j]; cbn [set_error2 curve_error curve_mean] in *.
  - rewrite E, M, S0. ring.
  - rewrite E, M, (proj1 (S1 j ltac:(lia))). ring.
Qed.
Lemma Hy c k : (c < 1 + nl)%nat -> (k < size c)%nat ->
  s_fall (ds' i) (total size c + k)%nat = b c * (s_fall (ds i) (total size c + ord c k)%nat + trend_at nq (added (g i)) c (ts c (ord c k))).
Proof. intros C K. apply (SD i I); assumption. Qed.
Lemma comp_eq j k : (j < nl)%nat -> (k < ng)%nat -> cs' i j k = stretch_comp a (rel b (S j)) (o (S j) - o 0%nat) (cs i j k).
Proof. intros J K. apply SP; assumption. Qed.

(** a whole set *)
Section Whole.
Variables psi psi' : nat -> nat -> R -> R.
Hypothesis ST : forall j, (j < nl)%nat -> stretched a (rel b (S j)) (o (S j) - o 0%nat) (psi i j) (psi' i j).
Hypothesis SH : forall j, (j < nl)%nat -> of_shapes (psi i j).
Hypothesis SG : set_sigma uniform_var pm' i = b 0%nat * set_sigma uniform_var pm i.
Hypothesis OK : set_ok nset ds ng uniform uniform_var nq pm i.
Hypothesis IO : in_order (ds' i).
Lemma ok_change : set_ok nset ds' ng uniform uniform_var nq pm' i.
Proof.
  destruct OK as (NQ & NL & NC & _ & E & ET). split; [exact NQ|]. rewrite nl_eq. split; [exact NL|]. split; [|split; [exact IO|split]].
  - pose proof (size_eq 0 ltac:(lia)) as Q. cbn in Q. lia.
  - intros c m C M. change (set_curves ds' i) with (curve_size (ds' i)) in M. rewrite size_eq in M by exact C. rewrite He by assumption.
    pose proof (Hb c C). apply Rmult_lt_0_compat; [apply Rmult_lt_0_compat; assumption|]. apply E; [exact C|]. apply Ho1; assumption.
  - intros c C. change (set_curves ds' i) with (curve_size (ds' i)). rewrite size_eq by exact C.
    apply (enough_change (1 + nl) size ord Ho1 Ho2 nq a o ts ts' c C Ha); [intros; apply Ht; assumption|]. apply ET, C.
Qed.
Lemma set_change SS Si L : set_described nset ds ng uniform uniform_var nq pm psi i SS Si L -> exists SS' Si' L',
  set_described nset ds' ng uniform uniform_var nq pm' psi' i SS' Si' L'
  /\ forall p p', marginal_loglike (set_points ds i) (nq * (1 + nl)) SS Si L (s_fall (ds i)) p ->
       marginal_loglike (set_points ds' i) (nq * (1 + s_nl (ds' i))) SS' Si' L' (s_fall (ds' i)) p' -> p' = p - set_cost nq g ds i.
Proof.
  intros (D & IV & TD). destruct OK as (NQ & NL & NC & _ & E & ET).
  exists (UnitProofs.SS' prow pfac SS), (UnitProofs.Si' prow pfac Si), (UnitProofs.L' (nq * (1 + nl)) prow pfac L (newU nq a o b)).
  unfold set_described. rewrite nl_eq. destruct points_eq as [P1 P2]. rewrite P1. rewrite P2 in *. destruct sizes_eq as [Z1 Z2]. rewrite Z1. rewrite Z2 in D.
  assert (T0 : 0 < taud i) by apply exp_pos.
  assert (PD : spd N SS).
  { assert (NN : list_sum SZ = N) by apply EndProofs.total_seq. rewrite <- NN.
    destruct (C68_data_positive_definite (psi i) (taud i) (set_sigma uniform_var pm i) SZ (set_time ds i) (err2 i) SS) as [SY PD]; auto.
    - unfold set_sigma. apply Rmult_lt_0_compat; [apply exp_pos|apply sqrt_lt_R0, exp_pos].
    - intros j. rewrite map_length, seq_length. intros J. apply SH. lia.
    - intros c m. rewrite map_length, seq_length. intros C M. apply E; [exact C|]. rewrite nth_indep with (d' := size 0%nat) in M by (rewrite map_length, seq_length; exact C).
      rewrite map_nth, seq_nth in M by exact C. exact M.
    - apply spd_of; assumption. }
  split; [split; [|split]|].
  - rewrite (proj1 SP), SG. revert D. apply (cov_change (1 + nl) size ord b Ho1 Ho2 Hb a nl o); auto using Ha, He.
    intros [|c] k C K; exact (Ht _ k C K).
  - apply inverse_change; auto; [exact (row_lt _ size ord Ho1)|exact (row_inj _ size ord Ho1 Ho2)|exact (fac_pos _ size b Hb)].
  - assert (Q : trend_design nq (1 + nl) size ts' (UnitProofs.L' (nq * (1 + nl)) prow pfac L (newU nq a o b))) by (apply (design_change (1 + nl) size ord b Ho1 Hb nq a o ts ts' L NQ Ha Ht TD)).
    intros c k v C K. change (set_curves ds' i) with (curve_size (ds' i)) in *. rewrite size_eq in K by exact C. rewrite total_eq by lia. apply Q; assumption.
  - intros p p' M M'. refine (marginal_unique _ _ _ _ _ _ _ _ _ M').
    exact (loglike_change (1 + nl) size ord b Ho1 Ho2 Hb nq a o ts SS Si L (s_fall (ds i)) (s_fall (ds' i)) (added (g i)) p NQ Ha PD IV TD ET Hy M).
Qed.
End Whole.

(** a set without continuum *)
Section Lines.
Variables psi psi' : nat -> nat -> R -> R.
Hypothesis ST : forall j, (j < nl)%nat -> stretched a (rel b (S j)) (o (S j) - o 0%nat) (psi i j) (psi' i j).
Hypothesis SH : forall j, (j < nl)%nat -> of_shapes (psi i j).
Hypothesis SG : lines_sigma uniform_var pm' i = b 0%nat * lines_sigma uniform_var pm i.
Hypothesis OK : lines_only_ok nset ds ng uniform uniform_var nq pm i.
Hypothesis NC0 : s_ncon (ds i) = 0%nat.
Notation nline := (s_nline (ds i)).
Lemma nc0_eq : s_ncon (ds' i) = 0%nat.
Proof. pose proof (size_eq 0 ltac:(lia)) as Q. cbn in Q. congruence. Qed.
Lemma nline_eq j : (j < nl)%nat -> s_nline (ds' i) j = nline j.
Proof. intros J. exact (size_eq (S j) ltac:(lia)). Qed.
Lemma total_lines m : total size (S m) = total nline m.
Proof. induction m as [|m IH]; [cbn; lia|]. change (total size (S (S m))) with (total size (S m) + nline m)%nat. rewrite IH. reflexivity. Qed.
Lemma total_lines' m : (m <= nl)%nat -> total (s_nline (ds' i)) m = total nline m.
Proof. induction m as [|m IH]; intros M; [reflexivity|]. cbn [total]. rewrite IH, nline_eq by lia. reflexivity. Qed.
Lemma locate_lines r : locate SZ r = match locate (map nline (seq 0 nl)) r with Some (c, k) => Some (S c, k) | None => None end.
Proof.
  change SZ with (map (narr_of (s_ncon (ds i)) nline) (seq 0 (1 + nl))). rewrite <- EndProofs.sizes_seq, NC0. cbn [locate]. destruct (Nat.ltb_spec r 0); [lia|]. rewrite Nat.sub_0_r. destruct (locate (map nline (seq 0 nl)) r) as [[c k]|]; reflexivity.
Qed.
Lemma row_lines : prow = row nl nline (fun c => ord (S c)).
Proof.
  apply functional_extensionality. intros r. unfold row. rewrite locate_lines. destruct (locate (map nline (seq 0 nl)) r) as [[c k]|]; [|reflexivity]. rewrite total_lines. reflexivity.
Qed.
Lemma fac_lines : pfac = fac nl nline (fun c => b (S c)).
Proof. apply functional_extensionality. intros r. unfold fac. rewrite locate_lines. destruct (locate (map nline (seq 0 nl)) r) as [[c k]|]; reflexivity. Qed.
Lemma lines_sizes : 0%nat :: map (s_nline (ds' i)) (seq 0 (s_nl (ds' i))) = SZ /\ 0%nat :: map nline (seq 0 nl) = SZ.
Proof.
  pose proof sizes_eq as [Z1 Z2]. unfold set_sizes in Z1, Z2. rewrite nc0_eq in Z1. rewrite NC0 in Z2. split; assumption.
Qed.
Lemma lines_ok_change : lines_only_ok nset ds' ng uniform uniform_var nq pm' i.
Proof.
  destruct OK as (NQ & NL & E & ET). split; [exact NQ|]. rewrite nl_eq. split; [exact NL|]. split.
  - intros j m J M. rewrite nline_eq in M by exact J. rewrite He by (first [lia|exact M]).
    pose proof (Hb (S j) ltac:(lia)). apply Rmult_lt_0_compat; [apply Rmult_lt_0_compat; assumption|]. apply E; [exact J|]. exact (Ho1 (S j) m ltac:(lia) M).
  - intros j J. rewrite nline_eq by exact J.
    apply (enough_change (1 + nl) size ord Ho1 Ho2 nq a o ts ts' (S j) ltac:(lia) Ha); [intros; apply Ht; [lia|assumption]|]. apply ET, J.
Qed.
Lemma lines_change SS Si L : lines_only_described nset ds ng uniform uniform_var nq pm psi i SS Si L -> exists SS' Si' L',
  lines_only_described nset ds' ng uniform uniform_var nq pm' psi' i SS' Si' L'
  /\ forall p p', marginal_loglike (lines_points ds i) (nq * nl) SS Si L (s_fall (ds i)) p ->
       marginal_loglike (lines_points ds' i) (nq * s_nl (ds' i)) SS' Si' L' (s_fall (ds' i)) p' -> p' = p - lines_cost nq g ds i.
Proof.
  intros (D & IV & TD). destruct OK as (NQ & NL & E & ET).
  assert (Ho1' : forall c k, (c < nl)%nat -> (k < nline c)%nat -> (ord (S c) k < nline c)%nat) by (intros c k C K; apply (Ho1 (S c)); [lia|exact K]).
  assert (Ho2' : forall c k l, (c < nl)%nat -> (k < nline c)%nat -> (l < nline c)%nat -> ord (S c) k = ord (S c) l -> k = l) by (intros c k l C K LL; apply (Ho2 (S c)); [lia|exact K|exact LL]).
  assert (Hb' : forall c, (c < nl)%nat -> 0 < b (S c)) by (intros c C; apply Hb; lia).
  exists (UnitProofs.SS' prow pfac SS), (UnitProofs.Si' prow pfac Si), (UnitProofs.L' (nq * nl) prow pfac L (newU nq a (fun c => o (S c)) (fun c => b (S c)))).
  unfold lines_only_described. rewrite nl_eq.
  assert (P1 : lines_points ds' i = total nline nl) by (unfold lines_points; rewrite nl_eq; apply total_lines'; lia).
  assert (P2 : lines_points ds i = total nline nl) by reflexivity.
  rewrite P1. rewrite P2 in *. destruct lines_sizes as [Z1 Z2]. rewrite nl_eq in Z1. rewrite Z1. rewrite Z2 in D.
  assert (T0 : 0 < taud i) by apply exp_pos.
  assert (NN : list_sum SZ = total nline nl) by (rewrite <- total_lines; apply EndProofs.total_seq).
  assert (PD : spd (total nline nl) SS).
  { rewrite <- NN.
    destruct (C68_data_positive_definite (psi i) (taud i) (lines_sigma uniform_var pm i) SZ (fun c m => match c with O => 0 | S j => s_tline (ds i) j m end) (err2 i) SS) as [SY PD]; auto.
    - apply exp_pos.
    - intros j. rewrite map_length, seq_length. intros J. apply SH. lia.
    - intros c m. rewrite map_length, seq_length. intros C M. rewrite nth_indep with (d' := size 0%nat) in M by (rewrite map_length, seq_length; exact C).
      rewrite map_nth, seq_nth in M by exact C. cbn [Nat.add] in M. destruct c as [|j]; [cbn in M; lia|]. apply E; [lia|exact M].
    - apply spd_of; assumption. }
  split; [split; [|split]|].
  - rewrite (proj1 SP), SG. revert D. apply (cov_change (1 + nl) size ord b Ho1 Ho2 Hb a nl o); auto using Ha, He.
    intros [|c] k C K; [cbn in K; lia|]. exact (Ht _ k C K).
  - rewrite row_lines, fac_lines. apply inverse_change; auto; [exact (row_lt _ _ _ Ho1')|exact (row_inj _ _ _ Ho1' Ho2')|exact (fac_pos _ _ _ Hb')].
  - rewrite row_lines, fac_lines.
    assert (Q : trend_design nq nl nline (s_tline (ds' i)) (UnitProofs.L' (nq * nl) (row nl nline (fun c => ord (S c))) (fac nl nline (fun c => b (S c))) L (newU nq a (fun c => o (S c)) (fun c => b (S c))))).
    { apply (design_change nl nline _ _ Ho1' Hb' nq a _ (s_tline (ds i)) (s_tline (ds' i)) L NQ Ha); [|exact TD]. intros c k C K. exact (Ht (S c) k ltac:(lia) K). }
    intros c k v C K. rewrite nline_eq in K by exact C. rewrite total_lines' by lia. apply Q; assumption.
  - rewrite row_lines, fac_lines. intros p p' M M'. refine (marginal_unique _ _ _ _ _ _ _ _ _ M').
    refine (loglike_change nl nline _ _ Ho1' Ho2' Hb' nq a _ (s_tline (ds i)) SS Si L (s_fall (ds i)) (s_fall (ds' i)) (fun m => added (g i) (nq + m)%nat) p NQ Ha PD IV TD ET _ M).
    intros c k C K. rewrite <- total_lines. rewrite (Hy (S c) k) by (first [lia|exact K]). f_equal. f_equal. unfold trend_at. apply sumn_ext. intros q Q. f_equal. f_equal. lia.
Qed.
End Lines.
End Set_.
Lemma sum_less n (p c : nat -> R) : sumn n (fun i => p i - c i) = sumn n p - sumn n c.
Proof. rewrite (sumn_ext n _ (fun i => p i + (-1) * c i)) by (intros; ring). rewrite sumn_plus, sumn_scal. ring. Qed.
Lemma two_totals n (M M' : nat -> R -> Prop) c p p' : (forall i, (i < n)%nat -> forall x y, M i x -> M' i y -> y = x - c i) ->
  (exists q, p = sumn n q /\ forall i, (i < n)%nat -> M i (q i)) -> (exists q, p' = sumn n q /\ forall i, (i < n)%nat -> M' i (q i)) -> p' = p - sumn n c.
Proof.
  intros H (q & -> & Q) (q' & -> & Q'). rewrite <- sum_less. apply sumn_ext. intros i I. apply (H i I); [apply Q, I|apply Q', I].
Qed.
Lemma clear_stretch taud a n c c' : 0 < taud -> 0 < a -> (forall k, (k < n)%nat -> width (c' k) = a * width (c k)) -> clear taud n c -> clear (a * taud) n c'.
Proof.
  intros T A E H k K. rewrite E by exact K. destruct (H k K) as [L|L]; [left|right; rewrite L; reflexivity].
  replace (Rabs (a * taud - a * width (c k)) / (a * taud)) with (Rabs (taud - width (c k)) / taud); [exact L|].
  rewrite <- Rmult_minus_distr_l, Rabs_mult, (Rabs_pos_eq a) by lra. field. lra.
Qed.

(** ** The statements *)
Section Modes.
Context {IP : Type}.
Variable dsytrf : nat -> (nat -> nat -> R) -> (nat -> nat -> R) * IP.
Variable dsytri : nat -> (nat -> nat -> R) -> IP -> nat -> nat -> R.
Variable dsytri_fails : nat -> (nat -> nat -> R) -> IP -> bool.
Variables dtrtri dlauum : nat -> arr -> arr.
Variables log_erfc erfc : R -> R.
Variable type_tf : nat.
Variable flag : bool.
Variable ty : nat -> nat.
Variable nset : nat.
Variables ds ds' : nat -> lcset.
Variable ng : nat.
Variable uniform : nat.
Variable uniform_var : bool.
Variable nq : nat.
Variables junk junk' : nat -> nat -> nat.
Variables fd fd' : nat -> found.
Variable g : nat -> change.
Notation taud := (set_taud uniform_var).
Notation ok ds pm := (set_ok nset ds ng uniform uniform_var nq pm).
Notation comps ds pm := (component nset ds ng uniform uniform_var pm).
Notation rcomps ds pm := (ratio_component nset ds ng uniform uniform_var pm).
Notation good ds pm := (set_good ds ng uniform_var pm log_erfc type_tf).
(** the data sets are the same up to the changes g *)
Definition changed (i : nat) : Prop := proper (g i) (ds i) /\ same_data nq (g i) (ds i) (ds' i).
Definition same (pm pm' : arr) (cs cs' : nat -> nat -> nat -> comp) (i : nat) : Prop :=
  same_parameters nset ng uniform uniform_var (g i) ds ds' pm pm' cs cs' i.
Definition total_cost : R := sumn nset (set_cost nq g ds).
Lemma taud_pos pm i : 0 < taud pm i.
Proof. apply exp_pos. Qed.
Lemma good_change pm pm' cs cs' i : changed i -> same pm pm' cs cs' i -> good ds pm cs i -> good ds' pm' cs' i.
Proof.
  intros [PR SD] (T & _ & S1). unfold set_good. destruct type_tf as [|[|t]]; auto. intros H j J. rewrite (proj1 SD) in J. rewrite T.
  apply (clear_stretch _ _ _ (cs i j)); [apply taud_pos|apply PR| |apply H, J]. intros k K. rewrite (proj2 (S1 j J) k K). reflexivity.
Qed.
Lemma width_pos amp pm i j k : 0 < width (comps ds pm amp i j k).
Proof. apply exp_pos. Qed.
(** the general mode *)
Theorem C103_general pm pm' : lapack_ok dsytrf dsytri dsytri_fails dtrtri dlauum ->
  (forall i, (i < nset)%nat -> ok ds pm i /\ good ds pm (comps ds pm (decode flag)) i /\ separate ds fd i /\ separate ds' fd' i /\ in_order (ds' i)
     /\ changed i /\ set_sigma uniform_var pm' i = factor (g i) 0%nat * set_sigma uniform_var pm i /\ same pm pm' (comps ds pm (decode flag)) (comps ds' pm' (decode flag)) i) ->
  exists p, prob_line_variability4 dsytrf dsytri dsytri_fails dtrtri dlauum log_erfc type_tf flag nset ds ng uniform uniform_var nq junk fd pm = Some p
    /\ prob_line_variability4 dsytrf dsytri dsytri_fails dtrtri dlauum log_erfc type_tf flag nset ds' ng uniform uniform_var nq junk' fd' pm' = Some (p - total_cost).
Proof.
  intros LP H.
  assert (SD : forall i, (i < nset)%nat -> same_data nq (g i) (ds i) (ds' i)) by (intros i I; apply (H i I)).
  set (psi := fun i j => response (PropCov.shape_of type_tf) ng (comps ds pm (decode flag) i j)).
  set (psi' := fun i j => response (PropCov.shape_of type_tf) ng (comps ds' pm' (decode flag) i j)).
  assert (Q : forall i, (i < nset)%nat -> exists SS Si L, set_described nset ds ng uniform uniform_var nq pm psi i SS Si L).
  { intros i I. destruct (H i I) as (OK & G & _). apply (C74_described log_erfc type_tf flag nset ds ng uniform uniform_var nq junk pm i I OK G). }
  apply choose in Q. destruct Q as (SS & Si & L & Q).
  assert (Q' : forall i, (i < nset)%nat -> exists SS' Si' L', set_described nset ds' ng uniform uniform_var nq pm' psi' i SS' Si' L'
    /\ forall p p', marginal_loglike (set_points ds i) (nq * (1 + s_nl (ds i))) (SS i) (Si i) (L i) (s_fall (ds i)) p ->
         marginal_loglike (set_points ds' i) (nq * (1 + s_nl (ds' i))) SS' Si' L' (s_fall (ds' i)) p' -> p' = p - set_cost nq g ds i).
  { intros i I. destruct (H i I) as (OK & G & _ & _ & IO & (PR & _) & SG & SM).
    apply (set_change nset ds ds' ng uniform uniform_var nq pm pm' g (comps ds pm (decode flag)) (comps ds' pm' (decode flag)) SD i I PR SM psi psi'); auto.
    - intros j J. apply response_stretch; [apply PR|intros; apply width_pos|]. intros k K. apply SM; assumption.
    - intros j J. exact (proj2 (general_K log_erfc type_tf nset ds ng uniform uniform_var junk pm flag (comps ds pm (decode flag)) pm i I (same_self _ _ _ _ _ _ i) (fun _ _ _ _ => eq_refl) G) j J). }
  apply choose in Q'. destruct Q' as (SS' & Si' & L' & Q').
  destruct (C74_general dsytrf dsytri dsytri_fails dtrtri dlauum log_erfc type_tf flag nset ds ng uniform uniform_var nq junk fd pm SS Si L LP) as (p & E & T).
  { intros i I. destruct (H i I) as (OK & G & SE & _). split; [exact OK|]. split; [exact G|]. split; [exact SE|]. apply Q, I. }
  destruct (C74_general dsytrf dsytri dsytri_fails dtrtri dlauum log_erfc type_tf flag nset ds' ng uniform uniform_var nq junk' fd' pm' SS' Si' L' LP) as (p' & E' & T').
  { intros i I. destruct (H i I) as (OK & G & _ & SE & IO & CH & SG & SM). split; [|split; [|split; [exact SE|apply Q', I]]].
    - exact (ok_change nset ds ds' ng uniform uniform_var nq pm pm' g _ _ SD i I (proj1 CH) SM OK IO).
    - exact (good_change _ _ _ _ i CH SM G). }
  exists p. split; [exact E|]. rewrite E'. f_equal. refine (two_totals nset (fun i => marginal_loglike (set_points ds i) (nq * (1 + s_nl (ds i))) (SS i) (Si i) (L i) (s_fall (ds i)))
    (fun i => marginal_loglike (set_points ds' i) (nq * (1 + s_nl (ds' i))) (SS' i) (Si' i) (L' i) (s_fall (ds' i))) _ p p' _ T T'). intros i I. apply Q', I.
Qed.
(** the mixed mode *)
Theorem C103_mixed pm pm' : lapack_ok dsytrf dsytri dsytri_fails dtrtri dlauum -> log_erfc_correct log_erfc -> erfc_correct erfc -> digits ng ty ->
  (forall i, (i < nset)%nat -> ok ds pm i /\ (forall j, (j < s_nl (ds i))%nat -> clear_scales' (taud pm i) ng ty (comps ds pm exp i j) /\ clear_scales' (taud pm' i) ng ty (comps ds' pm' exp i j))
     /\ separate ds fd i /\ separate ds' fd' i /\ in_order (ds' i)
     /\ changed i /\ set_sigma uniform_var pm' i = factor (g i) 0%nat * set_sigma uniform_var pm i /\ same pm pm' (comps ds pm exp) (comps ds' pm' exp) i) ->
  exists p, prob_line_variability_mmap dsytrf dsytri dsytri_fails dtrtri dlauum log_erfc erfc ty nset ds ng uniform uniform_var nq junk fd pm = Some p
    /\ prob_line_variability_mmap dsytrf dsytri dsytri_fails dtrtri dlauum log_erfc erfc ty nset ds' ng uniform uniform_var nq junk' fd' pm' = Some (p - total_cost).
Proof.
  intros LP HL HE DG H.
  assert (SD : forall i, (i < nset)%nat -> same_data nq (g i) (ds i) (ds' i)) by (intros i I; apply (H i I)).
  set (psi := fun i j => mixed_response ng ty (comps ds pm exp i j)).
  set (psi' := fun i j => mixed_response ng ty (comps ds' pm' exp i j)).
  assert (Q : forall i, (i < nset)%nat -> exists SS Si L, set_described nset ds ng uniform uniform_var nq pm psi i SS Si L).
  { intros i I. destruct (H i I) as (OK & CS & _). apply (C74_mixed_described log_erfc erfc ty nset ds ng uniform uniform_var nq junk pm i I OK HL HE DG). intros j J. apply CS, J. }
  apply choose in Q. destruct Q as (SS & Si & L & Q).
  assert (Q' : forall i, (i < nset)%nat -> exists SS' Si' L', set_described nset ds' ng uniform uniform_var nq pm' psi' i SS' Si' L'
    /\ forall p p', marginal_loglike (set_points ds i) (nq * (1 + s_nl (ds i))) (SS i) (Si i) (L i) (s_fall (ds i)) p ->
         marginal_loglike (set_points ds' i) (nq * (1 + s_nl (ds' i))) SS' Si' L' (s_fall (ds' i)) p' -> p' = p - set_cost nq g ds i).
  { intros i I. destruct (H i I) as (OK & CS & _ & _ & IO & (PR & _) & SG & SM).
    apply (set_change nset ds ds' ng uniform uniform_var nq pm pm' g (comps ds pm exp) (comps ds' pm' exp) SD i I PR SM psi psi'); auto.
    - intros j J. apply mixed_stretch; [apply PR|intros; apply width_pos|]. intros k K. apply SM; assumption.
    - intros j J. exact (proj2 (mixed_K log_erfc erfc ty nset ds ng uniform uniform_var junk pm i I HL HE DG (fun j J => proj1 (CS j J)) pm pm) j J). }
  apply choose in Q'. destruct Q' as (SS' & Si' & L' & Q').
  destruct (C74_mixed dsytrf dsytri dsytri_fails dtrtri dlauum log_erfc erfc ty nset ds ng uniform uniform_var nq junk fd pm SS Si L LP HL HE DG) as (p & E & T).
  { intros i I. destruct (H i I) as (OK & CS & SE & _). split; [exact OK|]. split; [intros j J; apply CS, J|]. split; [exact SE|]. apply Q, I. }
  destruct (C74_mixed dsytrf dsytri dsytri_fails dtrtri dlauum log_erfc erfc ty nset ds' ng uniform uniform_var nq junk' fd' pm' SS' Si' L' LP HL HE DG) as (p' & E' & T').
  { intros i I. destruct (H i I) as (OK & CS & _ & SE & IO & CH & SG & SM). split; [|split; [|split; [exact SE|apply Q', I]]].
    - exact (ok_change nset ds ds' ng uniform uniform_var nq pm pm' g _ _ SD i I (proj1 CH) SM OK IO).
    - intros j J. rewrite (proj1 (SD i I)) in J. apply CS, J. }
  exists p. split; [exact E|]. rewrite E'. f_equal. refine (two_totals nset (fun i => marginal_loglike (set_points ds i) (nq * (1 + s_nl (ds i))) (SS i) (Si i) (L i) (s_fall (ds i)))
    (fun i => marginal_loglike (set_points ds' i) (nq * (1 + s_nl (ds' i))) (SS' i) (Si' i) (L' i) (s_fall (ds' i))) _ p p' _ T T'). intros i I. apply Q', I.
Qed.
(** the ratio mode; the parameter vectors lie in M and M' *)
Theorem C103_ratio pm pm' M M' src dst src' dst' : lapack_ok dsytrf dsytri dsytri_fails dtrtri dlauum -> (1 <= ng)%nat ->
  let np := ParamModel.num_params nset (nlset ds) ng uniform uniform_var in
  let np' := ParamModel.num_params nset (nlset ds') ng uniform uniform_var in
  (src + np <= dst)%nat \/ (dst + np <= src)%nat -> (src' + np' <= dst')%nat \/ (dst' + np' <= src')%nat ->
  (forall x, (x < np)%nat -> M (src + x)%nat = pm x) -> (forall x, (x < np')%nat -> M' (src' + x)%nat = pm' x) ->
  (forall i, (i < nset)%nat -> ok ds pm i /\ good ds pm (rcomps ds pm) i /\ separate ds fd i /\ separate ds' fd' i /\ in_order (ds' i)
     /\ changed i /\ set_sigma uniform_var pm' i = factor (g i) 0%nat * set_sigma uniform_var pm i /\ same pm pm' (rcomps ds pm) (rcomps ds' pm') i) ->
  exists p, prob_line_variability4_pmap dsytrf dsytri dsytri_fails dtrtri dlauum log_erfc type_tf false nset ds ng uniform uniform_var nq junk fd src dst M = Ok (Some p)
    /\ prob_line_variability4_pmap dsytrf dsytri dsytri_fails dtrtri dlauum log_erfc type_tf false nset ds' ng uniform uniform_var nq junk' fd' src' dst' M' = Ok (Some (p - total_cost)).
Proof.
  intros LP NG np np' AP AP' HM HM' H.
  assert (SD : forall i, (i < nset)%nat -> same_data nq (g i) (ds i) (ds' i)) by (intros i I; apply (H i I)).
  set (psi := fun i j => response (PropCov.shape_of type_tf) ng (rcomps ds pm i j)).
  set (psi' := fun i j => response (PropCov.shape_of type_tf) ng (rcomps ds' pm' i j)).
  assert (Q : forall i, (i < nset)%nat -> exists SS Si L, set_described nset ds ng uniform uniform_var nq pm psi i SS Si L).
  { intros i I. destruct (H i I) as (OK & G & _). apply (C75_described log_erfc type_tf nset ds ng uniform uniform_var nq junk pm i I OK G NG). }
  apply choose in Q. destruct Q as (SS & Si & L & Q).
  assert (Q' : forall i, (i < nset)%nat -> exists SS' Si' L', set_described nset ds' ng uniform uniform_var nq pm' psi' i SS' Si' L'
    /\ forall p p', marginal_loglike (set_points ds i) (nq * (1 + s_nl (ds i))) (SS i) (Si i) (L i) (s_fall (ds i)) p ->
         marginal_loglike (set_points ds' i) (nq * (1 + s_nl (ds' i))) SS' Si' L' (s_fall (ds' i)) p' -> p' = p - set_cost nq g ds i).
  { intros i I. destruct (H i I) as (OK & G & _ & _ & IO & (PR & _) & SG & SM).
    apply (set_change nset ds ds' ng uniform uniform_var nq pm pm' g (rcomps ds pm) (rcomps ds' pm') SD i I PR SM psi psi'); auto.
    - intros j J. apply response_stretch; [apply PR|intros; apply exp_pos|]. intros k K. apply SM; assumption.
    - intros j J. unfold psi. rewrite response_mixed. exists ng, (fun _ => Nat.min type_tf 3), (rcomps ds pm i j). split; [|reflexivity]. intros k K. split; [lia|apply exp_pos]. }
  apply choose in Q'. destruct Q' as (SS' & Si' & L' & Q').
  destruct (C75_ratio dsytrf dsytri dsytri_fails dtrtri dlauum log_erfc type_tf nset ds ng uniform uniform_var nq junk fd pm SS Si L M src dst LP NG AP HM) as (p & E & T).
  { intros i I. destruct (H i I) as (OK & G & SE & _). split; [exact OK|]. split; [exact G|]. split; [exact SE|]. apply Q, I. }
  destruct (C75_ratio dsytrf dsytri dsytri_fails dtrtri dlauum log_erfc type_tf nset ds' ng uniform uniform_var nq junk' fd' pm' SS' Si' L' M' src' dst' LP NG AP' HM') as (p' & E' & T').
  { intros i I. destruct (H i I) as (OK & G & _ & SE & IO & CH & SG & SM). split; [|split; [|split; [exact SE|apply Q', I]]].
    - exact (ok_change nset ds ds' ng uniform uniform_var nq pm pm' g _ _ SD i I (proj1 CH) SM OK IO).
    - exact (good_change _ _ _ _ i CH SM G). }
  exists p. split; [exact E|]. rewrite E'. f_equal. f_equal. refine (two_totals nset (fun i => marginal_loglike (set_points ds i) (nq * (1 + s_nl (ds i))) (SS i) (Si i) (L i) (s_fall (ds i)))
    (fun i => marginal_loglike (set_points ds' i) (nq * (1 + s_nl (ds' i))) (SS' i) (Si' i) (L' i) (s_fall (ds' i))) _ p p' _ T T'). intros i I. apply Q', I.
Qed.
(** the virtual mode: there is no continuum, [origin 0] and [factor 0] are those of the
    driving curve *)
Theorem C103_virtual pm pm' : dsytr_spec dsytrf dsytri -> dsytri_code dsytrf dsytri_fails ->
  (forall i, (i < nset)%nat -> lines_only_ok nset ds ng uniform uniform_var nq pm i /\ good ds pm (comps ds pm (decode flag)) i /\ lines_separate ds fd i /\ lines_separate ds' fd' i /\ s_ncon (ds i) = 0%nat
     /\ changed i /\ lines_sigma uniform_var pm' i = factor (g i) 0%nat * lines_sigma uniform_var pm i /\ same pm pm' (comps ds pm (decode flag)) (comps ds' pm' (decode flag)) i) ->
  exists p, prob_line_variability4_vmap dsytrf dsytri dsytri_fails log_erfc type_tf flag nset ds ng uniform uniform_var nq junk fd pm = Some p
    /\ prob_line_variability4_vmap dsytrf dsytri dsytri_fails log_erfc type_tf flag nset ds' ng uniform uniform_var nq junk' fd' pm' = Some (p - sumn nset (lines_cost nq g ds)).
Proof.
  intros LP LC H.
  assert (SD : forall i, (i < nset)%nat -> same_data nq (g i) (ds i) (ds' i)) by (intros i I; apply (H i I)).
  set (psi := fun i j => response (PropCov.shape_of type_tf) ng (comps ds pm (decode flag) i j)).
  set (psi' := fun i j => response (PropCov.shape_of type_tf) ng (comps ds' pm' (decode flag) i j)).
  assert (Q : forall i, (i < nset)%nat -> exists SS Si L, lines_only_described nset ds ng uniform uniform_var nq pm psi i SS Si L).
  { intros i I. destruct (H i I) as (OK & G & _). apply (C74_virtual_described log_erfc type_tf flag nset ds ng uniform uniform_var nq junk pm i I OK G). }
  apply choose in Q. destruct Q as (SS & Si & L & Q).
  assert (Q' : forall i, (i < nset)%nat -> exists SS' Si' L', lines_only_described nset ds' ng uniform uniform_var nq pm' psi' i SS' Si' L'
    /\ forall p p', marginal_loglike (lines_points ds i) (nq * s_nl (ds i)) (SS i) (Si i) (L i) (s_fall (ds i)) p ->
         marginal_loglike (lines_points ds' i) (nq * s_nl (ds' i)) SS' Si' L' (s_fall (ds' i)) p' -> p' = p - lines_cost nq g ds i).
  { intros i I. destruct (H i I) as (OK & G & _ & _ & NC & (PR & _) & SG & SM).
    apply (lines_change nset ds ds' ng uniform uniform_var nq pm pm' g (comps ds pm (decode flag)) (comps ds' pm' (decode flag)) SD i I PR SM psi psi'); auto.
    - intros j J. apply response_stretch; [apply PR|intros; apply width_pos|]. intros k K. apply SM; assumption.
    - intros j J. exact (proj2 (general_K log_erfc type_tf nset ds ng uniform uniform_var junk pm flag (comps ds pm (decode flag)) pm i I (same_self _ _ _ _ _ _ i) (fun _ _ _ _ => eq_refl) G) j J). }
  apply choose in Q'. destruct Q' as (SS' & Si' & L' & Q').
  destruct (C74_virtual dsytrf dsytri dsytri_fails log_erfc type_tf flag nset ds ng uniform uniform_var nq junk fd pm SS Si L LP LC) as (p & E & T).
  { intros i I. destruct (H i I) as (OK & G & SE & _). split; [exact OK|]. split; [exact G|]. split; [exact SE|]. apply Q, I. }
  destruct (C74_virtual dsytrf dsytri dsytri_fails log_erfc type_tf flag nset ds' ng uniform uniform_var nq junk' fd' pm' SS' Si' L' LP LC) as (p' & E' & T').
  { intros i I. destruct (H i I) as (OK & G & _ & SE & NC & CH & SG & SM). split; [|split; [|split; [exact SE|apply Q', I]]].
    - exact (lines_ok_change nset ds ds' ng uniform uniform_var nq pm pm' g _ _ SD i I (proj1 CH) SM OK NC).
    - exact (good_change _ _ _ _ i CH SM G). }
  exists p. split; [exact E|]. rewrite E'. f_equal. refine (two_totals nset (fun i => marginal_loglike (lines_points ds i) (nq * s_nl (ds i)) (SS i) (Si i) (L i) (s_fall (ds i)))
    (fun i => marginal_loglike (lines_points ds' i) (nq * s_nl (ds' i)) (SS' i) (Si' i) (L' i) (s_fall (ds' i))) _ p p' _ T T'). intros i I. apply Q', I.
Qed.
(** Another origin of time for a whole set, another order of the points, an added trend,
    other contents of the memory: the parameters stay the same, and so does the value. *)
Definition unmoved (g : change) : Prop := stretch g = 1 /\ (forall c, factor g c = 1) /\ forall c, origin g c = origin g 0%nat.
Lemma before_ext : (forall i, (i < nset)%nat -> s_nl (ds' i) = s_nl (ds i)) -> forall i, (i <= nset)%nat -> ParamSpec.before (nlset ds') i = ParamSpec.before (nlset ds) i.
Proof. intros NL i. induction i as [|i IH]; intros I; [reflexivity|]. cbn [ParamSpec.before]. unfold nlset in *. rewrite IH, NL by lia. reflexivity. Qed.
Lemma slot_ext : (forall i, (i < nset)%nat -> s_nl (ds' i) = s_nl (ds i)) -> forall i j r, (i < nset)%nat ->
  line_slot nset ds' ng uniform uniform_var i j r = line_slot nset ds ng uniform uniform_var i j r.
Proof.
  intros NL i j r I. unfold line_slot, ParamSpec.slot, ParamSpec.slot_at, ParamSpec.line_no. rewrite (before_ext NL i) by lia. reflexivity.
Qed.
Lemma same_unmoved pm cs cs' i : (forall i, (i < nset)%nat -> s_nl (ds' i) = s_nl (ds i)) -> (i < nset)%nat -> unmoved (g i) ->
  (forall j k, cs' i j k = cs i j k) -> same pm pm cs cs' i.
Proof.
  intros NL I (U1 & U2 & U3) CS. split; [rewrite U1; ring|]. split; [reflexivity|]. intros j J. split; [rewrite (slot_ext NL) by exact I; reflexivity|].
  intros k K. rewrite CS, U1, !U2, (U3 (S j)). destruct (cs i j k) as [x y z]. cbn. f_equal; [field|ring|ring].
Qed.
Lemma comps_ext pm amp : (forall i, (i < nset)%nat -> s_nl (ds' i) = s_nl (ds i)) -> forall i j k, (i < nset)%nat -> comps ds' pm amp i j k = comps ds pm amp i j k.
Proof. intros NL i j k I. unfold component. rewrite !(slot_ext NL) by exact I. reflexivity. Qed.
Lemma rcomps_ext pm : (forall i, (i < nset)%nat -> s_nl (ds' i) = s_nl (ds i)) -> forall i j k, (i < nset)%nat -> rcomps ds' pm i j k = rcomps ds pm i j k.
Proof. intros NL i j k I. unfold ratio_component. rewrite !(slot_ext NL) by exact I. reflexivity. Qed.
Lemma zero_sum n f : (forall k, (k < n)%nat -> f k = 0) -> sumn n f = 0.
Proof. intros H. rewrite (sumn_ext n f (fun _ => 0)) by exact H. apply sumn_zero. Qed.
Lemma cost_unmoved h d f nc : unmoved h -> cost nq h d f nc = 0.
Proof.
  intros (U1 & U2 & _). unfold cost. rewrite U1, ln_1, Rmult_0_r, Rplus_0_r. apply zero_sum. intros c _. rewrite U2, ln_1. ring.
Qed.
Lemma total_unmoved : (forall i, (i < nset)%nat -> unmoved (g i)) -> total_cost = 0.
Proof. intros U. apply zero_sum. intros i I. apply cost_unmoved, U, I. Qed.
Theorem C103_origin_general pm : lapack_ok dsytrf dsytri dsytri_fails dtrtri dlauum ->
  (forall i, (i < nset)%nat -> ok ds pm i /\ good ds pm (comps ds pm (decode flag)) i /\ separate ds fd i /\ separate ds' fd' i /\ in_order (ds' i) /\ changed i /\ unmoved (g i)) ->
  exists p, prob_line_variability4 dsytrf dsytri dsytri_fails dtrtri dlauum log_erfc type_tf flag nset ds ng uniform uniform_var nq junk fd pm = Some p
    /\ prob_line_variability4 dsytrf dsytri dsytri_fails dtrtri dlauum log_erfc type_tf flag nset ds' ng uniform uniform_var nq junk' fd' pm = Some p.
Proof.
  intros LP H. assert (NL : forall i, (i < nset)%nat -> s_nl (ds' i) = s_nl (ds i)) by (intros i I; apply (H i I)).
  destruct (C103_general pm pm LP) as (p & E & E').
  - intros i I. destruct (H i I) as (H1 & H2 & H3 & H4 & H5 & H6 & U). repeat (split; [assumption|]). split; [rewrite (proj1 (proj2 U)); ring|].
    apply same_unmoved; auto. intros j k. apply comps_ext; assumption.
  - exists p. split; [exact E|]. rewrite E', total_unmoved, Rminus_0_r; [reflexivity|]. intros i I. apply (H i I).
Qed.
Theorem C103_origin_mixed pm : lapack_ok dsytrf dsytri dsytri_fails dtrtri dlauum -> log_erfc_correct log_erfc -> erfc_correct erfc -> digits ng ty ->
  (forall i, (i < nset)%nat -> ok ds pm i /\ (forall j, (j < s_nl (ds i))%nat -> clear_scales' (taud pm i) ng ty (comps ds pm exp i j))
     /\ separate ds fd i /\ separate ds' fd' i /\ in_order (ds' i) /\ changed i /\ unmoved (g i)) ->
  exists p, prob_line_variability_mmap dsytrf dsytri dsytri_fails dtrtri dlauum log_erfc erfc ty nset ds ng uniform uniform_var nq junk fd pm = Some p
    /\ prob_line_variability_mmap dsytrf dsytri dsytri_fails dtrtri dlauum log_erfc erfc ty nset ds' ng uniform uniform_var nq junk' fd' pm = Some p.
Proof.
  intros LP HL HE DG H. assert (NL : forall i, (i < nset)%nat -> s_nl (ds' i) = s_nl (ds i)) by (intros i I; apply (H i I)).
  destruct (C103_mixed pm pm LP HL HE DG) as (p & E & E').
  - intros i I. destruct (H i I) as (H1 & H2 & H3 & H4 & H5 & H6 & U). split; [exact H1|]. split.
    { intros j J. split; [exact (H2 j J)|]. intros k K. rewrite comps_ext by assumption. apply (H2 j J k K). }
    repeat (split; [assumption|]). split; [rewrite (proj1 (proj2 U)); ring|].
    apply same_unmoved; auto. intros j k. apply comps_ext; assumption.
  - exists p. split; [exact E|]. rewrite E', total_unmoved, Rminus_0_r; [reflexivity|]. intros i I. apply (H i I).
Qed.
Theorem C103_origin_ratio pm M M' src dst src' dst' : lapack_ok dsytrf dsytri dsytri_fails dtrtri dlauum -> (1 <= ng)%nat ->
  let np := ParamModel.num_params nset (nlset ds) ng uniform uniform_var in
  let np' := ParamModel.num_params nset (nlset ds') ng uniform uniform_var in
  (src + np <= dst)%nat \/ (dst + np <= src)%nat -> (src' + np' <= dst')%nat \/ (dst' + np' <= src')%nat ->
  (forall x, (x < np)%nat -> M (src + x)%nat = pm x) -> (forall x, (x < np')%nat -> M' (src' + x)%nat = pm x) ->
  (forall i, (i < nset)%nat -> ok ds pm i /\ good ds pm (rcomps ds pm) i /\ separate ds fd i /\ separate ds' fd' i /\ in_order (ds' i) /\ changed i /\ unmoved (g i)) ->
  exists p, prob_line_variability4_pmap dsytrf dsytri dsytri_fails dtrtri dlauum log_erfc type_tf false nset ds ng uniform uniform_var nq junk fd src dst M = Ok (Some p)
    /\ prob_line_variability4_pmap dsytrf dsytri dsytri_fails dtrtri dlauum log_erfc type_tf false nset ds' ng uniform uniform_var nq junk' fd' src' dst' M' = Ok (Some p).
Proof.
  intros LP NG np np' AP AP' HM HM' H. assert (NL : forall i, (i < nset)%nat -> s_nl (ds' i) = s_nl (ds i)) by (intros i I; apply (H i I)).
  destruct (C103_ratio pm pm M M' src dst src' dst' LP NG AP AP' HM HM') as (p & E & E').
  - intros i I. destruct (H i I) as (H1 & H2 & H3 & H4 & H5 & H6 & U). repeat (split; [assumption|]). split; [rewrite (proj1 (proj2 U)); ring|].
    apply same_unmoved; auto. intros j k. apply rcomps_ext; assumption.
  - exists p. split; [exact E|]. rewrite E', total_unmoved, Rminus_0_r; [reflexivity|]. intros i I. apply (H i I).
Qed.
Theorem C103_origin_virtual pm : dsytr_spec dsytrf dsytri -> dsytri_code dsytrf dsytri_fails ->
  (forall i, (i < nset)%nat -> lines_only_ok nset ds ng uniform uniform_var nq pm i /\ good ds pm (comps ds pm (decode flag)) i /\ lines_separate ds fd i /\ lines_separate ds' fd' i /\ s_ncon (ds i) = 0%nat
     /\ changed i /\ unmoved (g i)) ->
  exists p, prob_line_variability4_vmap dsytrf dsytri dsytri_fails log_erfc type_tf flag nset ds ng uniform uniform_var nq junk fd pm = Some p
    /\ prob_line_variability4_vmap dsytrf dsytri dsytri_fails log_erfc type_tf flag nset ds' ng uniform uniform_var nq junk' fd' pm = Some p.
Proof.
  intros LP LC H. assert (NL : forall i, (i < nset)%nat -> s_nl (ds' i) = s_nl (ds i)) by (intros i I; apply (H i I)).
  destruct (C103_virtual pm pm LP LC) as (p & E & E').
  - intros i I. destruct (H i I) as (H1 & H2 & H3 & H4 & H5 & H6 & U). repeat (split; [assumption|]). split; [rewrite (proj1 (proj2 U)); ring|].
    apply same_unmoved; auto. intros j k. apply comps_ext; assumption.
  - exists p. split; [exact E|]. rewrite E'. rewrite (zero_sum nset (lines_cost nq g ds)), Rminus_0_r; [reflexivity|]. intros i I. apply cost_unmoved, (H i I).
Qed.
End Modes.

(** The vector with given values in its slots, when the sets share no parameters. *)
Section Place.
Variables (nset : nat) (ds : nat -> lcset) (ng uniform : nat) (v : nat -> nat -> R) (l : nat -> nat -> ParamSpec.role -> R).
Definition role_at (o : nat) : ParamSpec.role :=
  match o with
  | O => ParamSpec.SysErr
  | S o => match (o mod 3)%nat with O => ParamSpec.Amp (o / 3) | 1%nat => ParamSpec.Centre (o / 3) | _ => ParamSpec.Width (o / 3) end
  end.
Definition place (x : nat) : R :=
  if (x <? 3 * nset)%nat then v (x / 3)%nat (x mod 3)%nat
  else let y := (x - 3 * nset)%nat in
    match locate (map (nlset ds) (seq 0 nset)) (y / (1 + 3 * ng)) with
    | Some (i, j) => l i j (role_at (y mod (1 + 3 * ng)))
    | None => 0
    end.
Lemma before_total i : ParamSpec.before (nlset ds) i = total (nlset ds) i.
Proof. induction i as [|i IH]; [reflexivity|]. cbn [ParamSpec.before total]. rewrite IH. reflexivity. Qed.
Lemma role_offset r : role_at (ParamSpec.offset r) = r.
Proof.
  destruct r as [|k|k|k]; [reflexivity| | |]; unfold role_at; cbn [ParamSpec.offset Nat.add].
  - replace (3 * k)%nat with (0 + k * 3)%nat by lia. rewrite Nat.mod_add, Nat.div_add by lia. reflexivity.
  - replace (S (3 * k))%nat with (1 + k * 3)%nat by lia. rewrite Nat.mod_add, Nat.div_add by lia. reflexivity.
  - replace (S (S (3 * k)))%nat with (2 + k * 3)%nat by lia. rewrite Nat.mod_add, Nat.div_add by lia. reflexivity.
Qed.
Lemma place_line i j r : uniform <> 1%nat -> (i < nset)%nat -> (j < s_nl (ds i))%nat -> ParamSpec.role_ok ng r ->
  place (line_slot nset ds ng uniform false i j r) = l i j r.
Proof.
  intros U I J RO. set (s := line_slot nset ds ng uniform false i j r).
  assert (ES : s = (3 * nset + ((total (nlset ds) i + j) * (1 + 3 * ng) + ParamSpec.offset r))%nat).
  { unfold s, line_slot, ParamSpec.slot, ParamSpec.slot_at, ParamSpec.line_no. destruct (Nat.eqb_spec uniform 1) as [|_]; [contradiction|]. rewrite before_total.
    unfold ParamModel.num_params_var, ParamModel.per_line. lia. }
  assert (OF : (ParamSpec.offset r < 1 + 3 * ng)%nat) by (destruct r; cbn in RO |- *; lia).
  unfold place. destruct (Nat.ltb_spec s (3 * nset)) as [L|_]; [lia|].
  replace (s - 3 * nset)%nat with ((total (nlset ds) i + j) * (1 + 3 * ng) + ParamSpec.offset r)%nat by lia. cbv zeta.
  rewrite Nat.div_add_l, (Nat.div_small _ _ OF), Nat.add_0_r by lia.
  rewrite (Nat.add_comm _ (ParamSpec.offset r)), Nat.mod_add, (Nat.mod_small _ _ OF) by lia.
  rewrite EndProofs.locate_total by (try assumption; exact J). rewrite role_offset. reflexivity.
Qed.
Lemma place_var i c : (i < nset)%nat -> (c < 3)%nat -> place (var_slot false i c) = v i c.
Proof.
  intros I C. unfold place, var_slot. destruct (Nat.ltb_spec (3 * i + c) (3 * nset)) as [_|L]; [|lia].
  replace ((3 * i + c) mod 3)%nat with c by (symmetry; rewrite Nat.add_comm, Nat.mul_comm, Nat.mod_add, Nat.mod_small; lia).
  replace ((3 * i + c) / 3)%nat with i by (symmetry; rewrite Nat.mul_comm, Nat.div_add_l, Nat.div_small; lia). reflexivity.
Qed.
End Place.

(** In the virtual mode nothing in the data fixes the strength of the driving curve or the
    zero of its time: what dnest_vmap holds fixed (src/dnest_vmap.c:82-96) can be reached
    from any parameters without changing the likelihood. *)
Section Virtual.
Context {IP : Type}.
Variable dsytrf : nat -> (nat -> nat -> R) -> (nat -> nat -> R) * IP.
Variable dsytri : nat -> (nat -> nat -> R) -> IP -> nat -> nat -> R.
Variable dsytri_fails : nat -> (nat -> nat -> R) -> IP -> bool.
Variable log_erfc : R -> R.
Variable type_tf : nat.
Variable flag : bool.
Variable nset : nat.
Variable ds : nat -> lcset.
Variable ng : nat.
Variable uniform : nat.
Variable nq : nat.
Variables junk junk' : nat -> nat -> nat.
Variables fd fd' : nat -> found.
Notation prob := (prob_line_variability4_vmap dsytrf dsytri dsytri_fails log_erfc type_tf flag nset ds ng uniform).
Notation comps uv pm := (component nset ds ng uniform uv pm (decode flag)).
(** the driving curve of set i is [beta i] times as strong and runs [h i] earlier *)
Definition redriven (uv : bool) (beta h : nat -> R) (pm pm' : arr) (i : nat) : Prop :=
  0 < beta i /\ pm' (var_slot uv i 0) = pm (var_slot uv i 0) /\ pm' (var_slot uv i 2) = pm (var_slot uv i 2)
  /\ exp (pm' (var_slot uv i 1)) = beta i * exp (pm (var_slot uv i 1))
  /\ forall j, (j < s_nl (ds i))%nat ->
       pm' (line_slot nset ds ng uniform uv i j ParamSpec.SysErr) = pm (line_slot nset ds ng uniform uv i j ParamSpec.SysErr)
       /\ forall k, (k < ng)%nat -> comps uv pm' i j k = Comp (area (comps uv pm i j k) / beta i) (centre (comps uv pm i j k) + h i) (width (comps uv pm i j k)).
Definition no_continuum (i : nat) : Prop := s_ncon (ds i) = 0%nat /\ s_em (ds i) = 0.
Theorem C103_degenerate uv beta h pm pm' : dsytr_spec dsytrf dsytri -> dsytri_code dsytrf dsytri_fails ->
  (forall i, (i < nset)%nat -> lines_only_ok nset ds ng uniform uv nq pm i /\ set_good ds ng uv pm log_erfc type_tf (comps uv pm) i
     /\ lines_separate ds fd i /\ lines_separate ds fd' i /\ no_continuum i /\ redriven uv beta h pm pm' i) ->
  exists p, prob uv nq junk fd pm = Some p /\ prob uv nq junk' fd' pm' = Some p.
Proof.
  intros LP LC H.
  set (g := fun i => Change 1 (fun c => match c with O => - h i | S _ => 0 end) (fun c => match c with O => beta i | S _ => 1 end) (fun _ k => k) (fun _ => 0)).
  destruct (C103_virtual dsytrf dsytri dsytri_fails log_erfc type_tf flag nset ds ds ng uniform uv nq junk junk' fd fd' g pm pm' LP LC) as (p & E & E').
  - intros i I. destruct (H i I) as (OK & G & S1 & S2 & (NC & EM) & B & R0 & R2 & R1 & RL). repeat (split; [assumption|]).
    split; [|split; [exact R1|]].
    + split.
      * split; [cbn; lra|]. intros c C. split; [destruct c; cbn; [exact B|lra]|]. split; cbn; auto.
      * split; [reflexivity|]. intros c C. split; [reflexivity|]. split; [destruct c; cbn; [rewrite EM|]; ring|].
        intros k K. destruct c as [|c]; [unfold curve_size in K; cbn in K; lia|]. cbn. repeat split; try ring.
        rewrite Rmult_1_l. unfold trend_at. rewrite zero_sum; [ring|]. intros; ring.
    + split; [|split; [exact R0|]].
      * unfold set_taud. rewrite R2. cbn. ring.
      * intros j J. destruct (RL j J) as [R3 R4]. split; [exact R3|]. intros k K. rewrite (R4 k K). cbn. f_equal; [field; lra|ring|ring].
  - exists p. split; [exact E|]. rewrite E'. rewrite zero_sum, Rminus_0_r; [reflexivity|]. intros i I. unfold lines_cost, cost. cbn. rewrite ln_1, Rmult_0_r, Rplus_0_r. apply zero_sum. intros; ring.
Qed.
(** Holding sigma at 0.1 and the first lag of the first line of each set at 0 loses no
    likelihood, when the sets share no parameters. *)
Theorem C103_fixing pm : dsytr_spec dsytrf dsytri -> dsytri_code dsytrf dsytri_fails -> uniform <> 1%nat -> (1 <= ng)%nat ->
  (forall i, (i < nset)%nat -> lines_only_ok nset ds ng uniform false nq pm i /\ set_good ds ng false pm log_erfc type_tf (comps false pm) i
     /\ lines_separate ds fd i /\ lines_separate ds fd' i /\ no_continuum i) ->
  exists pm' p, prob false nq junk fd pm = Some p /\ prob false nq junk' fd' pm' = Some p /\
    forall i, (i < nset)%nat -> pm' (var_slot false i 1) = ln (1 / 10) /\ pm' (line_slot nset ds ng uniform false i 0 (ParamSpec.Centre 0)) = 0.
Proof.
  intros LP LC U NG H.
  set (beta := fun i => (1 / 10) / exp (pm (var_slot false i 1))). set (h := fun i => - pm (line_slot nset ds ng uniform false i 0 (ParamSpec.Centre 0))).
  assert (BP : forall i, 0 < beta i) by (intros i; unfold beta; apply Rdiv_lt_0_compat; [lra|apply exp_pos]).
  set (sl := line_slot nset ds ng uniform false).
  set (pm' := place nset ds ng (fun i c => if (c =? 1)%nat then ln (1 / 10) else pm (var_slot false i c))
    (fun i j r => match r with ParamSpec.Amp _ => if flag then pm (sl i j r) / beta i else pm (sl i j r) - ln (beta i) | ParamSpec.Centre _ => pm (sl i j r) + h i | _ => pm (sl i j r) end)).
  exists pm'. unfold pm'.
  destruct (C103_degenerate false beta h pm pm' LP LC) as (p & E & E').
  - intros i I. destruct (H i I) as (H1 & H2 & H3 & H4 & H5). repeat (split; [assumption|]). split; [apply BP|]. unfold pm'.
    rewrite !place_var by lia. cbn [Nat.eqb]. split; [reflexivity|]. split; [reflexivity|].
    split; [rewrite exp_ln by lra; unfold beta; field; apply Rgt_not_eq, exp_pos|].
    intros j J. split; [rewrite place_line by (try assumption; exact Logic.I); reflexivity|]. intros k K. unfold component.
    rewrite !place_line by (try assumption; exact K). cbn [area centre width]. f_equal. unfold decode. destruct flag; [reflexivity|].
    unfold Rminus. rewrite exp_plus, exp_Ropp, exp_ln by apply BP. reflexivity.
  - exists p. split; [exact E|]. split; [exact E'|]. intros i I. destruct (H i I) as ((_ & N2 & _) & _). split.
    + rewrite place_var by lia. reflexivity.
    + unfold sl. rewrite place_line by (try assumption; cbn; lia). unfold h. ring.
Qed.
End Virtual.

(** In the general mode, if the sets share no parameters, every parameter vector has such
    a counterpart in the new units. *)
Section Counterpart.
Context {IP : Type}.
Variable dsytrf : nat -> (nat -> nat -> R) -> (nat -> nat -> R) * IP.
Variable dsytri : nat -> (nat -> nat -> R) -> IP -> nat -> nat -> R.
Variable dsytri_fails : nat -> (nat -> nat -> R) -> IP -> bool.
Variables dtrtri dlauum : nat -> arr -> arr.
Variable log_erfc : R -> R.
Variable type_tf : nat.
Variable flag : bool.
Variable nset : nat.
Variables ds ds' : nat -> lcset.
Variable ng : nat.
Variable uniform : nat.
Variable nq : nat.
Variables junk junk' : nat -> nat -> nat.
Variables fd fd' : nat -> found.
Variable g : nat -> change.
Theorem C103_counterpart : lapack_ok dsytrf dsytri dsytri_fails dtrtri dlauum -> uniform <> 1%nat ->
  (forall i, (i < nset)%nat -> separate ds fd i /\ separate ds' fd' i /\ in_order (ds' i) /\ changed ds ds' nq g i) ->
  forall pm, (forall i, (i < nset)%nat -> set_ok nset ds ng uniform false nq pm i /\ set_good ds ng false pm log_erfc type_tf (component nset ds ng uniform false pm (decode flag)) i) ->
  exists pm' p, prob_line_variability4 dsytrf dsytri dsytri_fails dtrtri dlauum log_erfc type_tf flag nset ds ng uniform false nq junk fd pm = Some p
    /\ prob_line_variability4 dsytrf dsytri dsytri_fails dtrtri dlauum log_erfc type_tf flag nset ds' ng uniform false nq junk' fd' pm' = Some (p - total_cost nset ds nq g).
Proof.
  intros LP U H pm Q. set (sl := line_slot nset ds ng uniform false).
  assert (NL : forall i, (i < nset)%nat -> s_nl (ds' i) = s_nl (ds i)) by (intros i I; apply (H i I)).
  set (pm' := place nset ds ng (fun i c => match c with
        | O => pm (var_slot false i 0)
        | 1%nat => pm (var_slot false i 1) + ln (factor (g i) 0%nat) - ln (stretch (g i)) / 2
        | _ => pm (var_slot false i 2) + ln (stretch (g i)) end)
    (fun i j r => let b := factor (g i) (S j) / factor (g i) 0%nat in match r with
        | ParamSpec.SysErr => pm (sl i j r)
        | ParamSpec.Amp _ => if flag then b * pm (sl i j r) else ln b + pm (sl i j r)
        | ParamSpec.Centre _ => stretch (g i) * pm (sl i j r) + (origin (g i) (S j) - origin (g i) 0%nat)
        | ParamSpec.Width _ => ln (stretch (g i)) + pm (sl i j r) end)).
  exists pm'. apply C103_general; [exact LP|]. intros i I. destruct (H i I) as (H1 & H2 & H3 & CH). destruct (Q i I) as (Q1 & Q2).
  destruct CH as [PR SD]. assert (PA := proj1 PR). assert (B0 := proj1 (proj2 PR 0%nat ltac:(lia))).
  repeat (split; [assumption|]). split; [split; assumption|].
  assert (TA : set_taud false pm' i = stretch (g i) * set_taud false pm i).
  { unfold set_taud, pm'. rewrite place_var by lia. rewrite exp_plus, exp_ln by exact PA. ring. }
  split.
  - unfold set_sigma. rewrite TA. unfold pm'. rewrite place_var by lia. unfold Rminus. rewrite !exp_plus, exp_ln, exp_Ropp by exact B0.
    rewrite sqrt_mult by (try apply Rlt_le, exp_pos; lra).
    replace (exp (ln (stretch (g i)) / 2)) with (sqrt (stretch (g i))).
    + field. apply Rgt_not_eq, sqrt_lt_R0, PA.
    + rewrite <- (Rpower_sqrt (stretch (g i))) by exact PA. unfold Rpower. f_equal. field.
  - split; [exact TA|]. split; [unfold pm'; rewrite place_var by lia; reflexivity|]. intros j J.
    assert (B1 := proj1 (proj2 PR (S j) ltac:(lia))). assert (BB : 0 < factor (g i) (S j) / factor (g i) 0%nat) by (apply Rdiv_lt_0_compat; assumption).
    unfold component. rewrite !(fun r => slot_ext nset ds ds' ng uniform false NL i j r I).
    split; [unfold pm'; rewrite place_line by (try assumption; exact Logic.I); reflexivity|]. intros k K. cbn [area centre width].
    rewrite !(fun r => slot_ext nset ds ds' ng uniform false NL i j r I). unfold pm'. rewrite !place_line by (try assumption; exact K).
    f_equal; [|rewrite exp_plus, exp_ln by exact PA; reflexivity].
    unfold decode. destruct flag; [reflexivity|]. rewrite exp_plus, exp_ln by exact BB. reflexivity.
Qed.
End Counterpart.

Print Assumptions C103_general.
Print Assumptions C103_mixed.
Print Assumptions C103_ratio.
Print Assumptions C103_virtual.
Print Assumptions C103_origin_general.
Print Assumptions C103_origin_mixed.
Print Assumptions C103_origin_ratio.
Print Assumptions C103_origin_virtual.
Print Assumptions C103_degenerate.
Print Assumptions C103_fixing.
Print Assumptions C103_counterpart.

(** ** The ranges of the parameters are not free of units *)
(** The shortest damping time allowed is one unit of time whatever the unit.  Below, the
    same times in days and in hundreds of days, the fit of the continuum at 50 days with
    the same relative error; the damping time of the fit is allowed in days only. *)
Definition in_hundreds : list SpanModel.times := [SpanModel.mktimes [0; 1 / 10; 1 / 2] [[1 / 20; 1 / 4]]].
Definition rescaled (a : R) (sets sets' : list SpanModel.times) : Prop :=
  sets' = map (fun d => SpanModel.mktimes (map (Rmult a) (SpanModel.con_t d)) (map (map (Rmult a)) (SpanModel.line_t d))) sets.
Definition rescaled_limits (a : R) (L : RangeModel.limits) : RangeModel.limits :=
  RangeModel.Limits (a * RangeModel.lag_low L) (a * RangeModel.lag_upp L) (option_map (Rmult a) (RangeModel.width_low L)) (option_map (Rmult a) (RangeModel.width_upp L))
    (RangeModel.negative L) (RangeModel.prior L).
Lemma hundreds_of c : PropSpan.curve_of in_hundreds c -> c = [0; 1 / 10; 1 / 2] \/ c = [1 / 20; 1 / 4].
Proof. intros (d & [<-|[]] & [->|[<-|[]]]); auto. Qed.
Lemma hundreds_data : PropRange.data_ok (-1000) in_hundreds (1 / 2) (1 / 5).
Proof.
  assert (C1 : PropSpan.curve_of in_hundreds [0; 1 / 10; 1 / 2]) by (eexists; split; [left; reflexivity|left; reflexivity]).
  assert (C2 : PropSpan.curve_of in_hundreds [1 / 20; 1 / 4]) by (eexists; split; [left; reflexivity|right; left; reflexivity]).
  split; [|split; [|split; [|split; [|lra]]]].
  - intros c C. destruct (hundreds_of c C) as [->| ->]; repeat constructor; lra.
  - intros c t C I. destruct (hundreds_of c C) as [->| ->]; cbn in I; intuition lra.
  - split.
    + intros c t t' C I I'. destruct (hundreds_of c C) as [->| ->]; cbn in I, I'; intuition lra.
    + exists [0; 1 / 10; 1 / 2], 0, (1 / 2). split; [exact C1|]. cbn. intuition lra.
  - split.
    + intros c w C [_ W]. destruct (hundreds_of c C) as [->| ->]; cbn in W; lra.
    + exists [1 / 20; 1 / 4]. split; [exact C2|]. split; [cbn; lia|]. cbn. lra.
Qed.
Theorem C103_prior_refuted : exists a sets sets' L var std g g' tau,
  0 < a /\ 0 < tau /\ rescaled a sets sets' /\ var 2%nat = ln tau /\
  RangeModel.prior_ranges sets RangeModel.General (-1000) L None (fun _ => (0, 0)) (fun _ => (0, 0)) 1 1 0 false var std (ParamModel.Ranges (fun _ => 0) (fun _ => 0)) = Ok g /\
  RangeModel.prior_ranges sets' RangeModel.General (-1000) (rescaled_limits a L) None (fun _ => (0, 0)) (fun _ => (0, 0)) 1 1 0 false (upd var 2 (ln (a * tau))) std
    (ParamModel.Ranges (fun _ => 0) (fun _ => 0)) = Ok g' /\
  ParamModel.lo g 2%nat < ln tau < ParamModel.hi g 2%nat /\ ln (a * tau) < ParamModel.lo g' 2%nat.
Proof.
  set (L := RangeModel.Limits 0 20 None None false 0). set (var := upd (fun _ => 0) 2 (ln 50)).
  destruct (PropRange.C96_run RangeModel.General (-1000) PropRange.two_curves 50 20 L None (fun _ => (0, 0)) (fun _ => (0, 0)) 1 1 0 false var (fun _ => 1)
    (ParamModel.Ranges (fun _ => 0) (fun _ => 0)) PropRange.two_curves_data) as [[H _] _].
  destruct H as (g & E); [discriminate|].
  destruct (PropRange.C96_run RangeModel.General (-1000) in_hundreds (1 / 2) (1 / 5) (rescaled_limits (1 / 100) L) None (fun _ => (0, 0)) (fun _ => (0, 0)) 1 1 0 false
    (upd var 2 (ln (1 / 100 * 50))) (fun _ => 1) (ParamModel.Ranges (fun _ => 0) (fun _ => 0)) hundreds_data) as [[H' _] _].
  destruct H' as (g' & E'); [discriminate|].
  assert (V := PropRange.C96_variability _ _ _ _ _ _ _ _ _ _ _ _ _ _ _ _ g 0 2 PropRange.two_curves_data E ltac:(cbn; lia) ltac:(lia)).
  assert (V' := PropRange.C96_variability _ _ _ _ _ _ _ _ _ _ _ _ _ _ _ _ g' 0 2 hundreds_data E' ltac:(cbn; lia) ltac:(lia)).
  cbn in V, V'. destruct V as [V1 V2]. destruct V' as [V3 _].
  exists (1 / 100), PropRange.two_curves, in_hundreds, L, var, (fun _ => 1), g, g', 50.
  split; [lra|]. split; [lra|]. split.
  { unfold rescaled, PropRange.two_curves, in_hundreds. cbn. repeat (f_equal; try lra). }
  split; [reflexivity|]. split; [exact E|]. split; [exact E'|].
  assert (X : exp (ln 50) = 50) by (apply exp_ln; lra). assert (P := PI_4). assert (P3 := PI2_3_2). assert (PP := PI2_1).
  assert (LT : exp (ln 50 - 5 * 1) < 50) by (rewrite <- X at 2; apply exp_increasing; lra).
  assert (GT : 50 < exp (ln 50 + 5 * 1)) by (rewrite <- X at 1; apply exp_increasing; lra).
  split; [split|]; apply exp_lt_inv.
  - rewrite V1, X. apply Rmax_lub_lt; lra.
  - rewrite V2, X. apply Rmin_glb_lt; lra.
  - rewrite V3, exp_ln by lra. apply Rlt_le_trans with 1; [lra|apply Rmax_r].
Qed.
Print Assumptions C103_prior_refuted.

(** ** Cases meeting the hypotheses *)
(** a set written down differently *)
Definition rewritten (nq : nat) (g : change) (d : lcset) : lcset :=
  LcSet (s_ncon d) (fun k => stretch g * s_tcon d (order g 0%nat k) + origin g 0%nat) (fun k => factor g 0%nat * s_fe d (order g 0%nat k)) (factor g 0%nat * s_em d)
    (s_nl d) (s_nline d) (fun j k => stretch g * s_tline d j (order g (S j) k) + origin g (S j)) (fun j k => factor g (S j) * s_fel d j (order g (S j) k)) (fun j => factor g (S j) * s_eml d j)
    (fun x => match locate (map (curve_size d) (seq 0 (1 + s_nl d))) x with
       | Some (c, k) => factor g c * (s_fall d (total (curve_size d) c + order g c k)%nat + trend_at nq (added g) c (curve_time d c (order g c k)))
       | None => 0
       end).
Lemma rewritten_same nq g d : same_data nq g d (rewritten nq g d).
Proof.
  split; [reflexivity|]. intros c C. split; [destruct c; reflexivity|]. split; [destruct c; reflexivity|]. intros k K k0.
  split; [destruct c; reflexivity|]. split; [destruct c; reflexivity|].
  cbn [s_fall rewritten]. rewrite EndProofs.locate_total by assumption. reflexivity.
Qed.
(** half days instead of days, every curve with its own origin and flux unit, the points of
    the lines backwards, any trend added *)
Definition half_days (v : nat -> R) : change :=
  Change 2 INR (fun c => 1 + INR c) (fun c k => match c with O => k | S _ => (2 - k)%nat end) v.
(** Julian dates instead of days since some date, the points of the lines backwards *)
Definition julian (v : nat -> R) : change := Change 1 (fun _ => 2450000) (fun _ => 1) (fun c k => match c with O => k | S _ => (2 - k)%nat end) v.
Definition case_lines (fall : nat -> arr) (i : nat) : lcset :=
  LcSet 0 PropEnd.case_t PropEnd.case_e 0 (2 + i) (fun _ => 3%nat) PropEnd.case_tl (fun _ => PropEnd.case_e) (fun _ => 1) (fall i).
Lemma half_proper v d : (forall j, (j < s_nl d)%nat -> s_nline d j = 3%nat) -> proper (half_days v) d /\ proper (julian v) d.
Proof.
  intros N. split; (split; [cbn; lra|]; intros c C; split; [cbn [factor half_days julian]; pose proof (pos_INR c); lra|]; destruct c as [|j]; [split; cbn; auto|];
    unfold curve_size; cbn [narr_of]; rewrite N by lia; split; cbn [order half_days julian]; intros; lia).
Qed.
Lemma case_changed fall v i : changed (case_sets fall) (fun i => rewritten 2 (half_days v) (case_sets fall i)) 2 (fun _ => half_days v) i
  /\ changed (case_sets fall) (fun i => rewritten 2 (julian v) (case_sets fall i)) 2 (fun _ => julian v) i
  /\ changed (case_lines fall) (fun i => rewritten 2 (half_days v) (case_lines fall i)) 2 (fun _ => half_days v) i
  /\ changed (case_lines fall) (fun i => rewritten 2 (julian v) (case_lines fall i)) 2 (fun _ => julian v) i.
Proof.
  split; [|split; [|split]]; (split; [apply (half_proper v); reflexivity|apply rewritten_same]).
Qed.
Lemma case_in_order fall v i : in_order (rewritten 2 (half_days v) (case_sets fall i)) /\ in_order (rewritten 2 (julian v) (case_sets fall i)).
Proof. split; intros m M; cbn in M |- *; assert (m = 0 \/ m = 1 \/ m = 2)%nat as [-> | [-> | ->]] by lia; cbn; lra. Qed.
Lemma rewritten_separate v mem i fall : (i < 2)%nat -> separate (fun i => rewritten 2 (half_days v) (case_sets fall i)) (case_found mem) i
  /\ separate (fun i => rewritten 2 (julian v) (case_sets fall i)) (case_found mem) i
  /\ lines_separate (case_lines fall) (case_found mem) i /\ lines_separate (fun i => rewritten 2 (julian v) (case_lines fall i)) (case_found mem) i.
Proof. intros I. repeat split; left; assert (i = 0 \/ i = 1)%nat as [-> | ->] by lia; cbn; lia. Qed.
(** any parameters, other memory *)
Example C103_general_case fall v mem mem' pm : exists pm' p,
  prob_line_variability4 ref_dsytrf ref_dsytri (fun _ _ _ => false) ref_dtrtri ref_dlauum (fun _ => 0) 1 false 2 (case_sets fall) 2 0 false 2 (fun _ _ => 0%nat) (case_found mem) pm = Some p
  /\ prob_line_variability4 ref_dsytrf ref_dsytri (fun _ _ _ => false) ref_dtrtri ref_dlauum (fun _ => 0) 1 false 2 (fun i => rewritten 2 (half_days v) (case_sets fall i)) 2 0 false 2
       (fun _ _ => 7%nat) (case_found mem') pm' = Some (p - total_cost 2 (case_sets fall) 2 (fun _ => half_days v)).
Proof.
  apply C103_counterpart; [exact lapack_exists|lia| |].
  - intros i I. split; [apply case_separate, I|]. split; [apply rewritten_separate, I|]. split; [apply case_in_order|apply case_changed].
  - intros i I. split; [apply case_set_ok, I|exact Logic.I].
Qed.
Example C103_origin_case fall v mem mem' pm uv : exists p,
  prob_line_variability4 ref_dsytrf ref_dsytri (fun _ _ _ => false) ref_dtrtri ref_dlauum (fun _ => 0) 1 false 2 (case_sets fall) 2 0 uv 2 (fun _ _ => 0%nat) (case_found mem) pm = Some p
  /\ prob_line_variability4 ref_dsytrf ref_dsytri (fun _ _ _ => false) ref_dtrtri ref_dlauum (fun _ => 0) 1 false 2 (fun i => rewritten 2 (julian v) (case_sets fall i)) 2 0 uv 2
       (fun _ _ => 7%nat) (case_found mem') pm = Some p.
Proof.
  apply C103_origin_general with (g := fun _ => julian v); [exact lapack_exists|].
  intros i I. split; [apply case_set_ok, I|]. split; [exact Logic.I|]. split; [apply case_separate, I|]. split; [apply rewritten_separate, I|]. split; [apply case_in_order|].
  split; [apply case_changed|]. repeat split.
Qed.
(** a top-hat and an exponential of width taud, all parameters 0 *)
Example C103_mixed_case log_erfc erfc fall v mem mem' : log_erfc_correct log_erfc -> erfc_correct erfc -> exists p,
  prob_line_variability_mmap ref_dsytrf ref_dsytri (fun _ _ _ => false) ref_dtrtri ref_dlauum log_erfc erfc ty13 2 (case_sets fall) 2 0 false 2 (fun _ _ => 0%nat) (case_found mem) (fun _ => 0) = Some p
  /\ prob_line_variability_mmap ref_dsytrf ref_dsytri (fun _ _ _ => false) ref_dtrtri ref_dlauum log_erfc erfc ty13 2 (fun i => rewritten 2 (julian v) (case_sets fall i)) 2 0 false 2
       (fun _ _ => 7%nat) (case_found mem') (fun _ => 0) = Some p.
Proof.
  intros HL HE. apply C103_origin_mixed with (g := fun _ => julian v); [exact lapack_exists|exact HL|exact HE|exact digits13|].
  intros i I. split; [apply case_set_ok, I|]. split; [intros j _ k _ _; left; reflexivity|]. split; [apply case_separate, I|]. split; [apply rewritten_separate, I|].
  split; [apply case_in_order|]. split; [apply case_changed|]. repeat split.
Qed.
Example C103_ratio_case fall v mem mem' pm M : (forall a, (a < 41)%nat -> M (0 + a)%nat = pm a) -> exists p,
  prob_line_variability4_pmap ref_dsytrf ref_dsytri (fun _ _ _ => false) ref_dtrtri ref_dlauum (fun _ => 0) 1 false 2 (case_sets fall) 2 0 false 2 (fun _ _ => 0%nat) (case_found mem) 0 41 M = Ok (Some p)
  /\ prob_line_variability4_pmap ref_dsytrf ref_dsytri (fun _ _ _ => false) ref_dtrtri ref_dlauum (fun _ => 0) 1 false 2 (fun i => rewritten 2 (julian v) (case_sets fall i)) 2 0 false 2
       (fun _ _ => 7%nat) (case_found mem') 0 50 M = Ok (Some p).
Proof.
  intros HM. apply C103_origin_ratio with (g := fun _ => julian v) (pm := pm); [exact lapack_exists|lia|left; cbn; lia|left; cbn; lia|exact HM|exact HM|].
  intros i I. split; [apply case_set_ok, I|]. split; [exact Logic.I|]. split; [apply case_separate, I|]. split; [apply rewritten_separate, I|]. split; [apply case_in_order|].
  split; [apply case_changed|]. repeat split.
Qed.
Lemma case_lines_ok fall pm uv i : (i < 2)%nat -> lines_only_ok 2 (case_lines fall) 2 0 uv 2 pm i.
Proof.
  intros I. split; [lia|]. split; [cbn; lia|]. split.
  - intros j m J M. cbn [set_error2 case_lines s_fel s_eml]. unfold PropEnd.case_e. apply err_case.
  - intros j J. destruct (lines_case j) as [H|H]; [exact H|]. cbn in J. lia.
Qed.
Example C103_virtual_case fall v mem mem' pm uv : exists p,
  prob_line_variability4_vmap ref_dsytrf ref_dsytri (fun _ _ _ => false) (fun _ => 0) 1 false 2 (case_lines fall) 2 0 uv 2 (fun _ _ => 0%nat) (case_found mem) pm = Some p
  /\ prob_line_variability4_vmap ref_dsytrf ref_dsytri (fun _ _ _ => false) (fun _ => 0) 1 false 2 (fun i => rewritten 2 (julian v) (case_lines fall i)) 2 0 uv 2 (fun _ _ => 7%nat) (case_found mem') pm = Some p.
Proof.
  destruct lapack_exists as (LP & LC & _). apply C103_origin_virtual with (g := fun _ => julian v); [exact LP|exact LC|].
  intros i I. split; [apply case_lines_ok, I|]. split; [exact Logic.I|]. split; [apply (rewritten_separate v), I|]. split; [apply rewritten_separate, I|]. split; [reflexivity|].
  split; [apply case_changed|]. repeat split.
Qed.
Example C103_fixing_case fall mem mem' pm : exists pm' p,
  prob_line_variability4_vmap ref_dsytrf ref_dsytri (fun _ _ _ => false) (fun _ => 0) 1 false 2 (case_lines fall) 2 0 false 2 (fun _ _ => 0%nat) (case_found mem) pm = Some p
  /\ prob_line_variability4_vmap ref_dsytrf ref_dsytri (fun _ _ _ => false) (fun _ => 0) 1 false 2 (case_lines fall) 2 0 false 2 (fun _ _ => 7%nat) (case_found mem') pm' = Some p
  /\ forall i, (i < 2)%nat -> pm' (var_slot false i 1) = ln (1 / 10) /\ pm' (line_slot 2 (case_lines fall) 2 0 false i 0 (ParamSpec.Centre 0)) = 0.
Proof.
  destruct lapack_exists as (LP & LC & _). apply C103_fixing; [exact LP|exact LC|lia|lia|].
  intros i I. split; [apply case_lines_ok, I|]. split; [exact Logic.I|]. split; [apply (rewritten_separate (fun _ => 0)), I|]. split; [apply (rewritten_separate (fun _ => 0)), I|]. split; reflexivity.
Qed.
