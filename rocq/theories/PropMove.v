(** C107: the reconstructed light curves under another origin of time, order of points,
    units, added trends and contents of the work arrays; they do not depend on which other
    times are asked for.  Real arithmetic, no rounding. *)
From Coq Require Import Reals List Arith Lia Lra FunctionalExtensionality.
From Coquelicot Require Import Coquelicot.
From Verif Require Import CPrelude SemisepModel SemisepProofs SemisepProofs2 MatBridge MatBridge2 SemisepProofs3 PartProofs PartProofs2 KernelCalc KernelSpec KernelModel KernelGauss2 PartModel
  CovModel LikeModel PredModel PropPart PropSemisep GlsAlgebra LikeProofs PropLike PredProofs PropPred.
From Verif Require Import PropCov MixSpec PropKernel MixModel PropMix PsdCore PsdKernel PropPsd EndModel VmapModel SetsModel UnitMat UnitProofs PropSets.
From Verif Require Import RecModel OutModel MoveProofs.
From Verif Require EndProofs PropEnd PropOut PropUnit.
Import PropUnit(change, Change, stretch, origin, factor, order, added, permutes, proper, same_data, in_order, same_parameters).
Import ListNotations.
Open Scope R_scope.

(** ** What the statements are about *)
(** [change], [same_data] and [same_parameters] are those of C103.  Two reconstructions o
    and o', of the old data at the times tall (n for each of the nc curves) and of the new
    data at the times tall' (n' for each curve): where a new time is an old one written in
    the new way, value and error are the old ones in the new unit, the value with the added
    trend; the fitted trends likewise, at any time. *)
Definition moved (nq : nat) (g : change) (nc n n' : nat) (tall tall' : arr) (o o' : rec_out) : Prop :=
  (forall c t, (c < nc)%nat -> trend_at nq (rec_yq o') c (stretch g * t + origin g c) = factor g c * (trend_at nq (rec_yq o) c t + trend_at nq (added g) c t)) /\
  forall c k k', (c < nc)%nat -> (k < n)%nat -> (k' < n')%nat -> let t := tall (c * n + k)%nat in tall' (c * n' + k')%nat = stretch g * t + origin g c ->
    rec_f o' (c * n' + k')%nat = factor g c * (rec_f o (c * n + k)%nat + trend_at nq (added g) c t) /\ rec_fe o' (c * n' + k')%nat = factor g c * rec_fe o (c * n + k)%nat.

(** ** Links to the proofs *)
Section Set_.
Variables (nset : nat) (ds ds' : nat -> lcset) (ng uniform : nat) (uniform_var : bool) (nq : nat) (pm pm' : arr) (g : nat -> change) (cs cs' : nat -> nat -> nat -> comp).
Hypothesis SD : forall i, (i < nset)%nat -> same_data nq (g i) (ds i) (ds' i).
Variable i : nat.
Hypothesis I : (i < nset)%nat.
Hypothesis PR : proper (g i) (ds i).
Hypothesis SP : same_parameters nset ng uniform uniform_var (g i) ds ds' pm pm' cs cs' i.
Notation nl := (s_nl (ds i)).
Notation size := (PropUnit.curve_size (ds i)).
Notation a := (stretch (g i)).
Notation b := (factor (g i)).
Notation o := (origin (g i)).
Notation ord := (order (g i)).
Notation ts := (PropUnit.curve_time (ds i)).
Notation ts' := (PropUnit.curve_time (ds' i)).
Notation SZ := (map size (seq 0 (1 + nl))).
Notation N := (total size (1 + nl)).
Notation M := (nq * (1 + nl))%nat.
Notation prow := (row (1 + nl) size ord).
Notation pfac := (fac (1 + nl) size b).
Notation taud := (set_taud uniform_var pm).
Notation err2 := (set_error2 nset ds ng uniform uniform_var pm).
Variables psi psi' : nat -> nat -> R -> R.
Hypothesis ST : forall j, (j < nl)%nat -> stretched a (rel b (S j)) (o (S j) - o 0%nat) (psi i j) (psi' i j).
Hypothesis SH : forall j, (j < nl)%nat -> of_shapes (psi i j).
Hypothesis SG : set_sigma uniform_var pm' i = b 0%nat * set_sigma uniform_var pm i.
Hypothesis OK : set_ok nset ds ng uniform uniform_var nq pm i.
Variables SS Si L : nat -> nat -> R.
Hypothesis D : set_described nset ds ng uniform uniform_var nq pm psi i SS Si L.
Notation U := (newU nq a o b).
Notation nSS := (UnitProofs.SS' prow pfac SS).
Notation nSi := (UnitProofs.Si' prow pfac Si).
Notation nL := (UnitProofs.L' M prow pfac L U).
Local Notation Ho1 := (PropUnit.Ho1 ds g i PR).
Local Notation Ho2 := (PropUnit.Ho2 ds g i PR).
Local Notation Hb := (PropUnit.Hb ds g i PR).
Local Notation Ha := (PropUnit.Ha ds g i PR).
Local Notation Ht := (PropUnit.Ht nset ds ds' nq g SD i I).
Local Notation He := (PropUnit.He nset ds ds' ng uniform uniform_var nq pm pm' g cs cs' SD i I SP).
Lemma data_spd : spd N SS.
Proof.
  destruct D as (D0 & IV & TD). destruct OK as (NQ & NL & NC & _ & E & ET).
  destruct (PropUnit.sizes_eq nset ds ds' nq g SD i I) as [Z1 Z2]. rewrite Z2 in D0.
  assert (NN : list_sum SZ = N) by apply EndProofs.total_seq. rewrite <- NN.
  destruct (C68_data_positive_definite (psi i) (taud i) (set_sigma uniform_var pm i) SZ (set_time ds i) (err2 i) SS) as [SY PD]; auto.
  - apply exp_pos.
  - unfold set_sigma. apply Rmult_lt_0_compat; [apply exp_pos|apply sqrt_lt_R0, exp_pos].
  - intros j. rewrite map_length, seq_length. intros J. apply SH. lia.
  - intros c m. rewrite map_length, seq_length. intros C Q. apply E; [exact C|]. rewrite nth_indep with (d' := size 0%nat) in Q by (rewrite map_length, seq_length; exact C).
    rewrite map_nth, seq_nth in Q by exact C. exact Q.
  - apply spd_of; assumption.
Qed.
Lemma described_change : set_described nset ds' ng uniform uniform_var nq pm' psi' i nSS nSi nL.
Proof.
  pose proof data_spd as PD. destruct D as (D0 & IV & TD). destruct OK as (NQ & NL & NC & _ & E & ET).
  unfold set_described. rewrite (PropUnit.nl_eq nset ds ds' nq g SD i I). destruct (PropUnit.points_eq nset ds ds' nq g SD i I) as [P1 P2]. rewrite P1.
  rewrite P2 in IV. destruct (PropUnit.sizes_eq nset ds ds' nq g SD i I) as [Z1 Z2]. rewrite Z1. rewrite Z2 in D0.
  assert (T0 : 0 < taud i) by apply exp_pos.
  split; [|split].
  - rewrite (proj1 SP), SG. revert D0. apply (cov_change (1 + nl) size ord b Ho1 Ho2 Hb a nl o); auto using Ha, He.
    intros [|c] k C K; exact (Ht _ k C K).
  - apply inverse_change; auto; [exact (row_lt _ size ord Ho1)|exact (row_inj _ size ord Ho1 Ho2)|exact (fac_pos _ size b Hb)].
  - assert (Q : trend_design nq (1 + nl) size ts' nL) by (apply (design_change (1 + nl) size ord b Ho1 Hb nq a o ts ts' L NQ Ha Ht TD)).
    intros c k v C K. change (set_curves ds' i) with (PropUnit.curve_size (ds' i)) in *. rewrite (PropUnit.size_eq nset ds ds' nq g SD i I) in K by exact C.
    rewrite (PropUnit.total_eq nset ds ds' nq g SD i I) by lia. apply Q; assumption.
Qed.
Lemma trend_onto z : exists w, forall l, (l < M)%nat -> sumn M (fun k => U l k * w k) = z l.
Proof.
  destruct OK as (NQ & _). destruct (newU_det nq (1 + nl) a o b NQ Ha Hb) as [DU _]. destruct (proj1 (det_inv M U) ltac:(lra)) as [h H].
  exists (mv M h z). intros l LL. exact (mv_id M U h z l H LL).
Qed.
Lemma fall_change r : (r < N)%nat -> s_fall (ds' i) r = pfac r * (s_fall (ds i) (prow r) + sumn M (fun l => L (prow r) l * added (g i) l)).
Proof.
  intros R. destruct D as (_ & _ & TD). destruct (rows_at (1 + nl) size r R) as (c & k & C & K & ->). rewrite fac_at, row_at by assumption.
  rewrite (PropUnit.Hy nset ds ds' nq g SD i I) by assumption. f_equal. f_equal. symmetry. apply TD; [exact C|apply Ho1; assumption].
Qed.
Notation pred ds pm psi SS L := (PropOut.prediction ds uniform_var nq psi pm i SS L).
Lemma point_moved c t v e v' e' : (c < 1 + nl)%nat -> pred ds pm psi SS L c t v e -> pred ds' pm' psi' nSS nL c (a * t + o c) v' e' ->
  v' = b c * (v + trend_at nq (added (g i)) c t) /\ e' = b c * e.
Proof.
  intros C (u & V & HU & HV & B) (u' & V' & HU' & HV' & B').
  destruct (PropUnit.points_eq nset ds ds' nq g SD i I) as [P1 P2]. destruct (PropUnit.sizes_eq nset ds ds' nq g SD i I) as [Z1 Z2].
  rewrite (PropUnit.nl_eq nset ds ds' nq g SD i I), P1 in B'. rewrite P2 in B. rewrite Z1, SG, (proj1 SP) in HU'. rewrite SG, (proj1 SP) in HV'. rewrite Z2 in HU.
  assert (T0 : 0 < taud i) by apply exp_pos.
  pose proof (target_change nl size ord b Ho1 Hb a o (psi i) (psi' i) (taud i) (set_sigma uniform_var pm i) (set_time ds i) (set_time ds' i) c t u Ha T0 C ST
    ltac:(intros [|c0] k C0 K; exact (Ht _ k C0 K)) HU) as TU.
  pose proof (variance_change nl b Hb a o (psi i) (psi' i) (taud i) (set_sigma uniform_var pm i) c t V Ha T0 C ST HV) as TV.
  pose proof (best_change N M prow pfac SS L U (s_fall (ds i)) (added (g i)) (s_fall (ds' i)) (row_lt _ size ord Ho1) (row_inj _ size ord Ho1 Ho2) (fac_pos _ size b Hb) trend_onto fall_change
    (b c) V u (fun x => b c * pfac x * u (prow x)) (b c * b c * V) (fun w => trend_at nq w c t) (fun w => trend_at nq w c (a * t + o c)) (Hb c C) (fun _ _ => eq_refl) eq_refl) as BC.
  assert (NQ : (1 <= nq)%nat) by apply OK.
  specialize (BC ltac:(intros w; symmetry; apply (trend_change nq (1 + nl) a o b NQ Hb w c t C))).
  specialize (BC ltac:(intros z z' Z; unfold trend_at; apply sumn_ext; intros q Q; rewrite Z by nia; reflexivity) v e B).
  assert (NN : list_sum SZ = N) by apply EndProofs.total_seq.
  apply (best_unique N M nSS nL (fun x => b c * pfac x * u (prow x)) u' (b c * b c * V) V' (fun w => trend_at nq w c (a * t + o c)) (fun w => trend_at nq w c (a * t + o c)) (s_fall (ds' i))); auto.
  - intros x X. rewrite <- NN in X. exact (target_unique (psi' i) c _ _ _ _ _ _ _ HU' TU x X).
  - exact (variance_unique _ _ _ _ _ _ HV' TV).
Qed.
Lemma trend_moved q q' c t : (c < 1 + nl)%nat -> least_squares (set_points ds i) M Si L (s_fall (ds i)) q -> least_squares (set_points ds' i) (nq * (1 + s_nl (ds' i))) nSi nL (s_fall (ds' i)) q' ->
  trend_at nq q' c (a * t + o c) = b c * (trend_at nq q c t + trend_at nq (added (g i)) c t).
Proof.
  intros C. destruct (PropUnit.points_eq nset ds ds' nq g SD i I) as [P1 P2]. rewrite P1, P2, (PropUnit.nl_eq nset ds ds' nq g SD i I). intros H H'.
  pose proof data_spd as PD. destruct D as (_ & IV & TD). rewrite P2 in IV. destruct OK as (NQ & NL & NC & _ & E & ET).
  assert (HI : inv_of N SS Si) by (intros x y X Y; destruct (IV x y X Y); auto).
  pose proof (ls_change N M prow pfac L U (s_fall (ds i)) (added (g i)) (s_fall (ds' i)) (row_lt _ size ord Ho1) (row_inj _ size ord Ho1 Ho2) (fac_pos _ size b Hb) trend_onto fall_change
    Si q q' (spd_inv _ _ _ PD HI)) as LC.
  rewrite <- (trend_change nq (1 + nl) a o b NQ Hb q' c t C). f_equal. unfold trend_at. rewrite <- sumn_plus. apply sumn_ext. intros j J.
  rewrite LC; [ring| |exact H|exact H'|nia].
  intros z Z. rewrite total_psum in Z. apply (design_inj nq (1 + nl) size (times_of (s_tcon (ds i)) (s_tline (ds i))) L); [|exact ET|exact Z].
  intros c0 k j0. rewrite <- total_psum. apply design_entry; auto.
Qed.
End Set_.

(** ** The statements *)
Section Modes.
Context {IP : Type}.
Variable dsytrf : nat -> (nat -> nat -> R) -> (nat -> nat -> R) * IP.
Variable dsytri : nat -> (nat -> nat -> R) -> IP -> nat -> nat -> R.
Variables dtrtri dlauum : nat -> arr -> arr.
Variables log_erfc erfc : R -> R.
Variable type_tf : nat.
Variable flag : bool.
Variable ty : nat -> nat.
Variable nset : nat.
Variables ng uniform : nat.
Variable uniform_var : bool.
Variable nq : nat.
Notation taud := (set_taud uniform_var).
Notation ok ds pm := (set_ok nset ds ng uniform uniform_var nq pm).
Notation comps ds pm := (component nset ds ng uniform uniform_var pm).
Notation good ds pm := (set_good ds ng uniform_var pm log_erfc type_tf (comps ds pm (decode flag))).
Notation exact ds pm i := (forall j, (j < s_nl (ds i))%nat -> clear_scales' (taud pm i) ng ty (comps ds pm exp i j)).
Notation described ds pm psi := (set_described nset ds ng uniform uniform_var nq pm psi).
Definition library_ok : Prop := dsytr_spec dsytrf dsytri /\ dtrtri_spec dtrtri /\ dlauum_spec dlauum.
(** one call for set i: nd times for every curve, the times in tall *)
Notation call ds nd junk fd rd := (rec_one dsytrf dsytri dtrtri dlauum log_erfc type_tf flag nset ds ng uniform uniform_var nq nd junk fd rd).
Notation call_mmap ds nd junk fd rd := (rec_one_mmap dsytrf dsytri dtrtri dlauum log_erfc erfc ty nset ds ng uniform uniform_var nq nd junk fd rd).
Definition predicted (ds : nat -> lcset) (nd : nat) (pm : arr) (psi : nat -> nat -> R -> R) (i : nat) (SS Si L : nat -> nat -> R) (tall : arr) (o : rec_out) : Prop :=
  least_squares (set_points ds i) (nq * (1 + s_nl (ds i))) Si L (s_fall (ds i)) (rec_yq o) /\
  forall c k, (c < 1 + s_nl (ds i))%nat -> (k < points ds nd i)%nat ->
    PropOut.prediction ds uniform_var nq psi pm i SS L c (tall (c * points ds nd i + k)%nat) (rec_f o (c * points ds nd i + k)%nat) (rec_fe o (c * points ds nd i + k)%nat).
Notation psi_g ds pm := (fun i j => response (PropCov.shape_of type_tf) ng (comps ds pm (decode flag) i j)).
Notation psi_m ds pm := (fun i j => mixed_response ng ty (comps ds pm exp i j)).
Lemma general_call ds nd junk fd rd row tall pm i SS Si L : library_ok -> (i < nset)%nat -> ok ds pm i -> good ds pm i -> separate ds (fd row) i -> described ds pm (psi_g ds pm) i SS Si L ->
  predicted ds nd pm (psi_g ds pm) i SS Si L tall (call ds nd junk fd rd row tall pm i).
Proof.
  intros (LS & LT & LL) I OK G AP D.
  destruct (general_K log_erfc type_tf nset ds ng uniform uniform_var junk pm flag (comps ds pm (decode flag)) pm i I (same_self nset ds ng uniform uniform_var pm i) (fun _ _ _ _ => eq_refl) G) as [EK SH].
  destruct (PropOut.row_rec dsytrf dsytri dtrtri dlauum nset ds ng uniform uniform_var nq nd junk pm i I (psi_g ds pm) pm (same_self nset ds ng uniform uniform_var pm i) _ EK SH OK (fd row i) (rd row i) tall _ _ _ _ LS LT LL AP D
    (EndProofs.scalar_filled (s_ncon (ds i)) (s_tcon (ds i)) (s_fe (ds i)) (s_em (ds i)) (s_nl (ds i)) (s_nline (ds i)) (s_tline (ds i)) (s_fel (ds i)) (s_eml (ds i)) pm _ _ (psi_g ds pm i) _
      (EK' nset ds ng uniform uniform_var pm i I (psi_g ds pm) pm (same_self nset ds ng uniform uniform_var pm i) _ EK) (f_PS (fd row i)) (f_mem (fd row i)) (f_A (fd row i)))) as [R1 R2].
  split; [exact R1|exact R2].
Qed.
Lemma mixed_call ds nd junk fd rd row tall pm i SS Si L : library_ok -> log_erfc_correct log_erfc -> erfc_correct erfc -> digits ng ty ->
  (i < nset)%nat -> ok ds pm i -> exact ds pm i -> separate ds (fd row) i -> described ds pm (psi_m ds pm) i SS Si L ->
  predicted ds nd pm (psi_m ds pm) i SS Si L tall (call_mmap ds nd junk fd rd row tall pm i).
Proof.
  intros (LS & LT & LL) HLE HE DG I OK G AP D.
  destruct (mixed_K log_erfc erfc ty nset ds ng uniform uniform_var junk pm i I HLE HE DG G (f_blc (fd row i)) (f_bll (fd row i))) as [EK SH].
  destruct (PropOut.row_rec dsytrf dsytri dtrtri dlauum nset ds ng uniform uniform_var nq nd junk pm i I (psi_m ds pm) pm (same_self nset ds ng uniform uniform_var pm i) _ EK SH OK (fd row i) (rd row i) tall _ _ _ _ LS LT LL AP D
    (EndProofs.array_filled (s_ncon (ds i)) (s_tcon (ds i)) (s_fe (ds i)) (s_em (ds i)) (s_nl (ds i)) (s_nline (ds i)) (s_tline (ds i)) (s_fel (ds i)) (s_eml (ds i)) pm _ _ (psi_m ds pm i) _
      (EK' nset ds ng uniform uniform_var pm i I (psi_m ds pm) pm (same_self nset ds ng uniform uniform_var pm i) _ EK) (f_lc (fd row i)) (f_ll (fd row i)) (f_PS (fd row i)) (f_mem (fd row i)) (f_A (fd row i)))) as [R1 R2].
  split; [exact R1|exact R2].
Qed.
Lemma width_pos amp ds pm i j k : 0 < width (comps ds pm amp i j k).
Proof. apply exp_pos. Qed.

Variables ds ds' : nat -> lcset.
Variables nd nd' : nat.
Variables junk junk' : nat -> nat -> nat.
Variables fd fd' : list R -> nat -> found.
Variables rd rd' : list R -> nat -> rec_found.
Variables row row' : list R.
Variables tall tall' : arr.
Notation pts := (points ds nd).
Notation pts' := (points ds' nd').
(** data of all sets written down differently; set i is in order before and after, and so
    are the parameters *)
Definition rewritten_set (g : nat -> change) (pm pm' : arr) (amp : R -> R) (i : nat) : Prop :=
  (i < nset)%nat /\ (forall k, (k < nset)%nat -> same_data nq (g k) (ds k) (ds' k)) /\ proper (g i) (ds i) /\ ok ds pm i /\ in_order (ds' i)
  /\ separate ds (fd row) i /\ separate ds' (fd' row') i
  /\ set_sigma uniform_var pm' i = factor (g i) 0%nat * set_sigma uniform_var pm i /\ same_parameters nset ng uniform uniform_var (g i) ds ds' pm pm' (comps ds pm amp) (comps ds' pm' amp) i.
Lemma calls_moved g pm pm' amp psi psi' i SS Si L o o' : rewritten_set g pm pm' amp i ->
  (forall j, (j < s_nl (ds i))%nat -> stretched (stretch (g i)) (rel (factor (g i)) (S j)) (origin (g i) (S j) - origin (g i) 0%nat) (psi i j) (psi' i j)) ->
  (forall j, (j < s_nl (ds i))%nat -> of_shapes (psi i j)) -> described ds pm psi i SS Si L -> predicted ds nd pm psi i SS Si L tall o ->
  (forall SS' Si' L', described ds' pm' psi' i SS' Si' L' -> predicted ds' nd' pm' psi' i SS' Si' L' tall' o') ->
  moved nq (g i) (1 + s_nl (ds i)) (pts i) (pts' i) tall tall' o o'.
Proof.
  intros (I & SD & PR & OK & IO & _ & _ & SG & SP) ST SH D [P1 P2] H'.
  pose proof (described_change nset ds ds' ng uniform uniform_var nq pm pm' g (comps ds pm amp) (comps ds' pm' amp) SD i I PR SP psi psi' ST SH SG OK SS Si L D) as D'.
  destruct (H' _ _ _ D') as [P1' P2']. split.
  - intros c t C. exact (trend_moved nset ds ds' ng uniform uniform_var nq pm g SD i I PR psi SH OK SS Si L D (rec_yq o) (rec_yq o') c t C P1 P1').
  - intros c k k' C K K' t E. specialize (P2 c k C K). assert (NL : s_nl (ds' i) = s_nl (ds i)) by (apply (SD i I)).
    specialize (P2' c k' ltac:(rewrite NL; exact C) K'). rewrite E in P2'.
    exact (point_moved nset ds ds' ng uniform uniform_var nq pm pm' g (comps ds pm amp) (comps ds' pm' amp) SD i I PR SP psi psi' ST SG OK SS Si L D c t _ _ _ _ C P2 P2').
Qed.
Theorem C107_general g pm pm' i : library_ok -> rewritten_set g pm pm' (decode flag) i -> good ds pm i ->
  moved nq (g i) (1 + s_nl (ds i)) (pts i) (pts' i) tall tall' (call ds nd junk fd rd row tall pm i) (call ds' nd' junk' fd' rd' row' tall' pm' i).
Proof.
  intros LB RW G. pose proof RW as (I & SD & PR & OK & IO & SE & SE' & SG & SP).
  destruct (C74_described log_erfc type_tf flag nset ds ng uniform uniform_var nq junk pm i I OK G) as (SS & Si & L & D).
  apply (calls_moved g pm pm' (decode flag) (psi_g ds pm) (psi_g ds' pm') i SS Si L); auto.
  - intros j J. apply response_stretch; [apply PR|intros; apply width_pos|]. intros k K. apply SP; assumption.
  - intros j J. exact (proj2 (general_K log_erfc type_tf nset ds ng uniform uniform_var junk pm flag (comps ds pm (decode flag)) pm i I (same_self _ _ _ _ _ _ i) (fun _ _ _ _ => eq_refl) G) j J).
  - apply general_call; assumption.
  - intros SS' Si' L' D'. apply general_call; auto.
    + exact (PropUnit.ok_change nset ds ds' ng uniform uniform_var nq pm pm' g _ _ SD i I PR SP OK IO).
    + exact (PropUnit.good_change log_erfc type_tf nset ds ds' ng uniform uniform_var nq g pm pm' _ _ i (conj PR (SD i I)) SP G).
Qed.
Theorem C107_mixed g pm pm' i : library_ok -> log_erfc_correct log_erfc -> erfc_correct erfc -> digits ng ty -> rewritten_set g pm pm' exp i -> exact ds pm i -> exact ds' pm' i ->
  moved nq (g i) (1 + s_nl (ds i)) (pts i) (pts' i) tall tall' (call_mmap ds nd junk fd rd row tall pm i) (call_mmap ds' nd' junk' fd' rd' row' tall' pm' i).
Proof.
  intros LB HL HE DG RW G G'. pose proof RW as (I & SD & PR & OK & IO & SE & SE' & SG & SP).
  destruct (C74_mixed_described log_erfc erfc ty nset ds ng uniform uniform_var nq junk pm i I OK HL HE DG G) as (SS & Si & L & D).
  apply (calls_moved g pm pm' exp (psi_m ds pm) (psi_m ds' pm') i SS Si L); auto.
  - intros j J. apply mixed_stretch; [apply PR|intros; apply width_pos|]. intros k K. apply SP; assumption.
  - intros j J. exact (proj2 (mixed_K log_erfc erfc ty nset ds ng uniform uniform_var junk pm i I HL HE DG G (f_blc (fd row i)) (f_bll (fd row i))) j J).
  - apply mixed_call; assumption.
  - intros SS' Si' L' D'. apply mixed_call; auto.
    exact (PropUnit.ok_change nset ds ds' ng uniform uniform_var nq pm pm' g _ _ SD i I PR SP OK IO).
Qed.
End Modes.

(** *** One curve, whatever else is asked for *)
Definition kept : change := Change 1 (fun _ => 0) (fun _ => 1) (fun _ k => k) (fun _ => 0).
Lemma kept_trend nq c t : trend_at nq (added kept) c t = 0.
Proof. unfold trend_at. cbn [added kept]. rewrite (sumn_ext nq _ (fun _ => 0)) by (intros; ring). apply sumn_zero. Qed.
Lemma kept_same nq d : same_data nq kept d d.
Proof.
  split; [reflexivity|]. intros c C. split; [reflexivity|]. split; [cbn [factor kept]; ring|]. intros k K. cbn zeta. rewrite kept_trend. cbn [stretch origin factor order kept].
  split; [ring|]. split; ring.
Qed.
Lemma kept_proper d : proper kept d.
Proof. split; [cbn; lra|]. intros c C. split; [cbn; lra|]. split; cbn; auto. Qed.
(** value and error at a time, and the fitted trends, do not depend on the other times *)
Definition same_curves (nq nc n n' : nat) (tall tall' : arr) (o o' : rec_out) : Prop :=
  (forall c t, (c < nc)%nat -> trend_at nq (rec_yq o') c t = trend_at nq (rec_yq o) c t) /\
  forall c k k', (c < nc)%nat -> (k < n)%nat -> (k' < n')%nat -> tall' (c * n' + k')%nat = tall (c * n + k)%nat ->
    rec_f o' (c * n' + k')%nat = rec_f o (c * n + k)%nat /\ rec_fe o' (c * n' + k')%nat = rec_fe o (c * n + k)%nat.
Lemma kept_curves nq nc n n' tall tall' o o' : moved nq kept nc n n' tall tall' o o' -> same_curves nq nc n n' tall tall' o o'.
Proof.
  intros [H1 H2]. split.
  - intros c t C. specialize (H1 c t C). rewrite kept_trend in H1. cbn [stretch origin factor kept] in H1. replace (1 * t + 0) with t in H1 by ring. rewrite H1. ring.
  - intros c k k' C K K' E. destruct (H2 c k k' C K K') as [E1 E2]; [cbn [stretch origin kept]; rewrite E; ring|]. rewrite E1, E2, kept_trend. cbn [factor kept]. split; ring.
Qed.
Section Kept.
Context {IP : Type}.
Variable dsytrf : nat -> (nat -> nat -> R) -> (nat -> nat -> R) * IP.
Variable dsytri : nat -> (nat -> nat -> R) -> IP -> nat -> nat -> R.
Variables dtrtri dlauum : nat -> arr -> arr.
Variables log_erfc erfc : R -> R.
Variable type_tf : nat.
Variable flag : bool.
Variable ty : nat -> nat.
Variable nset : nat.
Variable ds : nat -> lcset.
Variables ng uniform : nat.
Variable uniform_var : bool.
Variable nq : nat.
Variables nd nd' : nat.
Variables junk junk' : nat -> nat -> nat.
Variables fd fd' : list R -> nat -> found.
Variables rd rd' : list R -> nat -> rec_found.
Variables row row' : list R.
Variables tall tall' : arr.
Variable pm : arr.
Variable i : nat.
Notation comps amp := (component nset ds ng uniform uniform_var pm amp).
Lemma kept_set amp : (i < nset)%nat -> set_ok nset ds ng uniform uniform_var nq pm i -> separate ds (fd row) i -> separate ds (fd' row') i ->
  rewritten_set nset ng uniform uniform_var nq ds ds fd fd' row row' (fun _ => kept) pm pm amp i.
Proof.
  intros I OK S1 S2. split; [exact I|]. split; [intros; apply kept_same|]. split; [apply kept_proper|]. split; [exact OK|].
  split; [intros m M; apply OK, M|]. split; [exact S1|]. split; [exact S2|]. split; [cbn [factor kept]; ring|].
  apply (PropUnit.same_unmoved nset ds ds ng uniform uniform_var (fun _ => kept)); auto. repeat split.
Qed.
Theorem C107_one_curve : library_ok dsytrf dsytri dtrtri dlauum -> (i < nset)%nat -> set_ok nset ds ng uniform uniform_var nq pm i ->
  set_good ds ng uniform_var pm log_erfc type_tf (comps (decode flag)) i -> separate ds (fd row) i -> separate ds (fd' row') i ->
  same_curves nq (1 + s_nl (ds i)) (points ds nd i) (points ds nd' i) tall tall'
    (rec_one dsytrf dsytri dtrtri dlauum log_erfc type_tf flag nset ds ng uniform uniform_var nq nd junk fd rd row tall pm i)
    (rec_one dsytrf dsytri dtrtri dlauum log_erfc type_tf flag nset ds ng uniform uniform_var nq nd' junk' fd' rd' row' tall' pm i).
Proof.
  intros LB I OK G S1 S2. apply kept_curves. apply (C107_general dsytrf dsytri dtrtri dlauum log_erfc type_tf flag nset ng uniform uniform_var nq ds ds nd nd' junk junk' fd fd' rd rd' row row' tall tall' (fun _ => kept)); auto.
  apply kept_set; auto.
Qed.
Theorem C107_one_curve_mixed : library_ok dsytrf dsytri dtrtri dlauum -> log_erfc_correct log_erfc -> erfc_correct erfc -> digits ng ty -> (i < nset)%nat -> set_ok nset ds ng uniform uniform_var nq pm i ->
  (forall j, (j < s_nl (ds i))%nat -> clear_scales' (set_taud uniform_var pm i) ng ty (comps exp i j)) -> separate ds (fd row) i -> separate ds (fd' row') i ->
  same_curves nq (1 + s_nl (ds i)) (points ds nd i) (points ds nd' i) tall tall'
    (rec_one_mmap dsytrf dsytri dtrtri dlauum log_erfc erfc ty nset ds ng uniform uniform_var nq nd junk fd rd row tall pm i)
    (rec_one_mmap dsytrf dsytri dtrtri dlauum log_erfc erfc ty nset ds ng uniform uniform_var nq nd' junk' fd' rd' row' tall' pm i).
Proof.
  intros LB HL HE DG I OK G S1 S2. apply kept_curves.
  apply (C107_mixed dsytrf dsytri dtrtri dlauum log_erfc erfc ty nset ng uniform uniform_var nq ds ds nd nd' junk junk' fd fd' rd rd' row row' tall tall' (fun _ => kept)); auto.
  apply kept_set; auto.
Qed.
End Kept.

(** *** Every parameter vector has a counterpart in the new units *)
Lemma sets_counterpart nset (ds ds' : nat -> lcset) ng uniform flag (g : nat -> change) pm : uniform <> 1%nat ->
  (forall i, (i < nset)%nat -> s_nl (ds' i) = s_nl (ds i) /\ proper (g i) (ds i)) ->
  exists pm', forall i, (i < nset)%nat -> set_sigma false pm' i = factor (g i) 0%nat * set_sigma false pm i
    /\ same_parameters nset ng uniform false (g i) ds ds' pm pm' (component nset ds ng uniform false pm (decode flag)) (component nset ds' ng uniform false pm' (decode flag)) i.
Proof.
  intros U H. set (sl := line_slot nset ds ng uniform false).
  assert (NL : forall i, (i < nset)%nat -> s_nl (ds' i) = s_nl (ds i)) by (intros i I; apply (H i I)).
  set (pm' := PropUnit.place nset ds ng (fun i c => match c with
        | O => pm (var_slot false i 0)
        | 1%nat => pm (var_slot false i 1) + ln (factor (g i) 0%nat) - ln (stretch (g i)) / 2
        | _ => pm (var_slot false i 2) + ln (stretch (g i)) end)
    (fun i j r => let b := factor (g i) (S j) / factor (g i) 0%nat in match r with
        | ParamSpec.SysErr => pm (sl i j r)
        | ParamSpec.Amp _ => if flag then b * pm (sl i j r) else ln b + pm (sl i j r)
        | ParamSpec.Centre _ => stretch (g i) * pm (sl i j r) + (origin (g i) (S j) - origin (g i) 0%nat)
        | ParamSpec.Width _ => ln (stretch (g i)) + pm (sl i j r) end)).
  exists pm'. intros i I. destruct (H i I) as (_ & PR).
  assert (PA := proj1 PR). assert (B0 := proj1 (proj2 PR 0%nat ltac:(lia))).
  assert (TA : set_taud false pm' i = stretch (g i) * set_taud false pm i).
  { unfold set_taud, pm'. rewrite PropUnit.place_var by lia. rewrite exp_plus, exp_ln by exact PA. ring. }
  split.
  - unfold set_sigma. rewrite TA. unfold pm'. rewrite PropUnit.place_var by lia. unfold Rminus. rewrite !exp_plus, exp_ln, exp_Ropp by exact B0.
    rewrite sqrt_mult by (try apply Rlt_le, exp_pos; lra).
    replace (exp (ln (stretch (g i)) / 2)) with (sqrt (stretch (g i))).
    + field. apply Rgt_not_eq, sqrt_lt_R0, PA.
    + rewrite <- (Rpower_sqrt (stretch (g i))) by exact PA. unfold Rpower. f_equal. field.
  - split; [exact TA|]. split; [unfold pm'; rewrite PropUnit.place_var by lia; reflexivity|]. intros j J.
    assert (B1 := proj1 (proj2 PR (S j) ltac:(lia))). assert (BB : 0 < factor (g i) (S j) / factor (g i) 0%nat) by (apply Rdiv_lt_0_compat; assumption).
    unfold component. rewrite !(fun r => PropUnit.slot_ext nset ds ds' ng uniform false NL i j r I).
    split; [unfold pm'; rewrite PropUnit.place_line by (try assumption; exact Logic.I); reflexivity|]. intros k K. cbn [area centre width].
    rewrite !(fun r => PropUnit.slot_ext nset ds ds' ng uniform false NL i j r I). unfold pm'. rewrite !PropUnit.place_line by (try assumption; exact K).
    f_equal; [|rewrite exp_plus, exp_ln by exact PA; reflexivity].
    unfold decode. destruct flag; [reflexivity|]. rewrite exp_plus, exp_ln by exact BB. reflexivity.
Qed.
Print Assumptions C107_general.
Print Assumptions C107_mixed.
Print Assumptions C107_one_curve.
Print Assumptions C107_one_curve_mixed.

(** ** Cases meeting the hypotheses *)
Lemma library_met : library_ok ref_dsytrf ref_dsytri ref_dtrtri ref_dlauum.
Proof. destruct lapack_exists as (A & B & C & E). split; [exact A|]. split; assumption. Qed.
(** half days, every curve with its own origin and unit, the lines backwards, any trend
    added; any parameters, any times, any contents of the memory *)
Example C107_general_case fall v mem mem' rm rm' row row' tall tall' pm nd nd' i : (i < 2)%nat -> exists pm',
  moved 2 (PropUnit.half_days v) (3 + i) (points (case_sets fall) nd i) (points (fun i => PropUnit.rewritten 2 (PropUnit.half_days v) (case_sets fall i)) nd' i) tall tall'
    (rec_one ref_dsytrf ref_dsytri ref_dtrtri ref_dlauum (fun _ => 0) 1 false 2 (case_sets fall) 2 0 false 2 nd (fun _ _ => 0%nat) (fun _ => case_found mem) (fun _ _ => rm) row tall pm i)
    (rec_one ref_dsytrf ref_dsytri ref_dtrtri ref_dlauum (fun _ => 0) 1 false 2 (fun i => PropUnit.rewritten 2 (PropUnit.half_days v) (case_sets fall i)) 2 0 false 2 nd' (fun _ _ => 7%nat)
       (fun _ => case_found mem') (fun _ _ => rm') row' tall' pm' i).
Proof.
  intros I. destruct (sets_counterpart 2 (case_sets fall) (fun i => PropUnit.rewritten 2 (PropUnit.half_days v) (case_sets fall i)) 2 0 false (fun _ => PropUnit.half_days v) pm) as [pm' Q]; [lia| |].
  - intros k K. split; [reflexivity|]. apply PropUnit.case_changed.
  - exists pm'. destruct (Q i I) as [Q1 Q2].
    apply (C107_general ref_dsytrf ref_dsytri ref_dtrtri ref_dlauum (fun _ => 0) 1 false 2 2 0 false 2 (case_sets fall) (fun i => PropUnit.rewritten 2 (PropUnit.half_days v) (case_sets fall i)) nd nd'
      (fun _ _ => 0%nat) (fun _ _ => 7%nat) (fun _ => case_found mem) (fun _ => case_found mem') (fun _ _ => rm) (fun _ _ => rm') row row' tall tall' (fun _ => PropUnit.half_days v)); [exact library_met| |exact Logic.I].
    split; [exact I|]. split; [intros k K; apply PropUnit.rewritten_same|]. split; [apply PropUnit.case_changed|]. split; [apply case_set_ok, I|]. split; [apply PropUnit.case_in_order|].
    split; [apply case_separate, I|]. split; [apply PropUnit.rewritten_separate, I|]. split; [exact Q1|exact Q2].
Qed.
(** a top-hat and an exponential of width taud, all parameters 0, Julian dates *)
Example C107_mixed_case log_erfc erfc fall v mem mem' rm rm' row row' tall tall' nd nd' i : log_erfc_correct log_erfc -> erfc_correct erfc -> (i < 2)%nat ->
  moved 2 (PropUnit.julian v) (3 + i) (points (case_sets fall) nd i) (points (fun i => PropUnit.rewritten 2 (PropUnit.julian v) (case_sets fall i)) nd' i) tall tall'
    (rec_one_mmap ref_dsytrf ref_dsytri ref_dtrtri ref_dlauum log_erfc erfc ty13 2 (case_sets fall) 2 0 false 2 nd (fun _ _ => 0%nat) (fun _ => case_found mem) (fun _ _ => rm) row tall (fun _ => 0) i)
    (rec_one_mmap ref_dsytrf ref_dsytri ref_dtrtri ref_dlauum log_erfc erfc ty13 2 (fun i => PropUnit.rewritten 2 (PropUnit.julian v) (case_sets fall i)) 2 0 false 2 nd' (fun _ _ => 7%nat)
       (fun _ => case_found mem') (fun _ _ => rm') row' tall' (fun _ => 0) i).
Proof.
  intros HL HE I.
  apply (C107_mixed ref_dsytrf ref_dsytri ref_dtrtri ref_dlauum log_erfc erfc ty13 2 2 0 false 2 (case_sets fall) (fun i => PropUnit.rewritten 2 (PropUnit.julian v) (case_sets fall i)) nd nd'
      (fun _ _ => 0%nat) (fun _ _ => 7%nat) (fun _ => case_found mem) (fun _ => case_found mem') (fun _ _ => rm) (fun _ _ => rm') row row' tall tall' (fun _ => PropUnit.julian v)); auto using digits13.
  - exact library_met.
  - split; [exact I|]. split; [intros k K; apply PropUnit.rewritten_same|]. split; [apply PropUnit.case_changed|]. split; [apply case_set_ok, I|]. split; [apply PropUnit.case_in_order|].
    split; [apply case_separate, I|]. split; [apply PropUnit.rewritten_separate, I|]. split; [cbn [factor PropUnit.julian]; ring|].
    apply (PropUnit.same_unmoved 2 (case_sets fall) (fun i => PropUnit.rewritten 2 (PropUnit.julian v) (case_sets fall i)) 2 0 false (fun _ => PropUnit.julian v)); auto. repeat split.
  - intros j _ k _ _; left; reflexivity.
  - intros j _ k _ _; left; reflexivity.
Qed.
(** 2 output times or 50, anything in memory *)
Example C107_one_curve_case fall mem mem' rm rm' row row' tall tall' pm i : (i < 2)%nat ->
  same_curves 2 (3 + i) (points (case_sets fall) 2 i) (points (case_sets fall) 50 i) tall tall'
    (rec_one ref_dsytrf ref_dsytri ref_dtrtri ref_dlauum (fun _ => 0) 1 false 2 (case_sets fall) 2 0 false 2 2 (fun _ _ => 0%nat) (fun _ => case_found mem) (fun _ _ => rm) row tall pm i)
    (rec_one ref_dsytrf ref_dsytri ref_dtrtri ref_dlauum (fun _ => 0) 1 false 2 (case_sets fall) 2 0 false 2 50 (fun _ _ => 3%nat) (fun _ => case_found mem') (fun _ _ => rm') row' tall' pm i).
Proof.
  intros I. apply (C107_one_curve ref_dsytrf ref_dsytri ref_dtrtri ref_dlauum (fun _ => 0) 1 false 2 (case_sets fall) 2 0 false 2 2 50); auto using library_met, case_set_ok, case_separate.
  exact Logic.I.
Qed.
