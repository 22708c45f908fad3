(** C74, C75: the likelihood of all data sets, from the parameter vector to the value, for
    the general, mixed, virtual and ratio modes.  Real arithmetic, no rounding. *)
From Coq Require Import Reals List Arith Lia Lra FunctionalExtensionality.
From Coquelicot Require Import Coquelicot.
From Verif Require Import CPrelude SemisepModel SemisepProofs SemisepProofs2 MatBridge MatBridge2 SemisepProofs3 PartProofs PartProofs2 KernelCalc KernelSpec KernelModel KernelGauss2 PartModel
  CovModel LikeModel PredModel PropPart PropSemisep GlsAlgebra LikeProofs PropLike PredProofs PropPred.
From Verif Require Import PropCov MixSpec PropKernel MixModel PropMix PsdCore PsdKernel PropPsd EndModel VmapModel SetsModel.
From Verif Require EndProofs PropEnd PropVmap ParamModel ParamSpec ParamProofs ParamProofs2 SmallModel PropSmall PropParam.
Import ListNotations.
Open Scope R_scope.

Section Spec.
(** ** What the statements are about *)
(** The parameter vector pm.  Set i has three variability parameters (all sets share them
    if uniform_var), line j of set i one parameter for its systematic error and three for
    each of ng components, in the slots of ParamSpec.v (lines with the same number share
    them if uniform = 1). *)
Variable nset : nat.
Variable ds : nat -> lcset.
Variable ng : nat.
Variable uniform : nat.
Variable uniform_var : bool.
Variable nq : nat.
Variable pm : arr.
Definition var_slot (i c : nat) : nat := if uniform_var then c else (3 * i + c)%nat.
Definition line_slot (i j : nat) (r : ParamSpec.role) : nat := ParamSpec.slot nset (nlset ds) ng uniform uniform_var i j r.
Definition set_taud (i : nat) : R := exp (pm (var_slot i 2)).
Definition set_sigma (i : nat) : R := exp (pm (var_slot i 1)) * sqrt (set_taud i).
(** squared error of point m of curve c of set i: curve 0 is the continuum *)
Definition set_error2 (i c m : nat) : R :=
  match c with
  | O => s_fe (ds i) m ^ 2 + ((exp (pm (var_slot i 0)) - 1) * s_em (ds i)) ^ 2
  | S j => s_fel (ds i) j m ^ 2 + ((exp (pm (line_slot i j ParamSpec.SysErr)) - 1) * s_eml (ds i) j) ^ 2
  end.
(** component k of line j of set i: amplitude as such or its logarithm, centre,
    logarithm of the width *)
Definition component (amp : R -> R) (i j k : nat) : comp :=
  Comp (amp (pm (line_slot i j (ParamSpec.Amp k)))) (pm (line_slot i j (ParamSpec.Centre k))) (exp (pm (line_slot i j (ParamSpec.Width k)))).
(** in the ratio mode the amplitudes of the later components are relative to the first *)
Definition ratio_component (i j k : nat) : comp :=
  Comp (match k with O => 1 | S _ => exp (pm (line_slot i j (ParamSpec.Amp k))) end * exp (pm (line_slot i j (ParamSpec.Amp 0))))
    (pm (line_slot i j (ParamSpec.Centre k))) (exp (pm (line_slot i j (ParamSpec.Width k)))).

Definition set_sizes (i : nat) : list nat := s_ncon (ds i) :: map (s_nline (ds i)) (seq 0 (s_nl (ds i))).
Definition set_points (i : nat) : nat := list_sum (set_sizes i).
Definition set_time (i : nat) : nat -> nat -> R := time (s_tcon (ds i)) (s_tline (ds i)).
Definition set_curves (i : nat) : nat -> nat := narr_of (s_ncon (ds i)) (s_nline (ds i)).
(** A set with at least one line, continuum times in order, no total error zero, every
    curve with at least as many different times as trend coefficients. *)
Definition set_ok (i : nat) : Prop :=
  (1 <= nq)%nat /\ (1 <= s_nl (ds i))%nat /\ (1 <= s_ncon (ds i))%nat
  /\ (forall m, (S m < s_ncon (ds i))%nat -> s_tcon (ds i) m <= s_tcon (ds i) (S m))
  /\ (forall c m, (c < 1 + s_nl (ds i))%nat -> (m < set_curves i c)%nat -> 0 < set_error2 i c m)
  /\ (forall c, (c < 1 + s_nl (ds i))%nat -> enough_times nq (set_curves i c) (times_of (s_tcon (ds i)) (s_tline (ds i)) c)).
(** covariance matrix of the data of set i, its inverse, the trends *)
Definition set_described (psi : nat -> nat -> R -> R) (i : nat) (SS Si L : nat -> nat -> R) : Prop :=
  data_covariance (psi i) (set_taud i) (set_sigma i) (set_sizes i) (set_time i) (set_error2 i) SS /\ is_inverse (set_points i) SS Si
  /\ trend_design nq (1 + s_nl (ds i)) (set_curves i) (times_of (s_tcon (ds i)) (s_tline (ds i))) L.
(** The same for a set without continuum: at least two lines, their trends only, and the
    amplitude of the driving curve is sigma itself. *)
Definition lines_sigma (i : nat) : R := exp (pm (var_slot i 1)).
Definition lines_points (i : nat) : nat := total (s_nline (ds i)) (s_nl (ds i)).
Definition lines_only_ok (i : nat) : Prop :=
  (1 <= nq)%nat /\ (2 <= s_nl (ds i))%nat
  /\ (forall j m, (j < s_nl (ds i))%nat -> (m < s_nline (ds i) j)%nat -> 0 < set_error2 i (S j) m)
  /\ (forall j, (j < s_nl (ds i))%nat -> enough_times nq (s_nline (ds i) j) (s_tline (ds i) j)).
Definition lines_only_described (psi : nat -> nat -> R -> R) (i : nat) (SS Si L : nat -> nat -> R) : Prop :=
  data_covariance (psi i) (set_taud i) (lines_sigma i) (0%nat :: map (s_nline (ds i)) (seq 0 (s_nl (ds i))))
    (fun c m => match c with O => 0 | S j => s_tline (ds i) j m end) (set_error2 i) SS
  /\ is_inverse (lines_points i) SS Si /\ trend_design nq (s_nl (ds i)) (s_nline (ds i)) (s_tline (ds i)) L.
Definition lines_total_loglike (SS Si L : nat -> nat -> nat -> R) (p : R) : Prop :=
  exists q, p = sumn nset q /\
    forall i, (i < nset)%nat -> marginal_loglike (lines_points i) (nq * s_nl (ds i)) (SS i) (Si i) (L i) (s_fall (ds i)) (q i).
Definition lines_separate (fd : nat -> found) (i : nat) : Prop :=
  apart (f_A (fd i)) (lines_points i * lines_points i) (f_wk (fd i)) (2 * (lines_points i * lines_points i)).
(** p is the sum of the logarithms of the Gaussian likelihoods of the sets *)
Definition total_loglike (SS Si L : nat -> nat -> nat -> R) (p : R) : Prop :=
  exists q, p = sumn nset q /\
    forall i, (i < nset)%nat -> marginal_loglike (set_points i) (nq * (1 + s_nl (ds i))) (SS i) (Si i) (L i) (s_fall (ds i)) (q i).
(** parameters at which the covariance formulas are exact: none excluded for top-hats;
    for exponentials and gamma responses no width nearly, but not exactly, equal to taud *)
Definition set_good (log_erfc : R -> R) (type_tf : nat) (comps : nat -> nat -> nat -> comp) (i : nat) : Prop :=
  match type_tf with
  | 0 => log_erfc_correct log_erfc
  | 1 => True
  | _ => forall j, (j < s_nl (ds i))%nat -> clear (set_taud i) ng (comps i j)
  end%nat.
(** the matrix PCmat and the work space do not overlap *)
Definition separate (fd : nat -> found) (i : nat) : Prop :=
  apart (f_A (fd i)) (set_points i * set_points i) (f_wk (fd i)) (2 * (set_points i * set_points i)).
End Spec.

(** ** Links to the proofs *)
Lemma cov_ext psi psi' taud s xs t e e' SS :
  (forall j, (S j < length xs)%nat -> psi j = psi' j) -> (forall c i, (c < length xs)%nat -> e c i = e' c i) ->
  data_covariance psi taud s xs t e SS -> data_covariance psi' taud s xs t e' SS.
Proof.
  intros P E D a b A B. destruct (D a b A B) as (c & i & d & m & v & L1 & L2 & C & V).
  pose proof (proj1 (locate_len _ _ _ _ L1)) as C1. pose proof (proj1 (locate_len _ _ _ _ L2)) as C2.
  exists c, i, d, m, v. rewrite <- (E c i C1). split; [exact L1|]. split; [exact L2|]. split; [|exact V].
  destruct c as [|c], d as [|d]; cbn [point_cov] in *; rewrite <- ?P by assumption; exact C.
Qed.
Lemma kernels_ext taud nl psi psi' K : (forall j, (j < nl)%nat -> psi j = psi' j) -> EndProofs.exact_kernels taud nl psi K -> EndProofs.exact_kernels taud nl psi' K.
Proof.
  intros P (H1 & H2 & H). split; [|split; [|exact H]].
  - intros t s j J. rewrite <- P by assumption. apply H1, J.
  - intros t s j l J L. rewrite <- !P by assumption. apply H2; assumption.
Qed.
Lemma response_ext sh n c c' : (forall k, (k < n)%nat -> c k = c' k) -> response sh n c = response sh n c'.
Proof. intros E. apply functional_extensionality. intros a. unfold response. apply sumn_ext. intros k K. rewrite E by assumption. reflexivity. Qed.
Lemma mixed_ext ty n c c' : (forall k, (k < n)%nat -> c k = c' k) -> mixed_response n ty c = mixed_response n ty c'.
Proof. intros E. apply functional_extensionality. intros a. unfold mixed_response. apply sumn_ext. intros k K. rewrite E by assumption. reflexivity. Qed.
Lemma sets_sum (f : nat -> option R) q n : (forall k, (k < n)%nat -> f k = Some (q k)) -> prob_sets (map f (seq 0 n)) 0 = Some (sumn n q).
Proof.
  assert (A : forall l r p, prob_sets (map Some l ++ r) p = prob_sets r (fold_left Rplus l p)).
  { induction l as [|x l IH]; intros r p; [reflexivity|]. cbn [map app prob_sets fold_left]. apply IH. }
  intros H. assert (E : map f (seq 0 n) = map Some (map q (seq 0 n))).
  { rewrite map_map. apply map_ext_in. intros k K. apply in_seq in K. apply H. lia. }
  rewrite E. clear E H. rewrite <- (app_nil_r (map Some _)), A. cbn [prob_sets]. f_equal.
  induction n as [|n IH]; [reflexivity|]. rewrite seq_S, map_app, fold_left_app, IH. reflexivity.
Qed.

Section Proofs.
Context {IP : Type}.
Variable dsytrf : nat -> (nat -> nat -> R) -> (nat -> nat -> R) * IP.
Variable dsytri : nat -> (nat -> nat -> R) -> IP -> nat -> nat -> R.
Variable dsytri_fails : nat -> (nat -> nat -> R) -> IP -> bool.
Variables dtrtri dlauum : nat -> arr -> arr.
Variables log_erfc erfc : R -> R.
Variable type_tf : nat.
Variable flag : bool.
Variable ty : nat -> nat.
Variable nset : nat.
Variable ds : nat -> lcset.
Variable ng : nat.
Variable uniform : nat.
Variable uniform_var : bool.
Variable nq : nat.
Variable junk : nat -> nat -> nat.
Variable fd : nat -> found.
Variable pm : arr.
Notation nls := (nlset ds).
Notation li := (line_index nset ds ng uniform uniform_var junk).
Notation ci := (con_index uniform_var).
Notation taud := (set_taud uniform_var pm).
Notation sigma := (set_sigma uniform_var pm).
Notation slot := (line_slot nset ds ng uniform uniform_var).
Notation err2 := (set_error2 nset ds ng uniform uniform_var pm).
Notation ok := (set_ok nset ds ng uniform uniform_var nq pm).
Notation described := (set_described nset ds ng uniform uniform_var nq pm).
Notation comps := (component nset ds ng uniform uniform_var pm).
Notation rcomps := (ratio_component nset ds ng uniform uniform_var pm).

Lemma index_slot i j r : (i < nset)%nat -> (j < nls i)%nat -> (li i j + ParamSpec.offset r)%nat = slot i j r.
Proof.
  intros I J. unfold line_index. rewrite ParamProofs.idx_spec. destruct (Nat.ltb_spec i nset), (Nat.ltb_spec j (nls i)); try lia. cbn [andb].
  unfold line_slot, ParamSpec.slot, ParamSpec.slot_at. lia.
Qed.
Lemma index_var i c : (ci i + c)%nat = var_slot uniform_var i c.
Proof. unfold con_index, ParamModel.idx_con_pm, var_slot. destruct uniform_var; lia. Qed.
(** p' has the variability parameters and systematic errors of pm *)
Definition same_errors (p' : arr) (i : nat) : Prop :=
  (forall c, (c < 3)%nat -> p' (var_slot uniform_var i c) = pm (var_slot uniform_var i c)) /\ (forall j, (j < nls i)%nat -> p' (slot i j ParamSpec.SysErr) = pm (slot i j ParamSpec.SysErr)).
Lemma stored_comp amp p' i j k : (i < nset)%nat -> (j < nls i)%nat ->
  KernelSpec.stored amp p' (li i j) k = component nset ds ng uniform uniform_var p' amp i j k.
Proof.
  intros I J. unfold KernelSpec.stored, component.
  rewrite <- !(index_slot i j) by assumption. cbn [ParamSpec.offset].
  replace (li i j + (1 + 3 * k))%nat with (li i j + 1 + 3 * k)%nat by lia.
  replace (li i j + (2 + 3 * k))%nat with (li i j + 1 + 3 * k + 1)%nat by lia.
  replace (li i j + (3 + 3 * k))%nat with (li i j + 1 + 3 * k + 2)%nat by lia. reflexivity.
Qed.

Section One.
Variable i : nat.
Hypothesis I : (i < nset)%nat.
Variable psi : nat -> nat -> R -> R.
Variable p' : arr.
Hypothesis SE : same_errors p' i.
Variable K : kernels.
Hypothesis EK : EndProofs.exact_kernels (taud i) (s_nl (ds i)) (psi i) K.
Hypothesis SH : forall j, (j < s_nl (ds i))%nat -> of_shapes (psi i j).
Hypothesis OK : ok i.
Notation d := (ds i).
Notation f := (fd i).
Lemma var_eq c : (c < 3)%nat -> p' (ci i + c)%nat = pm (var_slot uniform_var i c).
Proof. intros C. rewrite index_var. apply SE, C. Qed.
Lemma taud_eq : exp (p' (ci i + 2)%nat) = taud i.
Proof. rewrite var_eq by lia. reflexivity. Qed.
Lemma sig_eq : exp (p' (ci i + 1)%nat) * sqrt (exp (p' (ci i + 2)%nat)) = sigma i.
Proof. rewrite !var_eq by lia. reflexivity. Qed.
Notation sq := (EndProofs.squared_error (s_fe d) (s_em d) (s_fel d) (s_eml d) p' (ci i) (li i)).
Lemma err_eq c m : (c < length (set_sizes ds i))%nat -> sq c m = err2 i c m.
Proof.
  intros C. unfold set_sizes in C. rewrite EndProofs.len_sizes in C. destruct c as [|j]; cbn [EndProofs.squared_error set_error2].
  - rewrite <- (var_eq 0) by lia. rewrite Nat.add_0_r. reflexivity.
  - rewrite <- (proj2 SE j) by (unfold nlset; lia). rewrite <- (index_slot i j) by (unfold nlset; lia). cbn [ParamSpec.offset]. rewrite Nat.add_0_r. reflexivity.
Qed.
Lemma err_pos c m : (c < length (set_sizes ds i))%nat -> (m < nth c (set_sizes ds i) 0)%nat -> 0 < sq c m.
Proof.
  intros C M. rewrite err_eq by exact C. destruct OK as (_ & _ & _ & _ & E & _).
  unfold set_sizes in C, M. rewrite EndProofs.len_sizes in C. apply E; [lia|]. rewrite EndProofs.sizes_seq in M.
  rewrite nth_indep with (d' := set_curves ds i 0%nat) in M by (rewrite map_length, seq_length; lia). unfold set_curves in M |- *. rewrite map_nth, seq_nth in M by lia. exact M.
Qed.
Lemma EK' : EndProofs.exact_kernels (exp (p' (ci i + 2)%nat)) (s_nl d) (psi i) K.
Proof. rewrite taud_eq. exact EK. Qed.
Lemma cov_to SS : data_covariance (psi i) (taud i) (sigma i) (set_sizes ds i) (set_time ds i) (err2 i) SS ->
  data_covariance (psi i) (exp (p' (ci i + 2)%nat)) (exp (p' (ci i + 1)%nat) * sqrt (exp (p' (ci i + 2)%nat))) (set_sizes ds i) (set_time ds i) sq SS.
Proof. rewrite sig_eq, taud_eq. apply cov_ext; [reflexivity|]. intros c m C. symmetry. apply err_eq, C. Qed.
Lemma cov_from SS : data_covariance (psi i) (exp (p' (ci i + 2)%nat)) (exp (p' (ci i + 1)%nat) * sqrt (exp (p' (ci i + 2)%nat))) (set_sizes ds i) (set_time ds i) sq SS ->
  data_covariance (psi i) (taud i) (sigma i) (set_sizes ds i) (set_time ds i) (err2 i) SS.
Proof. rewrite sig_eq, taud_eq. apply cov_ext; [reflexivity|]. intros c m C. apply err_eq, C. Qed.
Lemma set_exists : exists SS Si L, described psi i SS Si L.
Proof.
  pose proof (EndProofs.filled_cov (s_ncon d) (s_tcon d) (s_fe d) (s_em d) (s_nl d) (s_nline d) (s_tline d) (s_fel d) (s_eml d) p' (ci i) (li i) (psi i) _
    (EndProofs.array_filled (s_ncon d) (s_tcon d) (s_fe d) (s_em d) (s_nl d) (s_nline d) (s_tline d) (s_fel d) (s_eml d) p' (ci i) (li i) (psi i) K EK' pm pm pm pm 0)) as D.
  destruct (EndProofs.inverse_exists (s_ncon d) (s_tcon d) (s_fe d) (s_em d) (s_nl d) (s_nline d) (s_tline d) (s_fel d) (s_eml d) p' (ci i) (li i) (psi i) SH err_pos _ D) as [Si IV].
  eexists. exists Si. eexists. split; [exact (cov_from _ D)|]. split; [exact IV|].
  exact (C30_trend_matrix nq (s_nl d) (s_ncon d) (s_tcon d) (s_nline d) (s_tline d) pm (proj1 OK)).
Qed.
Lemma set_value SS Si L : lapack_ok dsytrf dsytri dsytri_fails dtrtri dlauum -> separate ds fd i -> described psi i SS Si L ->
  exists p, set_prob dsytrf dsytri dsytri_fails dtrtri dlauum nset ds ng uniform uniform_var nq junk fd K p' i = Some p
    /\ marginal_loglike (set_points ds i) (nq * (1 + s_nl d)) SS Si L (s_fall d) p.
Proof.
  intros LP AP (D & IV & TD). pose proof OK as (NQ & NL & NC & ORD & _ & ET). unfold set_prob.
  apply (EndProofs.prob_generic (s_ncon d) (s_tcon d) (s_fe d) (s_em d) (s_nl d) (s_nline d) (s_tline d) (s_fel d) (s_eml d) p' (ci i) (li i) (psi i) K EK' SH err_pos); auto.
  apply cov_to, D.
Qed.
End One.

Lemma same_self i : same_errors pm i.
Proof. split; reflexivity. Qed.
Lemma all_of (P : nat -> R -> Prop) f : (forall i, (i < nset)%nat -> exists p, f i = Some p /\ P i p) ->
  exists p, prob_sets (map f (seq 0 nset)) 0 = Some p /\ exists q, p = sumn nset q /\ forall i, (i < nset)%nat -> P i (q i).
Proof.
  intros H. assert (Q : exists q, forall i, (i < nset)%nat -> f i = Some (q i) /\ P i (q i)).
  { exists (fun i => match f i with Some p => p | None => 0 end). intros i I. destruct (H i I) as (p & E & M). rewrite E. auto. }
  destruct Q as [q Q]. exists (sumn nset q). split; [apply sets_sum; intros k KK; apply Q, KK|]. exists q. split; [reflexivity|]. intros i I. apply Q, I.
Qed.
Lemma all_sets f SS Si L :
  (forall i, (i < nset)%nat -> exists p, f i = Some p /\ marginal_loglike (set_points ds i) (nq * (1 + s_nl (ds i))) (SS i) (Si i) (L i) (s_fall (ds i)) p) ->
  exists p, prob_sets (map f (seq 0 nset)) 0 = Some p /\ total_loglike nset ds nq SS Si L p.
Proof. apply (all_of (fun i p => marginal_loglike (set_points ds i) (nq * (1 + s_nl (ds i))) (SS i) (Si i) (L i) (s_fall (ds i)) p)). Qed.

(** ** General mode *)
Notation psi_g := (fun i j => response (PropCov.shape_of type_tf) ng (comps (decode flag) i j)).
Lemma general_K fl cs p' i : (i < nset)%nat -> same_errors p' i ->
  (forall j k, (j < nls i)%nat -> (k < ng)%nat -> component nset ds ng uniform uniform_var p' (decode fl) i j k = cs i j k) ->
  set_good ds ng uniform_var pm log_erfc type_tf cs i ->
  EndProofs.exact_kernels (taud i) (s_nl (ds i)) (fun j => response (PropCov.shape_of type_tf) ng (cs i j)) (pointers log_erfc type_tf fl ci li ng p' i)
  /\ forall j, (j < s_nl (ds i))%nat -> of_shapes (response (PropCov.shape_of type_tf) ng (cs i j)).
Proof.
  intros I SE EQ G.
  assert (E : forall j, (j < s_nl (ds i))%nat -> response (PropCov.shape_of type_tf) ng (KernelSpec.stored (decode fl) p' (li i j)) = response (PropCov.shape_of type_tf) ng (cs i j)).
  { intros j J. apply response_ext. intros k KK. rewrite stored_comp by assumption. apply EQ; assumption. }
  split.
  - apply (kernels_ext _ _ (fun j => response (PropCov.shape_of type_tf) ng (KernelSpec.stored (decode fl) p' (li i j)))); [exact E|].
    rewrite <- (taud_eq i I p' SE). apply EndProofs.plain_exact.
    unfold good, set_good in *. destruct type_tf as [|[|t]]; auto. intros j J k KK. specialize (G j J k KK).
    rewrite (taud_eq i I p' SE). rewrite stored_comp, EQ by assumption. exact G.
  - intros j J. rewrite <- E by exact J. apply EndProofs.plain_shapes.
Qed.
Theorem C74_described i : (i < nset)%nat -> ok i -> set_good ds ng uniform_var pm log_erfc type_tf (comps (decode flag)) i -> exists SS Si L, described psi_g i SS Si L.
Proof.
  intros I OK G. destruct (general_K flag (comps (decode flag)) pm i I (same_self i) (fun _ _ _ _ => eq_refl) G) as [EK SH].
  exact (set_exists i I psi_g pm (same_self i) _ EK SH OK).
Qed.
Theorem C74_general SS Si L : lapack_ok dsytrf dsytri dsytri_fails dtrtri dlauum ->
  (forall i, (i < nset)%nat -> ok i /\ set_good ds ng uniform_var pm log_erfc type_tf (comps (decode flag)) i /\ separate ds fd i /\ described psi_g i (SS i) (Si i) (L i)) ->
  exists p, prob_line_variability4 dsytrf dsytri dsytri_fails dtrtri dlauum log_erfc type_tf flag nset ds ng uniform uniform_var nq junk fd pm = Some p
    /\ total_loglike nset ds nq SS Si L p.
Proof.
  intros LP H. apply all_sets. intros i I. destruct (H i I) as (OK & G & AP & D).
  destruct (general_K flag (comps (decode flag)) pm i I (same_self i) (fun _ _ _ _ => eq_refl) G) as [EK SH].
  exact (set_value i I psi_g pm (same_self i) _ EK SH OK _ _ _ LP AP D).
Qed.

(** ** Mixed mode *)
Notation psi_m := (fun i j => mixed_response ng ty (comps exp i j)).
Lemma mixed_K i : (i < nset)%nat -> log_erfc_correct log_erfc -> erfc_correct erfc -> digits ng ty ->
  (forall j, (j < s_nl (ds i))%nat -> clear_scales' (taud i) ng ty (comps exp i j)) -> forall b1 b2,
  EndProofs.exact_kernels (taud i) (s_nl (ds i)) (psi_m i) (mixed_kernels log_erfc erfc ci li ng ty pm i b1 b2)
  /\ forall j, (j < s_nl (ds i))%nat -> of_shapes (psi_m i j).
Proof.
  intros I HL HE DG CS b1 b2.
  assert (E0 : forall j, (j < s_nl (ds i))%nat -> KernelSpec.stored exp pm (li i j) = comps exp i j).
  { intros j J. apply functional_extensionality. intros k. apply stored_comp; assumption. }
  assert (E : forall j, (j < s_nl (ds i))%nat -> mixed_response ng ty (KernelSpec.stored exp pm (li i j)) = psi_m i j) by (intros j J; rewrite E0 by exact J; reflexivity).
  split.
  - apply (kernels_ext _ _ (fun j => mixed_response ng ty (KernelSpec.stored exp pm (li i j)))); [exact E|].
    rewrite <- (taud_eq i I pm (same_self i)). apply EndProofs.mixed_exact; auto. intros j J. rewrite (taud_eq i I pm (same_self i)), E0 by exact J. apply CS, J.
  - intros j J. rewrite <- E by exact J. apply EndProofs.mixed_shapes, DG.
Qed.
Theorem C74_mixed_described i : (i < nset)%nat -> ok i -> log_erfc_correct log_erfc -> erfc_correct erfc -> digits ng ty ->
  (forall j, (j < s_nl (ds i))%nat -> clear_scales' (taud i) ng ty (comps exp i j)) -> exists SS Si L, described psi_m i SS Si L.
Proof.
  intros I OK HL HE DG CS. destruct (mixed_K i I HL HE DG CS pm pm) as [EK SH]. exact (set_exists i I psi_m pm (same_self i) _ EK SH OK).
Qed.
Theorem C74_mixed SS Si L : lapack_ok dsytrf dsytri dsytri_fails dtrtri dlauum -> log_erfc_correct log_erfc -> erfc_correct erfc -> digits ng ty ->
  (forall i, (i < nset)%nat -> ok i /\ (forall j, (j < s_nl (ds i))%nat -> clear_scales' (taud i) ng ty (comps exp i j)) /\ separate ds fd i /\ described psi_m i (SS i) (Si i) (L i)) ->
  exists p, prob_line_variability_mmap dsytrf dsytri dsytri_fails dtrtri dlauum log_erfc erfc ty nset ds ng uniform uniform_var nq junk fd pm = Some p
    /\ total_loglike nset ds nq SS Si L p.
Proof.
  intros LP HL HE DG H. apply all_sets. intros i I. destruct (H i I) as (OK & CS & AP & D).
  destruct (mixed_K i I HL HE DG CS (f_blc (fd i)) (f_bll (fd i))) as [EK SH].
  exact (set_value i I psi_m pm (same_self i) _ EK SH OK _ _ _ LP AP D).
Qed.

(** ** Virtual driving curve *)
Notation vok := (lines_only_ok nset ds ng uniform uniform_var nq pm).
Notation vdescribed := (lines_only_described nset ds ng uniform uniform_var nq pm).
Section Virtual.
Variable i : nat.
Hypothesis I : (i < nset)%nat.
Hypothesis OK : vok i.
Hypothesis G : set_good ds ng uniform_var pm log_erfc type_tf (comps (decode flag)) i.
Notation d := (ds i).
Lemma v_taud : exp (pm (ci i + 2)%nat) = taud i.
Proof. exact (taud_eq i I pm (same_self i)). Qed.
Lemma v_sigma : exp (pm (ci i + 1)%nat) = lines_sigma uniform_var pm i.
Proof. rewrite index_var. reflexivity. Qed.
Lemma v_err c m : (1 <= c)%nat -> (c < 1 + s_nl d)%nat -> PropVmap.line_error2 (s_fel d) (s_eml d) pm (li i) c m = err2 i c m.
Proof.
  intros C1 C. destruct c as [|j]; [lia|]. cbn [PropVmap.line_error2 set_error2].
  rewrite <- (index_slot i j) by (unfold nlset; lia). cbn [ParamSpec.offset]. rewrite Nat.add_0_r. reflexivity.
Qed.
Notation psi0 := (fun j => response (PropCov.shape_of type_tf) ng (KernelSpec.stored (decode flag) pm (li i j))).
Lemma v_psi j : (j < s_nl d)%nat -> psi0 j = psi_g i j.
Proof. intros J. apply response_ext. intros k KK. apply stored_comp; assumption. Qed.
Lemma v_good : good log_erfc type_tf flag (exp (pm (ci i + 2)%nat)) ng (s_nl d) pm (li i).
Proof.
  unfold good, set_good in *. destruct type_tf as [|[|t]]; auto. intros j J k KK. specialize (G j J k KK).
  rewrite v_taud, stored_comp by assumption. exact G.
Qed.
Lemma v_ok : PropVmap.lines_ok (s_nl d) (s_nline d) (s_tline d) (s_fel d) (s_eml d) nq pm li i.
Proof.
  destruct OK as (NQ & NL & E & ET). split; [exact NQ|]. split; [|exact ET]. intros j m J M. rewrite v_err by lia. apply E; assumption.
Qed.
Lemma v_cov psi psi' s s' t e e' SS : s = s' -> (forall j, (j < s_nl d)%nat -> psi j = psi' j) -> (forall c m, (1 <= c)%nat -> (c < 1 + s_nl d)%nat -> e c m = e' c m) ->
  data_covariance psi (taud i) s (0%nat :: map (s_nline d) (seq 0 (s_nl d))) t e SS -> data_covariance psi' (taud i) s' (0%nat :: map (s_nline d) (seq 0 (s_nl d))) t e' SS.
Proof.
  intros <- P E D.
  apply (PropVmap.cov_transfer psi' (taud i) s s _ t t (fun c m => match c with O => e c m | _ => e' c m end)); [reflexivity..| |].
  - intros [|c] m C; [lia|reflexivity].
  - revert D. apply cov_ext.
    + intros j J. rewrite EndProofs.len_sizes in J. apply P. lia.
    + intros [|c] m C; [reflexivity|]. rewrite EndProofs.len_sizes in C. apply E; lia.
Qed.
Lemma v_from SS Si L : PropVmap.lines_described_by (s_nl d) (s_nline d) (s_tline d) (s_fel d) (s_eml d) nq pm ci li i psi0 SS Si L -> vdescribed psi_g i SS Si L.
Proof.
  intros (D & R). split; [|exact R]. rewrite v_taud in D. revert D. apply v_cov; [exact v_sigma|exact v_psi|exact v_err].
Qed.
Lemma v_to SS Si L : vdescribed psi_g i SS Si L -> PropVmap.lines_described_by (s_nl d) (s_nline d) (s_tline d) (s_fel d) (s_eml d) nq pm ci li i psi0 SS Si L.
Proof.
  intros (D & R). split; [|exact R]. rewrite v_taud. revert D. apply v_cov; [symmetry; exact v_sigma| |].
  - intros j J. symmetry. apply v_psi, J.
  - intros c m C1 C. symmetry. apply v_err; assumption.
Qed.
End Virtual.
Theorem C74_virtual_described i : (i < nset)%nat -> vok i -> set_good ds ng uniform_var pm log_erfc type_tf (comps (decode flag)) i -> exists SS Si L, vdescribed psi_g i SS Si L.
Proof.
  intros I OK G.
  destruct (PropVmap.C71_described (s_nl (ds i)) (s_nline (ds i)) (s_tline (ds i)) (s_fel (ds i)) (s_eml (ds i)) nq pm ci li i pm pm pm pm 0%nat pm log_erfc type_tf flag ng (v_good i I G) (v_ok i I OK)) as (SS & Si & L & D).
  exists SS, Si, L. apply v_from; assumption.
Qed.
Theorem C74_virtual SS Si L : dsytr_spec dsytrf dsytri -> dsytri_code dsytrf dsytri_fails ->
  (forall i, (i < nset)%nat -> vok i /\ set_good ds ng uniform_var pm log_erfc type_tf (comps (decode flag)) i /\ lines_separate ds fd i /\ vdescribed psi_g i (SS i) (Si i) (L i)) ->
  exists p, prob_line_variability4_vmap dsytrf dsytri dsytri_fails log_erfc type_tf flag nset ds ng uniform uniform_var nq junk fd pm = Some p
    /\ lines_total_loglike nset ds nq SS Si L p.
Proof.
  intros LP LC H. apply (all_of (fun i p => marginal_loglike (lines_points ds i) (nq * s_nl (ds i)) (SS i) (Si i) (L i) (s_fall (ds i)) p)). intros i I. destruct (H i I) as (OK & G & AP & D).
  exact (PropVmap.C71_likelihood (s_nl (ds i)) (s_nline (ds i)) (s_tline (ds i)) (s_fel (ds i)) (s_eml (ds i)) (s_fall (ds i)) nq pm ci li i
    (f_ll (fd i)) (f_PS (fd i)) (f_mem (fd i)) (f_A (fd i)) (f_wk (fd i)) (f_L (fd i)) dsytrf dsytri dsytri_fails log_erfc type_tf flag ng (v_good i I G) _ _ _
    (v_ok i I OK) (proj1 (proj2 OK)) LP LC AP (v_to i I _ _ _ D)).
Qed.

(** ** Ratio mode *)
Notation psi_r := (fun i j => response (PropCov.shape_of type_tf) ng (rcomps i j)).
Notation nvar := (ParamModel.num_params_var nset uniform_var).
Notation np := (ParamModel.num_params nset nls ng uniform uniform_var).
Lemma amp_slot l k : PropSmall.amp nvar ng l k = ParamSpec.slot_at nset ng uniform_var l (ParamSpec.Amp k).
Proof. unfold PropSmall.amp, ParamSpec.slot_at, ParamModel.per_line. cbn [ParamSpec.offset]. lia. Qed.
Lemma var_lt i c : (i < nset)%nat -> (c < 3)%nat -> (var_slot uniform_var i c < nvar)%nat.
Proof. intros I C. unfold var_slot, ParamModel.num_params_var. destruct uniform_var; lia. Qed.
Lemma ratio_pt pt : PropSmall.transformed Rplus ng nvar (ParamSpec.nlines nset nls uniform) pm pt np ->
  forall i, (i < nset)%nat -> same_errors pt i /\
    forall j k, (j < nls i)%nat -> (k < ng)%nat -> component nset ds ng uniform uniform_var pt (decode false) i j k = rcomps i j k.
Proof.
  intros [T1 T2] i I.
  assert (Q : forall j r, (j < nls i)%nat -> ParamSpec.role_ok ng r -> (forall k, r <> ParamSpec.Amp (S k)) -> pt (slot i j r) = pm (slot i j r)).
  { intros j r J RO N. apply T2.
    - apply (PropParam.C38_tile nset nls ng uniform uniform_var) with (i := i) (j := j) (r := r); [exact RO|]. apply PropParam.code_slot_eq. split; [split; assumption|reflexivity].
    - intros l k LL KK E. rewrite amp_slot in E. unfold line_slot, ParamSpec.slot in E. apply ParamProofs2.slot_at_inj in E; [|exact RO|cbn; lia].
      destruct E as [_ E]. destruct k as [|k]; [lia|]. exact (N k E). }
  split; [split|].
  - intros c C. apply T2; [pose proof (var_lt i c I C); unfold ParamModel.num_params; lia|].
    intros l k LL KK E. pose proof (var_lt i c I C). unfold PropSmall.amp in E. lia.
  - intros j J. apply Q; [exact J|exact Logic.I|discriminate].
  - intros j k J KK. unfold component, ratio_component. rewrite (Q j (ParamSpec.Centre k)), (Q j (ParamSpec.Width k)) by (first [exact J|exact KK|discriminate]). f_equal.
    destruct k as [|k].
    + rewrite Q by (first [exact J|exact KK|discriminate]). rewrite Rmult_1_l. reflexivity.
    + pose proof (T1 (ParamSpec.line_no nls uniform i j) (S k) (ParamProofs.line_no_lt nset nls uniform i j I J) ltac:(lia)) as E.
      rewrite !amp_slot in E. unfold decode. rewrite <- exp_plus. f_equal. exact E.
Qed.
Theorem C75_described i : (i < nset)%nat -> ok i -> set_good ds ng uniform_var pm log_erfc type_tf rcomps i -> (1 <= ng)%nat -> exists SS Si L, described psi_r i SS Si L.
Proof.
  intros I OK G NG.
  destruct (PropSmall.C53_copy Rplus ng nvar (ParamSpec.nlines nset nls uniform) 0 np pm NG) as (M' & E & T & _ & _).
  { left. unfold ParamModel.num_params. rewrite ParamProofs.npl_lines. unfold ParamModel.per_line. lia. }
  replace (nvar + ParamSpec.nlines nset nls uniform * (1 + 3 * ng))%nat with np in T by (unfold ParamModel.num_params; rewrite ParamProofs.npl_lines; unfold ParamModel.per_line; lia).
  destruct (ratio_pt _ T i I) as [SE EQ].
  pose proof (general_K false rcomps (fun a => M' (np + a)%nat) i I SE EQ G) as [EK SH].
  exact (set_exists i I psi_r _ SE _ EK SH OK).
Qed.
(** M holds the parameter vector at src and model_trans at dst.  The sampler's vector is
    not changed. *)
Theorem C75_ratio SS Si L M src dst : lapack_ok dsytrf dsytri dsytri_fails dtrtri dlauum -> (1 <= ng)%nat ->
  (src + np <= dst)%nat \/ (dst + np <= src)%nat -> (forall a, (a < np)%nat -> M (src + a)%nat = pm a) ->
  (forall i, (i < nset)%nat -> ok i /\ set_good ds ng uniform_var pm log_erfc type_tf rcomps i /\ separate ds fd i /\ described psi_r i (SS i) (Si i) (L i)) ->
  exists p, prob_line_variability4_pmap dsytrf dsytri dsytri_fails dtrtri dlauum log_erfc type_tf false nset ds ng uniform uniform_var nq junk fd src dst M = Ok (Some p)
    /\ total_loglike nset ds nq SS Si L p.
Proof.
  intros LP NG AP HM H.
  assert (NP : (nvar + ParamSpec.nlines nset nls uniform * (1 + 3 * ng))%nat = np) by (unfold ParamModel.num_params; rewrite ParamProofs.npl_lines; unfold ParamModel.per_line; lia).
  destruct (PropSmall.C53_copy Rplus ng nvar (ParamSpec.nlines nset nls uniform) src dst M NG) as (M' & E & T & _ & KEEP); [rewrite NP; exact AP|]. rewrite NP in E, T, KEEP.
  assert (T' : PropSmall.transformed Rplus ng nvar (ParamSpec.nlines nset nls uniform) pm (fun a => M' (dst + a)%nat) np).
  { destruct T as [T1 T2]. split.
    - intros l k LL KK. rewrite T1 by assumption.
      assert (A : forall k, (k < ng)%nat -> (PropSmall.amp nvar ng l k < np)%nat) by (intros k' K'; rewrite <- NP; unfold PropSmall.amp; nia).
      rewrite !HM by (apply A; lia). reflexivity.
    - intros a AA N. rewrite T2 by assumption. apply HM, AA. }
  unfold prob_line_variability4_pmap.
  replace (ParamModel.num_params_line nset nls ng uniform) with (ParamSpec.nlines nset nls uniform * (1 + 3 * ng))%nat by (rewrite ParamProofs.npl_lines; unfold ParamModel.per_line; lia).
  rewrite E.
  destruct (all_sets (pmap_set dsytrf dsytri dsytri_fails dtrtri dlauum log_erfc type_tf false nset ds ng uniform uniform_var nq junk fd (fun a => M' (src + a)%nat) (fun a => M' (dst + a)%nat)) SS Si L) as (p & P1 & P2).
  - intros i I. destruct (H i I) as (OK & G & SEP & D). destruct (ratio_pt _ T' i I) as [SE EQ].
    pose proof (general_K false rcomps _ i I SE EQ G) as [EK SH].
    destruct (set_value i I psi_r _ SE _ EK SH OK _ _ _ LP SEP D) as (q & Q1 & Q2). exists q. split; [|exact Q2]. rewrite <- Q1.
    unfold pmap_set, set_prob, prob_set. cbv zeta.
    assert (V : forall c, (c < 3)%nat -> M' (src + (ci i + c))%nat = M' (dst + (ci i + c))%nat).
    { intros c C. rewrite index_var. rewrite (proj1 SE c C). pose proof (var_lt i c I C) as VL.
      assert (VN : (var_slot uniform_var i c < np)%nat) by (unfold ParamModel.num_params; lia). rewrite KEEP by exact VN. apply HM, VN. }
    rewrite !V by lia. reflexivity.
  - exists p. rewrite P1. split; [reflexivity|exact P2].
Qed.
End Proofs.

Print Assumptions C74_described.
Print Assumptions C74_general.
Print Assumptions C74_mixed_described.
Print Assumptions C74_mixed.
Print Assumptions C74_virtual_described.
Print Assumptions C74_virtual.
Print Assumptions C75_described.
Print Assumptions C75_ratio.

(** ** Cases meeting the hypotheses *)
(** Two sets, each with four continuum points (two at the same time) and lines of three
    points not in the order of time; set 0 has two lines, set 1 three.  Linear trends, two
    components per line. *)
Definition case_sets (fall : nat -> arr) (i : nat) : lcset :=
  LcSet 4 PropEnd.case_t PropEnd.case_e 1 (2 + i) (fun _ => 3%nat) PropEnd.case_tl (fun _ => PropEnd.case_e) (fun _ => 1) (fall i).
Definition case_found (mem : arr) (_ : nat) : found := Found mem mem mem mem mem mem 0 1000 mem mem mem mem.
Lemma choose n (P : nat -> (nat -> nat -> R) -> (nat -> nat -> R) -> (nat -> nat -> R) -> Prop) :
  (forall i, (i < n)%nat -> exists a b c, P i a b c) -> exists f g h, forall i, (i < n)%nat -> P i (f i) (g i) (h i).
Proof.
  induction n as [|n IH]; intros H.
  - exists (fun _ _ _ => 0), (fun _ _ _ => 0), (fun _ _ _ => 0). intros; lia.
  - destruct IH as (f & g & h & F); [intros i I; apply H; lia|]. destruct (H n ltac:(lia)) as (a & b & c & E).
    exists (fun i => if Nat.eqb i n then a else f i), (fun i => if Nat.eqb i n then b else g i), (fun i => if Nat.eqb i n then c else h i).
    intros i I. destruct (Nat.eqb_spec i n) as [->|]; [exact E|]. apply F. lia.
Qed.
Lemma err_case x : 0 < (1 / 10) ^ 2 + ((exp x - 1) * 1) ^ 2.
Proof. pose proof (pow2_ge_0 ((exp x - 1) * 1)). lra. Qed.
Lemma lines_case j : enough_times 2 3 (PropEnd.case_tl j) \/ (4 <= j)%nat.
Proof.
  destruct (Nat.le_gt_cases 4 j); [right; assumption|left]. exists (fun i => i). split; [intros; lia|]. intros a b A B E. unfold PropEnd.case_tl in E. apply INR_eq in E. lia.
Qed.
Lemma case_set_ok fall u uv pm i : (i < 2)%nat -> set_ok 2 (case_sets fall) 2 u uv 2 pm i.
Proof.
  intros I. split; [lia|]. split; [cbn; lia|]. split; [cbn; lia|]. split; [|split].
  - cbn [s_ncon s_tcon case_sets]. intros k KK. assert (k = 0 \/ k = 1 \/ k = 2)%nat as [-> | [-> | ->]] by lia; cbn; lra.
  - intros [|c] m C M; cbn [set_error2 case_sets s_fe s_em s_fel s_eml]; unfold PropEnd.case_e; apply err_case.
  - intros [|c] C; cbn [s_nl case_sets] in C.
    + exists (fun i => (3 * i)%nat). unfold set_curves. cbn [narr_of times_of case_sets s_ncon s_tcon]. split; [intros; lia|]. intros a b A B.
      assert (a = 0 \/ a = 1)%nat as [-> | ->] by lia; assert (b = 0 \/ b = 1)%nat as [-> | ->] by lia; cbn; intros; auto; lra.
    + destruct (lines_case c) as [H|H]; [exact H|lia].
Qed.
Lemma case_separate fall mem i : (i < 2)%nat -> separate (case_sets fall) (case_found mem) i.
Proof. intros I. left. assert (i = 0 \/ i = 1)%nat as [-> | ->] by lia; cbn; lia. Qed.
(** top-hats, any parameters, the sets with the variability parameters in common or not *)
Example C74_case fall mem pm uv : exists SS Si L p,
  prob_line_variability4 ref_dsytrf ref_dsytri (fun _ _ _ => false) ref_dtrtri ref_dlauum (fun _ => 0) 1 false 2 (case_sets fall) 2 0 uv 2 (fun _ _ => 0%nat) (case_found mem) pm = Some p
  /\ total_loglike 2 (case_sets fall) 2 SS Si L p.
Proof.
  assert (H : forall i, (i < 2)%nat -> exists SS Si L, set_described 2 (case_sets fall) 2 0 uv 2 pm (fun i j => response tophat 2 (component 2 (case_sets fall) 2 0 uv pm exp i j)) i SS Si L).
  { intros i I. exact (C74_described (fun _ => 0) 1 false 2 (case_sets fall) 2 0 uv 2 (fun _ _ => 0%nat) pm i I (case_set_ok fall 0 uv pm i I) Logic.I). }
  apply choose in H. destruct H as (SS & Si & L & D). exists SS, Si, L.
  apply (C74_general ref_dsytrf ref_dsytri (fun _ _ _ => false) ref_dtrtri ref_dlauum (fun _ => 0) 1 false 2 (case_sets fall) 2 0 uv 2 (fun _ _ => 0%nat) (case_found mem) pm SS Si L lapack_exists).
  intros i I. split; [apply case_set_ok, I|]. split; [exact Logic.I|]. split; [apply case_separate, I|]. exact (D i I).
Qed.
(** the amplitudes of the second components relative to the first *)
Example C75_case fall mem pm M : (forall a, (a < 41)%nat -> M (0 + a)%nat = pm a) -> exists SS Si L p,
  prob_line_variability4_pmap ref_dsytrf ref_dsytri (fun _ _ _ => false) ref_dtrtri ref_dlauum (fun _ => 0) 1 false 2 (case_sets fall) 2 0 false 2 (fun _ _ => 0%nat) (case_found mem) 0 41 M = Ok (Some p)
  /\ total_loglike 2 (case_sets fall) 2 SS Si L p.
Proof.
  intros HM.
  assert (H : forall i, (i < 2)%nat -> exists SS Si L, set_described 2 (case_sets fall) 2 0 false 2 pm (fun i j => response tophat 2 (ratio_component 2 (case_sets fall) 2 0 false pm i j)) i SS Si L).
  { intros i I. refine (C75_described (fun _ => 0) 1 2 (case_sets fall) 2 0 false 2 (fun _ _ => 0%nat) pm i I (case_set_ok fall 0 false pm i I) Logic.I _). lia. }
  apply choose in H. destruct H as (SS & Si & L & D). exists SS, Si, L.
  apply (C75_ratio ref_dsytrf ref_dsytri (fun _ _ _ => false) ref_dtrtri ref_dlauum (fun _ => 0) 1 2 (case_sets fall) 2 0 false 2 (fun _ _ => 0%nat) (case_found mem) pm SS Si L M 0 41 lapack_exists).
  - lia.
  - left. cbn. lia.
  - exact HM.
  - intros i I. split; [apply case_set_ok, I|]. split; [exact Logic.I|]. split; [apply case_separate, I|]. exact (D i I).
Qed.
(** a top-hat and an exponential of width taud, all parameters 0 *)
Example C74_mixed_case log_erfc erfc fall mem : log_erfc_correct log_erfc -> erfc_correct erfc -> exists SS Si L p,
  prob_line_variability_mmap ref_dsytrf ref_dsytri (fun _ _ _ => false) ref_dtrtri ref_dlauum log_erfc erfc ty13 2 (case_sets fall) 2 0 false 2 (fun _ _ => 0%nat) (case_found mem) (fun _ => 0) = Some p
  /\ total_loglike 2 (case_sets fall) 2 SS Si L p.
Proof.
  intros HL HE.
  assert (C : forall i j, (j < s_nl (case_sets fall i))%nat -> clear_scales' (set_taud false (fun _ => 0) i) 2 ty13 (component 2 (case_sets fall) 2 0 false (fun _ => 0) exp i j)) by (intros i j _ k _ _; left; reflexivity).
  assert (H : forall i, (i < 2)%nat -> exists SS Si L, set_described 2 (case_sets fall) 2 0 false 2 (fun _ => 0) (fun i j => mixed_response 2 ty13 (component 2 (case_sets fall) 2 0 false (fun _ => 0) exp i j)) i SS Si L).
  { intros i I. exact (C74_mixed_described log_erfc erfc ty13 2 (case_sets fall) 2 0 false 2 (fun _ _ => 0%nat) (fun _ => 0) i I (case_set_ok fall 0 false _ i I) HL HE digits13 (C i)). }
  apply choose in H. destruct H as (SS & Si & L & D). exists SS, Si, L.
  apply (C74_mixed ref_dsytrf ref_dsytri (fun _ _ _ => false) ref_dtrtri ref_dlauum log_erfc erfc ty13 2 (case_sets fall) 2 0 false 2 (fun _ _ => 0%nat) (case_found mem) (fun _ => 0) SS Si L lapack_exists HL HE digits13).
  intros i I. split; [apply case_set_ok, I|]. split; [exact (C i)|]. split; [apply case_separate, I|]. exact (D i I).
Qed.
(** the lines of the same sets, any parameters *)
Example C74_virtual_case fall mem pm : exists SS Si L p,
  prob_line_variability4_vmap ref_dsytrf ref_dsytri (fun _ _ _ => false) (fun _ => 0) 1 false 2 (case_sets fall) 2 0 false 2 (fun _ _ => 0%nat) (case_found mem) pm = Some p
  /\ lines_total_loglike 2 (case_sets fall) 2 SS Si L p.
Proof.
  assert (OK : forall i, (i < 2)%nat -> lines_only_ok 2 (case_sets fall) 2 0 false 2 pm i).
  { intros i I. destruct (case_set_ok fall 0 false pm i I) as (NQ & _ & _ & _ & E & ET). split; [exact NQ|]. split; [cbn; lia|]. split.
    - intros j m J M. apply (E (S j) m); [lia|exact M].
    - intros j J. apply (ET (S j)). lia. }
  assert (H : forall i, (i < 2)%nat -> exists SS Si L, lines_only_described 2 (case_sets fall) 2 0 false 2 pm (fun i j => response tophat 2 (component 2 (case_sets fall) 2 0 false pm exp i j)) i SS Si L).
  { intros i I. exact (C74_virtual_described (fun _ => 0) 1 false 2 (case_sets fall) 2 0 false 2 (fun _ _ => 0%nat) pm i I (OK i I) Logic.I). }
  apply choose in H. destruct H as (SS & Si & L & D). exists SS, Si, L. destruct lapack_exists as (LP & LC & _).
  apply (C74_virtual ref_dsytrf ref_dsytri (fun _ _ _ => false) (fun _ => 0) 1 false 2 (case_sets fall) 2 0 false 2 (fun _ _ => 0%nat) (case_found mem) pm SS Si L LP LC).
  intros i I. split; [exact (OK i I)|]. split; [exact Logic.I|]. split; [|exact (D i I)]. left. assert (i = 0 \/ i = 1)%nat as [-> | ->] by lia; cbn; lia.
Qed.
