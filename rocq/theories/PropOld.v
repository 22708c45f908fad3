(** C105: the likelihood functions the program keeps beside the ones it calls compute the
    Gaussian likelihood too; where the ones it calls do not.  Real arithmetic, no
    rounding. *)
From Coq Require Import Reals List Arith Lia Lra Psatz ZArith.
From Coquelicot Require Import Coquelicot.
From Verif Require Import CPrelude SemisepModel SemisepProofs SemisepProofs2 MatBridge MatBridge2 SemisepProofs3 PartProofs PartProofs2 KernelCalc KernelSpec KernelModel KernelGauss2 PartModel
  CovModel LikeModel PredModel PropPart PropSemisep GlsAlgebra LikeProofs PropLike PredProofs PropPred.
From Verif Require Import PropCov MixSpec PropKernel MixModel PropMix PsdCore PsdKernel PropPsd EndModel VmapModel SetsModel PropSets ConModel OldModel OldProofs.
From Verif Require EndProofs PropEnd PropVmap VmapProofs ConProofs PropCon LuSpec.
Import ListNotations.
Open Scope R_scope.

(** ** What the statements are about *)
(** A set with any number of lines, none included; no total error zero, every curve with
    at least as many different times as trend coefficients.  The times need not be in
    order. *)
Definition any_set_ok (nset : nat) (ds : nat -> lcset) (ng uniform : nat) (uniform_var : bool) (nq : nat) (pm : arr) (i : nat) : Prop :=
  (1 <= nq)%nat
  /\ (forall c m, (c < 1 + s_nl (ds i))%nat -> (m < set_curves ds i c)%nat -> 0 < set_error2 nset ds ng uniform uniform_var pm i c m)
  /\ (forall c, (c < 1 + s_nl (ds i))%nat -> enough_times nq (set_curves ds i c) (times_of (s_tcon (ds i)) (s_tline (ds i)) c)).
(** Lines alone, one or more of them. *)
Definition any_lines_ok (nset : nat) (ds : nat -> lcset) (ng uniform : nat) (uniform_var : bool) (nq : nat) (pm : arr) (i : nat) : Prop :=
  (1 <= nq)%nat
  /\ (forall j m, (j < s_nl (ds i))%nat -> (m < s_nline (ds i) j)%nat -> 0 < set_error2 nset ds ng uniform uniform_var pm i (S j) m)
  /\ (forall j, (j < s_nl (ds i))%nat -> enough_times nq (s_nline (ds i) j) (s_tline (ds i) j)).
Lemma ok_any nset ds ng u uv nq pm i : set_ok nset ds ng u uv nq pm i -> any_set_ok nset ds ng u uv nq pm i.
Proof. intros (A & _ & _ & _ & B & C). split; [exact A|]. split; [exact B|exact C]. Qed.
Lemma lines_any nset ds ng u uv nq pm i : lines_only_ok nset ds ng u uv nq pm i -> any_lines_ok nset ds ng u uv nq pm i.
Proof. intros (A & _ & B & C). split; [exact A|]. split; [exact B|exact C]. Qed.
(** the LAPACK routines do what they are for *)
Definition lapack_old {IP} (dsytrf : nat -> (nat -> nat -> R) -> (nat -> nat -> R) * IP) dsytri dsytri_fails dgetrf dgetri dgetrs : Prop :=
  dsytr_spec dsytrf dsytri /\ dsytri_code dsytrf dsytri_fails /\ ConProofs.lu_spec dgetrf dgetri /\ lu_solve_spec dgetrf dgetrs.

(** the value is determined *)
Lemma sum_same n f g : (forall k, (k < n)%nat -> f k = g k) -> sumn n f = sumn n g.
Proof. apply sumn_ext. Qed.
Lemma total_unique nset ds nq SS Si L p p' : total_loglike nset ds nq SS Si L p -> total_loglike nset ds nq SS Si L p' -> p = p'.
Proof.
  intros (q & -> & H) (q' & -> & H'). apply sum_same. intros k K. exact (ConProofs.chi_same _ _ _ _ _ _ _ _ (H k K) (H' k K)).
Qed.
Lemma lines_unique nset ds nq SS Si L p p' : lines_total_loglike nset ds nq SS Si L p -> lines_total_loglike nset ds nq SS Si L p' -> p = p'.
Proof.
  intros (q & -> & H) (q' & -> & H'). apply sum_same. intros k K. exact (ConProofs.chi_same _ _ _ _ _ _ _ _ (H k K) (H' k K)).
Qed.

Section Proofs.
Context {IP : Type}.
Variable dsytrf : nat -> (nat -> nat -> R) -> (nat -> nat -> R) * IP.
Variable dsytri : nat -> (nat -> nat -> R) -> IP -> nat -> nat -> R.
Variable dsytri_fails : nat -> (nat -> nat -> R) -> IP -> bool.
Variables dtrtri dlauum : nat -> arr -> arr.
Variable dgetrf : nat -> arr -> arr * (nat -> nat) * bool.
Variable dgetri : nat -> arr -> (nat -> nat) -> arr * bool.
Variable dgetrs : nat -> nat -> arr -> (nat -> nat) -> arr -> arr * bool.
Variable log_erfc : R -> R.
Variable type_tf : nat.
Variable flag : bool.
Variable nset : nat.
Variable ds : nat -> lcset.
Variable ng : nat.
Variable uniform : nat.
Variable uniform_var : bool.
Variable nq : nat.
Variable junk : nat -> nat -> nat.
Variable fd : nat -> found.
Variable pm : arr.
Notation li := (line_index nset ds ng uniform uniform_var junk).
Notation ci := (con_index uniform_var).
Notation taud := (set_taud uniform_var pm).
Notation sigma := (set_sigma uniform_var pm).
Notation err2 := (set_error2 nset ds ng uniform uniform_var pm).
Notation aok := (any_set_ok nset ds ng uniform uniform_var nq pm).
Notation vaok := (any_lines_ok nset ds ng uniform uniform_var nq pm).
Notation described := (set_described nset ds ng uniform uniform_var nq pm).
Notation vdescribed := (lines_only_described nset ds ng uniform uniform_var nq pm).
Notation comps := (component nset ds ng uniform uniform_var pm (decode flag)).
Notation good_set := (set_good ds ng uniform_var pm log_erfc type_tf comps).
Notation psi := (fun i j => response (PropCov.shape_of type_tf) ng (comps i j)).
Notation old1 := (prob_line_variability dgetrf dgetrs log_erfc type_tf flag nset ds ng uniform uniform_var nq junk fd pm).
Notation old2 := (prob_line_variability2 dgetrf dgetri log_erfc type_tf flag nset ds ng uniform uniform_var nq junk fd pm).
Notation old3 := (prob_line_variability3 dsytrf dsytri dsytri_fails log_erfc type_tf flag nset ds ng uniform uniform_var nq junk fd pm).
Notation old3v := (prob_line_variability3_vmap dsytrf dsytri dsytri_fails log_erfc type_tf flag nset ds ng uniform uniform_var nq junk fd pm).
Notation now := (prob_line_variability4 dsytrf dsytri dsytri_fails dtrtri dlauum log_erfc type_tf flag nset ds ng uniform uniform_var nq junk fd pm).
Notation nowv := (prob_line_variability4_vmap dsytrf dsytri dsytri_fails log_erfc type_tf flag nset ds ng uniform uniform_var nq junk fd pm).

Section One.
Variable i : nat.
Hypothesis I : (i < nset)%nat.
Hypothesis OK : aok i.
Hypothesis G : good_set i.
Notation d := (ds i).
Notation K := (pointers log_erfc type_tf flag ci li ng pm i).
Notation sq := (EndProofs.squared_error (s_fe d) (s_em d) (s_fel d) (s_eml d) pm (ci i) (li i)).
Notation SE := (same_self nset ds ng uniform uniform_var pm i).
Lemma kern : EndProofs.exact_kernels (taud i) (s_nl d) (psi i) K /\ forall j, (j < s_nl d)%nat -> of_shapes (psi i j).
Proof. exact (general_K log_erfc type_tf nset ds ng uniform uniform_var junk pm flag (component nset ds ng uniform uniform_var pm (decode flag)) pm i I SE (fun _ _ _ _ => eq_refl) G). Qed.
Lemma any_err c m : (c < length (set_sizes ds i))%nat -> (m < nth c (set_sizes ds i) 0)%nat -> 0 < sq c m.
Proof.
  intros C M. rewrite (err_eq nset ds ng uniform uniform_var junk pm i I pm SE) by exact C. destruct OK as (_ & E & _).
  unfold set_sizes in C, M. rewrite EndProofs.len_sizes in C. apply E; [lia|]. rewrite EndProofs.sizes_seq in M.
  rewrite nth_indep with (d' := set_curves ds i 0%nat) in M by (rewrite map_length, seq_length; lia). unfold set_curves in M |- *. rewrite map_nth, seq_nth in M by lia. exact M.
Qed.
Lemma kern' : EndProofs.exact_kernels (exp (pm (ci i + 2)%nat)) (s_nl d) (psi i) K.
Proof. rewrite (taud_eq nset ds ng uniform uniform_var pm i I pm SE). apply kern. Qed.
Lemma sigma_eq : old_sigma uniform_var pm i = sigma i.
Proof. exact (sig_eq nset ds ng uniform uniform_var pm i I pm SE). Qed.
Lemma sigma_pos : 0 < sigma i.
Proof. apply Rmult_lt_0_compat; [apply exp_pos|apply sqrt_lt_R0, exp_pos]. Qed.
Lemma nall_eq : old_nall ds i = set_points ds i.
Proof. exact (EndProofs.n_points (s_ncon d) (s_nl d) (s_nline d)). Qed.
Lemma tot_eq : psum (set_curves ds i) (1 + s_nl d) = set_points ds i.
Proof. rewrite <- total_psum. exact (EndProofs.n_tot (s_ncon d) (s_nl d) (s_nline d)). Qed.
Lemma set_exists' : exists SS Si L, described psi i SS Si L.
Proof.
  destruct kern as [EK SH].
  pose proof (EndProofs.filled_cov (s_ncon d) (s_tcon d) (s_fe d) (s_em d) (s_nl d) (s_nline d) (s_tline d) (s_fel d) (s_eml d) pm (ci i) (li i) (psi i) _
    (EndProofs.array_filled (s_ncon d) (s_tcon d) (s_fe d) (s_em d) (s_nl d) (s_nline d) (s_tline d) (s_fel d) (s_eml d) pm (ci i) (li i) (psi i) K kern' pm pm pm pm 0)) as D.
  destruct (EndProofs.inverse_exists (s_ncon d) (s_tcon d) (s_fe d) (s_em d) (s_nl d) (s_nline d) (s_tline d) (s_fel d) (s_eml d) pm (ci i) (li i) (psi i) SH any_err _ D) as [Si IV].
  eexists. exists Si. eexists. split; [exact (cov_from nset ds ng uniform uniform_var junk pm i I psi pm SE _ D)|]. split; [exact IV|].
  exact (C30_trend_matrix nq (s_nl d) (s_ncon d) (s_tcon d) (s_nline d) (s_tline d) pm (proj1 OK)).
Qed.
(** what the three functions need of the matrices *)
Lemma parts SS Si L : described psi i SS Si L ->
  let n := set_points ds i in let m := (nq * (1 + s_nl d))%nat in
  spd n SS /\ inv_of n SS Si
  /\ (forall a b, (a < n)%nat -> (b < n)%nat -> old_PC log_erfc type_tf flag nset ds ng uniform uniform_var junk fd pm i (a * n + b)%nat = / (sigma i * sigma i) * SS a b)
  /\ (forall a b, (a < n)%nat -> (b < m)%nat -> old_L ds nq fd i (a * m + b)%nat = L a b)
  /\ (forall v, (forall a, (a < n)%nat -> mv m L v a = 0) -> forall j, (j < m)%nat -> v j = 0).
Proof.
  intros (D & IV & TD) n m. destruct kern as [EK SH]. destruct OK as (NQ & _ & ET).
  pose proof (cov_to nset ds ng uniform uniform_var junk pm i I psi pm SE _ D) as D'.
  destruct (EndProofs.pd (s_ncon d) (s_tcon d) (s_fe d) (s_em d) (s_nl d) (s_nline d) (s_tline d) (s_fel d) (s_eml d) pm (ci i) (li i) (psi i) SH any_err _ D') as [SY PD].
  split; [apply spd_of; assumption|]. split; [intros a b A B; destruct (IV a b A B); auto|]. split; [|split].
  - intros a b A B.
    pose proof (EndProofs.array_filled (s_ncon d) (s_tcon d) (s_fe d) (s_em d) (s_nl d) (s_nline d) (s_tline d) (s_fel d) (s_eml d) pm (ci i) (li i) (psi i) K kern'
      (f_lc (fd i)) (f_ll (fd i)) (f_PS (fd i)) (f_mem (fd i)) (f_A (fd i))) as F.
    pose proof (EndProofs.filled_stored (s_ncon d) (s_tcon d) (s_fe d) (s_em d) (s_nl d) (s_nline d) (s_tline d) (s_fel d) (s_eml d) pm (ci i) (li i) (psi i) _ SS (fun _ => 0) 0%nat F D' a b A B) as E.
    assert (PA : forall len P x, (x < len)%nat -> EndModel.put (fun _ => 0) 0 len P x = P x) by (intros len P x X; exact (EndProofs.put_at (fun _ => 0) 0 len P x X)).
    cbn [Nat.add] in E. unfold n, set_points, set_sizes in *. rewrite PA in E by (rewrite EndProofs.n_points; nia).
    unfold old_PC. rewrite E. rewrite (sig_eq nset ds ng uniform uniform_var pm i I pm SE). unfold Rdiv. ring.
  - intros a b A B. destruct (curve_at (set_curves ds i) (1 + s_nl d) a) as (c & k & C & KK & E); [rewrite tot_eq; exact A|].
    subst a. unfold old_L, set_curves. rewrite trend_matrix_ok by (try assumption; lia). rewrite <- total_psum. symmetry. apply (design_entry nq (1 + s_nl d) _ _ L TD); auto.
  - intros v. unfold n. rewrite <- tot_eq. apply (design_inj nq (1 + s_nl d) (set_curves ds i) (times_of (s_tcon d) (s_tline d))); [|exact ET].
    intros c k j C KK J. rewrite <- total_psum. apply (design_entry nq (1 + s_nl d)); auto.
Qed.
End One.

Section OneV.
Variable i : nat.
Hypothesis I : (i < nset)%nat.
Hypothesis OK : vaok i.
Hypothesis G : good_set i.
Notation d := (ds i).
Lemma vlines_ok : PropVmap.lines_ok (s_nl d) (s_nline d) (s_tline d) (s_fel d) (s_eml d) nq pm li i.
Proof.
  destruct OK as (NQ & E & ET). split; [exact NQ|]. split; [|exact ET]. intros j m J M.
  rewrite (v_err nset ds ng uniform uniform_var junk pm i I) by lia. apply E; assumption.
Qed.
Notation vg := (v_good log_erfc type_tf flag nset ds ng uniform uniform_var junk pm i I G).
Notation vto := (v_to type_tf flag nset ds ng uniform uniform_var nq junk pm i I).
Notation vfrom := (v_from type_tf flag nset ds ng uniform uniform_var nq junk pm i I).
Lemma vset_exists : exists SS Si L, vdescribed psi i SS Si L.
Proof.
  destruct (PropVmap.C71_described (s_nl d) (s_nline d) (s_tline d) (s_fel d) (s_eml d) nq pm ci li i pm pm pm pm 0%nat pm log_erfc type_tf flag ng vg vlines_ok) as (SS & Si & L & D).
  exists SS, Si, L. apply vfrom; assumption.
Qed.
Lemma vset_value SS Si L : dsytr_spec dsytrf dsytri -> dsytri_code dsytrf dsytri_fails -> vdescribed psi i SS Si L ->
  exists p, old_end3 dsytrf dsytri dsytri_fails (oldv_nall ds i) (nq * s_nl d) (oldv_PC log_erfc type_tf flag nset ds ng uniform uniform_var junk fd pm i) (oldv_L ds nq fd i) (s_fall d) (exp (pm (ci i + 1)%nat)) = Some p
    /\ marginal_loglike (lines_points ds i) (nq * s_nl d) SS Si L (s_fall d) p.
Proof.
  intros LP LC D. apply vto in D. destruct D as (D & IV & TD).
  destruct (PropVmap.lines_pd (s_nl d) (s_nline d) (s_tline d) (s_fel d) (s_eml d) nq pm ci li i type_tf flag ng SS vlines_ok D) as [SY PD].
  unfold oldv_nall. rewrite PropVmap.points_vmap.
  apply (old_end3_ok (total (s_nline d) (s_nl d)) (nq * s_nl d) SS Si L); auto.
  - apply exp_pos.
  - apply spd_of; assumption.
  - intros a b A B. destruct (IV a b A B); auto.
  - intros a b A B. unfold oldv_PC.
    rewrite (PropVmap.held (s_nl d) (s_nline d) (s_tline d) (s_fel d) (s_eml d) pm ci li i type_tf flag ng _ SS
      (PropVmap.array_v (s_nl d) (s_nline d) (s_tline d) (s_fel d) (s_eml d) pm ci li i (f_ll (fd i)) (f_PS (fd i)) (f_mem (fd i)) (f_A (fd i)) log_erfc type_tf flag ng vg) D a b A B).
    unfold Rdiv. ring.
  - intros a b A B. exact (PropVmap.lines_L (s_nl d) (s_nline d) (s_tline d) (s_fel d) (s_eml d) nq pm li i (f_L (fd i)) L vlines_ok TD a b A B).
  - exact (PropVmap.lines_inj (s_nl d) (s_nline d) (s_tline d) (s_fel d) (s_eml d) nq pm li i L vlines_ok TD).
Qed.
End OneV.

(** ** C105 *)
(** Covariance matrix, inverse and trends exist at every parameter vector. *)
Theorem C105_described i : (i < nset)%nat -> aok i -> good_set i -> exists SS Si L, described psi i SS Si L.
Proof. apply set_exists'. Qed.
Lemma old_all (P : nat -> R -> Prop) f : (forall i, (i < nset)%nat -> exists p, f i = Ok (Some p) /\ P i p) ->
  exists p, old_sets (map f (seq 0 nset)) 0 = Ok (Some p) /\ exists q, p = sumn nset q /\ forall i, (i < nset)%nat -> P i (q i).
Proof.
  intros H. assert (Q : exists q, forall i, (i < nset)%nat -> f i = Ok (Some (q i)) /\ P i (q i)).
  { exists (fun i => match f i with Ok (Some p) => p | _ => 0 end). intros i I. destruct (H i I) as (p & E & M). rewrite E. auto. }
  destruct Q as [q Q]. exists (sumn nset q). split; [apply old_sum; intros k KK; apply Q, KK|]. exists q. split; [reflexivity|]. intros i I. apply Q, I.
Qed.
(** The first three versions return one and the same number, the Gaussian likelihood of
    all sets with the trends integrated out.  Any number of lines, the times in any
    order, any places of the matrices in memory. *)
Theorem C105_general SS Si L : lapack_old dsytrf dsytri dsytri_fails dgetrf dgetri dgetrs ->
  (forall i, (i < nset)%nat -> aok i /\ good_set i /\ described psi i (SS i) (Si i) (L i)) ->
  exists p, old1 = Ok (Some p) /\ old2 = Ok (Some p) /\ old3 = Some p /\ total_loglike nset ds nq SS Si L p.
Proof.
  intros (LP & LC & LU & LS) H.
  assert (P : forall i, (i < nset)%nat -> let n := old_nall ds i in let m := old_nqall ds nq i in
    let C := old_PC log_erfc type_tf flag nset ds ng uniform uniform_var junk fd pm i in let Lr := old_L ds nq fd i in
    let Q := marginal_loglike (set_points ds i) (nq * (1 + s_nl (ds i))) (SS i) (Si i) (L i) (s_fall (ds i)) in
    (exists p, old_end1 dgetrf dgetrs n m C Lr (s_fall (ds i)) (old_sigma uniform_var pm i) = Ok (Some p) /\ Q p)
    /\ (exists p, old_end2 dgetrf dgetri n m C Lr (s_fall (ds i)) (old_sigma uniform_var pm i) = Ok (Some p) /\ Q p)
    /\ (exists p, old_end3 dsytrf dsytri dsytri_fails n m C Lr (s_fall (ds i)) (old_sigma uniform_var pm i) = Some p /\ Q p)).
  { intros i I. destruct (H i I) as (OK & G & D). destruct (parts i I OK G _ _ _ D) as (H1 & H2 & H3 & H4 & H5). cbv zeta.
    rewrite (nall_eq i). rewrite sigma_eq by exact I. unfold old_nqall. pose proof (sigma_pos i) as SP.
    split; [|split]; [eapply old_end1_ok|eapply old_end2_ok|eapply old_end3_ok]; eauto. }
  destruct (old_all _ _ (fun i I => proj1 (P i I))) as (p1 & E1 & T1).
  destruct (old_all _ _ (fun i I => proj1 (proj2 (P i I)))) as (p2 & E2 & T2).
  destruct (all_of nset _ _ (fun i I => proj2 (proj2 (P i I)))) as (p3 & E3 & T3).
  pose proof (total_unique nset ds nq SS Si L p1 p3 T1 T3). pose proof (total_unique nset ds nq SS Si L p2 p3 T2 T3). subst p1 p2.
  exists p3. split; [exact E1|]. split; [exact E2|]. split; [exact E3|exact T3].
Qed.
(** It is the number the version in use returns, where that one is right (C74). *)
Theorem C105_same : lapack_old dsytrf dsytri dsytri_fails dgetrf dgetri dgetrs -> lapack_ok dsytrf dsytri dsytri_fails dtrtri dlauum ->
  (forall i, (i < nset)%nat -> set_ok nset ds ng uniform uniform_var nq pm i /\ good_set i /\ separate ds fd i) ->
  exists p, now = Some p /\ old1 = Ok (Some p) /\ old2 = Ok (Some p) /\ old3 = Some p.
Proof.
  intros LO LK H.
  assert (X : forall i, (i < nset)%nat -> exists SS Si L, described psi i SS Si L).
  { intros i I. destruct (H i I) as (OK & G & _). apply C105_described; auto. apply ok_any, OK. }
  apply choose in X. destruct X as (SS & Si & L & D).
  destruct (C105_general SS Si L LO) as (p & E1 & E2 & E3 & T).
  { intros i I. destruct (H i I) as (OK & G & _). split; [apply ok_any, OK|]. split; [exact G|exact (D i I)]. }
  destruct (C74_general dsytrf dsytri dsytri_fails dtrtri dlauum log_erfc type_tf flag nset ds ng uniform uniform_var nq junk fd pm SS Si L LK) as (p' & E' & T').
  { intros i I. destruct (H i I) as (OK & G & AP). split; [exact OK|]. split; [exact G|]. split; [exact AP|exact (D i I)]. }
  rewrite (total_unique nset ds nq SS Si L p p' T T') in *. exists p'. auto.
Qed.
(** For lines alone the version not in use is right with one line too. *)
Theorem C105_virtual_described i : (i < nset)%nat -> vaok i -> good_set i -> exists SS Si L, vdescribed psi i SS Si L.
Proof. apply vset_exists. Qed.
Theorem C105_virtual SS Si L : dsytr_spec dsytrf dsytri -> dsytri_code dsytrf dsytri_fails ->
  (forall i, (i < nset)%nat -> vaok i /\ good_set i /\ vdescribed psi i (SS i) (Si i) (L i)) ->
  exists p, old3v = Some p /\ lines_total_loglike nset ds nq SS Si L p.
Proof.
  intros LP LC H. apply (all_of nset (fun i p => marginal_loglike (lines_points ds i) (nq * s_nl (ds i)) (SS i) (Si i) (L i) (s_fall (ds i)) p)).
  intros i I. destruct (H i I) as (OK & G & D). apply vset_value; assumption.
Qed.
(** With at least two lines the version in use returns the same number. *)
Theorem C105_virtual_same : dsytr_spec dsytrf dsytri -> dsytri_code dsytrf dsytri_fails ->
  (forall i, (i < nset)%nat -> lines_only_ok nset ds ng uniform uniform_var nq pm i /\ good_set i /\ lines_separate ds fd i) ->
  exists p, nowv = Some p /\ old3v = Some p.
Proof.
  intros LP LC H.
  assert (X : forall i, (i < nset)%nat -> exists SS Si L, vdescribed psi i SS Si L).
  { intros i I. destruct (H i I) as (OK & G & _). apply C105_virtual_described; auto. apply lines_any, OK. }
  apply choose in X. destruct X as (SS & Si & L & D).
  destruct (C105_virtual SS Si L LP LC) as (p & E & T).
  { intros i I. destruct (H i I) as (OK & G & _). split; [apply lines_any, OK|]. split; [exact G|exact (D i I)]. }
  destruct (C74_virtual dsytrf dsytri dsytri_fails log_erfc type_tf flag nset ds ng uniform uniform_var nq junk fd pm SS Si L LP LC) as (p' & E' & T').
  { intros i I. destruct (H i I) as (OK & G & AP). split; [exact OK|]. split; [exact G|]. split; [exact AP|exact (D i I)]. }
  exists p'. split; [exact E'|]. rewrite E. f_equal. exact (lines_unique nset ds nq SS Si L p p' T T').
Qed.
End Proofs.
Print Assumptions C105_described.
Print Assumptions C105_general.
Print Assumptions C105_same.
Print Assumptions C105_virtual_described.
Print Assumptions C105_virtual.
Print Assumptions C105_virtual_same.

(** ** Where the version in use is not right *)
(** One set of one continuum point at time 0 with error 1 and no line; constant trend, all
    parameters 0, so that sigma = taud = 1. *)
Definition bare (fall : arr) (_ : nat) : lcset := LcSet 1 (fun _ => 0) (fun _ => 1) 1 0 (fun _ => 0%nat) (fun _ _ => 0) (fun _ _ => 0) (fun _ => 0) fall.
Definition bare_found (mem : arr) (_ : nat) : found := Found mem mem mem mem mem mem 0 1 mem mem mem mem.
Lemma bare_ok fall : any_set_ok 1 (bare fall) 1 0 false 1 (fun _ => 0) 0.
Proof.
  split; [lia|]. split.
  - intros [|c] m C M; cbn [s_nl bare] in C; [|lia]. cbn [set_error2 bare s_fe s_em]. rewrite exp_0. lra.
  - intros [|c] C; cbn [s_nl bare] in C; [|lia]. exists (fun i => i). unfold set_curves. cbn [narr_of bare s_ncon]. split; [intros; lia|]. intros a b X Y _. lia.
Qed.
Notation bare_described fall := (set_described 1 (bare fall) 1 0 false 1 (fun _ => 0) (fun i j => response tophat 1 (component 1 (bare fall) 1 0 false (fun _ => 0) exp i j)) 0).
(** The partitioned inversion never stores the inverse when there is no line: the matrix
    itself is taken for it.  The earlier versions are right. *)
Theorem C105_no_lines_refuted : forall IP (dsytrf : nat -> (nat -> nat -> R) -> (nat -> nat -> R) * IP) dsytri dsytri_fails dtrtri dlauum dgetrf dgetri dgetrs log_erfc fall mem,
  lapack_old dsytrf dsytri dsytri_fails dgetrf dgetri dgetrs -> lapack_ok dsytrf dsytri dsytri_fails dtrtri dlauum ->
  exists SS Si L p, any_set_ok 1 (bare fall) 1 0 false 1 (fun _ => 0) 0 /\ bare_described fall SS Si L /\
    prob_line_variability4 dsytrf dsytri dsytri_fails dtrtri dlauum log_erfc 1 false 1 (bare fall) 1 0 false 1 (fun _ _ => 0%nat) (bare_found mem) (fun _ => 0) = Some p /\ p = - ln 2 /\
    prob_line_variability dgetrf dgetrs log_erfc 1 false 1 (bare fall) 1 0 false 1 (fun _ _ => 0%nat) (bare_found mem) (fun _ => 0) = Ok (Some 0) /\
    prob_line_variability2 dgetrf dgetri log_erfc 1 false 1 (bare fall) 1 0 false 1 (fun _ _ => 0%nat) (bare_found mem) (fun _ => 0) = Ok (Some 0) /\
    prob_line_variability3 dsytrf dsytri dsytri_fails log_erfc 1 false 1 (bare fall) 1 0 false 1 (fun _ _ => 0%nat) (bare_found mem) (fun _ => 0) = Some 0 /\
    (forall p', marginal_loglike 1 1 SS Si L fall p' <-> p' = 0).
Proof.
  intros IP trf tri fails trtri lauum getrf getri getrs log_erfc fall mem LO LK.
  pose proof (C105_described log_erfc 1 false 1 (bare fall) 1 0 false 1 (fun _ _ => 0%nat) (fun _ => 0) 0 ltac:(lia) (bare_ok fall) Logic.I) as (SS & Si & L & D).
  destruct (parts log_erfc 1 false 1 (bare fall) 1 0 false 1 (fun _ _ => 0%nat) (bare_found mem) (fun _ => 0) 0 ltac:(lia) (bare_ok fall) Logic.I SS Si L D) as (SPD & HI & HP & HL & INJ).
  change (set_points (bare fall) 0) with 1%nat in *. change (1 * (1 + s_nl (bare fall 0)))%nat with 1%nat in *.
  assert (SG : set_sigma false (fun _ => 0) 0 = 1) by (unfold set_sigma, set_taud; rewrite exp_0, sqrt_1; ring).
  assert (S2 : SS 0%nat 0%nat = 2).
  { pose proof (cov_to 1 (bare fall) 1 0 false (fun _ _ => 0%nat) (fun _ => 0) 0 ltac:(lia) _ (fun _ => 0) (same_self 1 (bare fall) 1 0 false (fun _ => 0) 0) _ (proj1 D)) as D'.
    rewrite (EndProofs.con_block 1 (fun _ => 0) (fun _ => 1) 1 0 (fun _ => 0%nat) (fun _ _ => 0) (fun _ _ => 0) (fun _ => 0) (fun _ => 0) _ _ _ _ 0%nat 0%nat D') by lia.
    unfold covariance. cbn [Nat.eqb]. rewrite Rminus_diag_eq, Rabs_R0 by reflexivity. unfold Rdiv. rewrite ?Ropp_0, ?Rmult_0_l, ?exp_0. rewrite sqrt_1, Ropp_0, exp_0. ring. }
  assert (P2 : old_PC log_erfc 1 false 1 (bare fall) 1 0 false (fun _ _ => 0%nat) (bare_found mem) (fun _ => 0) 0 0%nat = 2).
  { etransitivity; [exact (HP 0%nat 0%nat ltac:(lia) ltac:(lia))|]. rewrite SG, S2. field. }
  assert (LL : L 0%nat 0%nat = 1) by (rewrite <- HL by lia; reflexivity).
  destruct (C105_general trf tri fails getrf getri getrs log_erfc 1 false 1 (bare fall) 1 0 false 1 (fun _ _ => 0%nat) (bare_found mem) (fun _ => 0) (fun _ => SS) (fun _ => Si) (fun _ => L) LO) as (p & E1 & E2 & E3 & T).
  { intros i I. assert (i = 0)%nat by lia. subst. split; [apply bare_ok|]. split; [exact Logic.I|exact D]. }
  assert (UN : forall p', marginal_loglike 1 1 SS Si L fall p' -> p' = 0).
  { intros p'. apply PropVmap.one_marginal; [lra|exact (proj1 (proj2 D))|exact LL]. }
  destruct T as (q & -> & M). specialize (M 0%nat ltac:(lia)). change (marginal_loglike 1 1 SS Si L fall (q 0%nat)) in M. pose proof (UN _ M) as Q0.
  cbn [sumn] in *. rewrite Q0, Rplus_0_l in *.
  exists SS, Si, L, (- ln 2). split; [apply bare_ok|]. split; [exact D|]. split; [|split; [reflexivity|]; split; [exact E1|]; split; [exact E2|]; split; [exact E3|]; intros p'; split; [apply UN|intros ->; exact M]].
  unfold prob_line_variability4. cbn [seq map prob_sets].
  match goal with |- match ?x with _ => _ end = _ => assert (V : x = Some (- ln 2)); [|rewrite V, Rplus_0_l; reflexivity] end.
  unfold set_prob, prob_set, prob_line_set. cbn [bare s_ncon s_tcon s_fe s_em s_nl s_nline s_tline s_fel s_eml s_fall bare_found f_lc f_ll f_PS f_mem f_A f_wk f_L f_W f_D f_phi].
  match goal with |- context [put mem 0 _ ?P] => change P with (old_PC log_erfc 1 false 1 (bare fall) 1 0 false (fun _ _ => 0%nat) (bare_found mem) (fun _ => 0) 0) end.
  set (PC := old_PC _ _ _ _ _ _ _ _ _ _ _ _) in *. change (line_start 1 (fun _ : nat => 0%nat) 0) with 1%nat. change (all_points 1 0 (fun _ : nat => 0%nat)) with 1%nat.
  unfold inverse_semiseparable_iter. cbn [narr_of].
  match goal with |- context [inverse_semiseparable ?a ?b ?c ?d ?e ?f ?g ?h ?i ?j ?k ?l] =>
    assert (LD : snd (fst (inverse_semiseparable a b c d e f g h i j k l)) = ln 2); [|destruct (inverse_semiseparable a b c d e f g h i j k l) as [[B ld] [[W DD] phi]]; cbn [fst snd] in LD; subst ld] end.
  { unfold inverse_semiseparable, compute_semiseparable_drw. cbn [Nat.sub for_ seq fold_left fst snd]. unfold upd. cbn [Nat.eqb]. rewrite exp_0, sqrt_1, Rplus_0_l. f_equal. field. }
  cbn [for_ seq fold_left Nat.add].
  set (m2 := store _ _ _ _ _).
  assert (M3 : m2 0%nat = 2) by exact P2.
  change (1 * (1 + 0))%nat with 1%nat.
  assert (SPC : spd 1 (fun _ _ : nat => 2)).
  { split; [intros i j _ _; reflexivity|]. intros x (i & I & X). assert (i = 0)%nat by lia. subst. unfold quad. cbn [sumn]. assert (0 < x 0%nat * x 0%nat) by (apply Rsqr_pos_lt, X). nra. }
  assert (IC : inv_of 1 (fun _ _ : nat => 2) (fun _ _ => / 2)).
  { intros i j I J. assert (i = 0)%nat by lia. assert (j = 0)%nat by lia. subst. cbn [sumn]. rewrite Rplus_0_l, Rinv_r by lra. reflexivity. }
  assert (IC' : inv_of 1 (fun _ _ : nat => / 2) (fun _ _ => 2)).
  { intros i j I J. assert (i = 0)%nat by lia. assert (j = 0)%nat by lia. subst. cbn [sumn]. rewrite Rplus_0_l, Rinv_l by lra. reflexivity. }
  pose proof (spd_inv _ _ _ SPC IC) as SPI. destruct LO as (LP & LC & _).
  destruct (line_prob_end_ok trf tri fails LP LC 1 1 (fun x => m2 x) (trend_matrix 1 0 1 (fun _ => 0) (fun _ => 0%nat) (fun _ _ => 0) mem) fall (- ln 2) (exp 0 * sqrt (exp 0)) (fun _ _ => 2) L (fun _ _ => / 2)) as (r & NM & EQ); auto.
  - rewrite exp_0, sqrt_1. lra.
  - intros i j I J. assert (i = 0)%nat by lia. assert (j = 0)%nat by lia. subst. cbn [Nat.mul Nat.add]. rewrite M3, exp_0, sqrt_1. ring.
  - rewrite MatBridge2.detn1, exp_0, sqrt_1. rewrite <- ln_Rinv by lra. f_equal. field.
  - eapply eq_trans; [apply (PropVmap.prob_end_shift _ _ _ _ _ _ _ _ _ (ln 2) _ _ EQ)|]. f_equal.
    assert (E0 : marginal_loglike 1 1 (fun _ _ => / 2) (fun _ _ => 2) L fall (- (1 / 2) * chi2 1 (fun _ _ => 2) (resid 1 L fall r) - 1 / 2 * ln (detn 1 (fun _ _ => / 2)) - 1 / 2 * ln (detn 1 (gram 1 (fun _ _ => 2) L)))).
    { apply (marginal_link 1 1 (fun _ _ => / 2) (fun _ _ => 2) L fall r); auto. }
    apply PropVmap.one_marginal in E0; [rewrite E0; field|lra|exact (inverse_both _ _ _ IC')|exact LL].
Qed.
Print Assumptions C105_no_lines_refuted.

(** The set with one line of one point of C71: the version in use is wrong, the other
    one is right. *)
Definition lone (fall : arr) (_ : nat) : lcset := LcSet 0 (fun _ => 0) (fun _ => 0) 0 1 (fun _ => 1%nat) (fun _ _ => 0) (fun _ _ => 1) (fun _ => 1) fall.
Lemma lone_ok fall : any_lines_ok 1 (lone fall) 1 0 false 1 (fun _ => 0) 0.
Proof.
  split; [lia|]. split.
  - intros j m J M. cbn [set_error2 lone s_fel s_eml]. rewrite exp_0. lra.
  - intros j J. exists (fun i => i). cbn [lone s_nline]. split; [intros; lia|]. intros a b X Y _. lia.
Qed.
Theorem C105_one_line_refuted : forall IP (dsytrf : nat -> (nat -> nat -> R) -> (nat -> nat -> R) * IP) dsytri dsytri_fails fall mem,
  dsytr_spec dsytrf dsytri -> dsytri_code dsytrf dsytri_fails ->
  exists p p', any_lines_ok 1 (lone fall) 1 0 false 1 (fun _ => 0) 0 /\
    prob_line_variability4_vmap dsytrf dsytri dsytri_fails (fun x => x) 1 false 1 (lone fall) 1 0 false 1 (fun _ _ => 0%nat) (bare_found mem) (fun _ => 0) = Some p /\ p < 0 /\
    prob_line_variability3_vmap dsytrf dsytri dsytri_fails (fun x => x) 1 false 1 (lone fall) 1 0 false 1 (fun _ _ => 0%nat) (bare_found mem) (fun _ => 0) = Some p' /\ p' = 0.
Proof.
  intros IP trf tri fails fall mem LP LC.
  destruct (PropVmap.C71_one_line_refuted IP trf tri fails fall mem LP LC) as (SS & Si & L & p & OK & D & E & NEG & U).
  exists p, 0. split; [apply lone_ok|]. split; [|split; [exact NEG|split; [|reflexivity]]].
  - unfold prob_line_variability4_vmap. cbn [seq map prob_sets].
    match goal with |- match ?x with _ => _ end = _ => assert (V : x = Some p); [exact E|rewrite V, Rplus_0_l; reflexivity] end.
  - destruct (C105_virtual_described (fun x => x) 1 false 1 (lone fall) 1 0 false 1 (fun _ _ => 0%nat) (fun _ => 0) 0 ltac:(lia) (lone_ok fall) Logic.I) as (SS' & Si' & L' & D').
    destruct (C105_virtual trf tri fails (fun x => x) 1 false 1 (lone fall) 1 0 false 1 (fun _ _ => 0%nat) (bare_found mem) (fun _ => 0) (fun _ => SS') (fun _ => Si') (fun _ => L') LP LC) as (p' & E' & T).
    { intros i I. assert (i = 0)%nat by lia. subst. split; [apply lone_ok|]. split; [exact Logic.I|exact D']. }
    rewrite E'. f_equal. destruct T as (q & -> & M). specialize (M 0%nat ltac:(lia)). change (marginal_loglike 1 1 SS' Si' L' fall (q 0%nat)) in M. cbn [sumn]. rewrite Rplus_0_l.
    pose proof (v_to 1 false 1 (lone fall) 1 0 false 1 (fun _ _ => 0%nat) (fun _ => 0) 0 ltac:(lia) SS' Si' L' D') as (DC & IV & TD).
    pose proof (PropVmap.lines_pd 1 (fun _ => 1%nat) (fun _ _ => 0) (fun _ _ => 1) (fun _ => 1) 1 (fun _ => 0) (con_index false) (line_index 1 (lone fall) 1 0 false (fun _ _ => 0%nat)) 0 1 false 1 SS'
      (vlines_ok 1 (lone fall) 1 0 false 1 (fun _ _ => 0%nat) (fun _ => 0) 0 ltac:(lia) (lone_ok fall)) DC) as [SY PD].
    apply (PropVmap.one_marginal SS' Si' L' fall); [| |  |exact M].
    + specialize (PD (fun _ => 1) (ex_intro _ 0%nat (conj (le_n 1) R1_neq_R0))). change (total (fun _ : nat => 1%nat) 1) with 1%nat in PD. cbn [sumn] in PD. rewrite !Rplus_0_l, Rmult_1_l, Rmult_1_r in PD. exact PD.
    + exact IV.
    + pose proof (design_entry 1 1 (fun _ => 1%nat) (fun _ _ => 0) L' TD 0%nat 0%nat 0%nat (le_n 1) (le_n 1) (le_n 1)) as H. exact H.
Qed.
Print Assumptions C105_one_line_refuted.

(** ** Cases meeting the hypotheses *)
(** LU factors and solutions that meet what is asked of LAPACK *)
Definition some_solve (m n : nat) (f : arr) (ip : nat -> nat) (b : arr) : arr * bool :=
  let '(g, bad) := PropCon.some_inv m f ip in
  ((fun x => sumn m (fun l => g (x / n * m + l)%nat * b (l * n + x mod n)%nat)), bad).
Example lu_solve_met : lu_solve_spec PropCon.some_lu some_solve.
Proof.
  intros m n a G Gi b ST IV. destruct (PropCon.lu_spec_met m a G Gi ST IV) as (f & ip & g & E1 & _ & E2 & SG).
  exists f, ip. unfold some_solve. rewrite E2. eexists. split; [exact E1|]. split; [reflexivity|].
  intros i j I J. cbv beta. replace ((i * n + j) / n)%nat with i by (rewrite Nat.div_add_l, Nat.div_small by lia; lia).
  replace ((i * n + j) mod n)%nat with j by (rewrite Nat.add_comm, Nat.mod_add, Nat.mod_small by lia; reflexivity).
  apply sumn_ext. intros l Hl. rewrite <- (SG i l I Hl). reflexivity.
Qed.
Example lapack_old_met : lapack_old ref_dsytrf ref_dsytri (fun _ _ _ => false) PropCon.some_lu PropCon.some_inv some_solve.
Proof. destruct lapack_exists as (A & B & _). split; [exact A|]. split; [exact B|]. split; [exact PropCon.lu_spec_met|exact lu_solve_met]. Qed.
(** The two sets of C74, top-hats, any parameters: the four versions agree. *)
Example C105_case fall mem pm uv : exists p,
  prob_line_variability4 ref_dsytrf ref_dsytri (fun _ _ _ => false) ref_dtrtri ref_dlauum (fun _ => 0) 1 false 2 (case_sets fall) 2 0 uv 2 (fun _ _ => 0%nat) (case_found mem) pm = Some p
  /\ prob_line_variability PropCon.some_lu some_solve (fun _ => 0) 1 false 2 (case_sets fall) 2 0 uv 2 (fun _ _ => 0%nat) (case_found mem) pm = Ok (Some p)
  /\ prob_line_variability2 PropCon.some_lu PropCon.some_inv (fun _ => 0) 1 false 2 (case_sets fall) 2 0 uv 2 (fun _ _ => 0%nat) (case_found mem) pm = Ok (Some p)
  /\ prob_line_variability3 ref_dsytrf ref_dsytri (fun _ _ _ => false) (fun _ => 0) 1 false 2 (case_sets fall) 2 0 uv 2 (fun _ _ => 0%nat) (case_found mem) pm = Some p.
Proof.
  apply (C105_same ref_dsytrf ref_dsytri (fun _ _ _ => false) ref_dtrtri ref_dlauum PropCon.some_lu PropCon.some_inv some_solve (fun _ => 0) 1 false 2 (case_sets fall) 2 0 uv 2 (fun _ _ => 0%nat) (case_found mem) pm lapack_old_met lapack_exists).
  intros i I. split; [apply case_set_ok, I|]. split; [exact Logic.I|apply case_separate, I].
Qed.
(** the lines alone, and one line alone *)
Example C105_virtual_case fall mem pm : exists p,
  prob_line_variability4_vmap ref_dsytrf ref_dsytri (fun _ _ _ => false) (fun _ => 0) 1 false 2 (case_sets fall) 2 0 false 2 (fun _ _ => 0%nat) (case_found mem) pm = Some p
  /\ prob_line_variability3_vmap ref_dsytrf ref_dsytri (fun _ _ _ => false) (fun _ => 0) 1 false 2 (case_sets fall) 2 0 false 2 (fun _ _ => 0%nat) (case_found mem) pm = Some p.
Proof.
  destruct lapack_exists as (LP & LC & _).
  apply (C105_virtual_same ref_dsytrf ref_dsytri (fun _ _ _ => false) (fun _ => 0) 1 false 2 (case_sets fall) 2 0 false 2 (fun _ _ => 0%nat) (case_found mem) pm LP LC).
  intros i I. split; [|split; [exact Logic.I|]].
  - destruct (case_set_ok fall 0 false pm i I) as (NQ & _ & _ & _ & E & ET). split; [exact NQ|]. split; [cbn; lia|]. split.
    + intros j m J M. apply (E (S j) m); [lia|exact M].
    + intros j J. apply (ET (S j)). lia.
  - left. assert (i = 0 \/ i = 1)%nat as [-> | ->] by lia; cbn; lia.
Qed.
