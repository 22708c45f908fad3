(** C109: the reconstructions the program keeps beside the one it calls give the best
    predictions too, for any number of lines and times in any order; the one it calls does
    not for a set without lines.  Real arithmetic, no rounding. *)
From Coq Require Import Reals List Arith Lia Lra Psatz ZArith.
From Coquelicot Require Import Coquelicot.
From Verif Require Import CPrelude SemisepModel SemisepProofs SemisepProofs2 MatBridge MatBridge2 SemisepProofs3 PartProofs PartProofs2 KernelCalc KernelSpec KernelModel KernelGauss2 PartModel
  CovModel LikeModel PredModel PropPart PropSemisep GlsAlgebra LikeProofs PropLike PredProofs PropPred.
From Verif Require Import PropCov MixSpec PropKernel MixModel PropMix PsdCore PsdKernel PropPsd EndModel VmapModel SetsModel PropSets ConModel OutModel OldModel OldProofs PropOld OldRecModel OldRecProofs.
From Verif Require EndProofs PropEnd PropVmap ConProofs PropCon PropOut PropBare MoveProofs LuSpec.
Import ListNotations.
Open Scope R_scope.

(** ** What the statements are about *)
(** nall c points of curve c of set i are asked for, point k of curve c at the time
    tall (total nall c + k).  With the parameters pm the outcome o holds the trends fitted by
    least squares and at every point the best linear unbiased prediction of the curve with
    its standard error. *)
Definition best_outcome (ds : nat -> lcset) (uniform_var : bool) (nq : nat) (psi : nat -> nat -> R -> R) (pm : arr) (i : nat) (SS Si L : nat -> nat -> R)
  (nall : nat -> nat) (tall : arr) (o : rec_out) : Prop :=
  least_squares (set_points ds i) (nq * (1 + s_nl (ds i))) Si L (s_fall (ds i)) (rec_yq o) /\
  forall c k, (c < 1 + s_nl (ds i))%nat -> (k < nall c)%nat -> let r := (total nall c + k)%nat in
    PropOut.prediction ds uniform_var nq psi pm i SS L c (tall r) (rec_f o r) (rec_fe o r).
(** two outcomes with the same numbers *)
Definition same_outcome (nqall nc : nat) (nall : nat -> nat) (o o' : rec_out) : Prop :=
  (forall j, (j < nqall)%nat -> rec_yq o' j = rec_yq o j) /\
  forall c k, (c < nc)%nat -> (k < nall c)%nat -> let r := (total nall c + k)%nat in rec_f o' r = rec_f o r /\ rec_fe o' r = rec_fe o r.
(** the LAPACK routines do what they are for *)
Definition lapack_rec {IP} (dsytrf : nat -> (nat -> nat -> R) -> (nat -> nat -> R) * IP) dsytri dgetrf dgetri dgetrs : Prop :=
  dsytr_spec dsytrf dsytri /\ ConProofs.lu_spec dgetrf dgetri /\ lu_solve_spec dgetrf dgetrs.

Section Proofs.
Context {IP : Type}.
Variable dsytrf : nat -> (nat -> nat -> R) -> (nat -> nat -> R) * IP.
Variable dsytri : nat -> (nat -> nat -> R) -> IP -> nat -> nat -> R.
Variables dtrtri dlauum : nat -> arr -> arr.
Variable dgetrf : nat -> arr -> arr * (nat -> nat) * bool.
Variable dgetri : nat -> arr -> (nat -> nat) -> arr * bool.
Variable dgetrs : nat -> nat -> arr -> (nat -> nat) -> arr -> arr * bool.
Variable log_erfc : R -> R.
Variable type_tf : nat.
Variable flag : bool.
Variable nset : nat.
Variable ds : nat -> lcset.
Variable ng : nat.
Variable uniform : nat.
Variable uniform_var : bool.
Variable nq : nat.
Variable junk : nat -> nat -> nat.
Variable pm : arr.
Variable nall : nat -> nat.
Variable tall : arr.
Variable f : found.
Variable r : rec_found.
Variable i : nat.
Notation li := (line_index nset ds ng uniform uniform_var junk).
Notation ci := (con_index uniform_var).
Notation taud := (set_taud uniform_var pm).
Notation sigma := (set_sigma uniform_var pm).
Notation aok := (any_set_ok nset ds ng uniform uniform_var nq pm).
Notation described := (set_described nset ds ng uniform uniform_var nq pm).
Notation comps := (component nset ds ng uniform uniform_var pm (decode flag)).
Notation good_set := (set_good ds ng uniform_var pm log_erfc type_tf comps).
Notation psi := (fun i j => response (PropCov.shape_of type_tf) ng (comps i j)).
Notation old1 := (reconstruct_line_from_varmodel dgetrf dgetri dgetrs log_erfc type_tf flag nset ds ng uniform uniform_var nq junk pm nall tall f r i).
Notation old2 := (reconstruct_line_from_varmodel2 dsytrf dsytri log_erfc type_tf flag nset ds ng uniform uniform_var nq junk pm nall tall f r i).
Notation d := (ds i).
Notation K := (pointers log_erfc type_tf flag ci li ng pm i).
(** the one in use, for a set: reconstruct_line_from_varmodel3 *)
Notation now := (rec_set dsytrf dsytri dtrtri dlauum (s_ncon d) (s_tcon d) (s_fe d) (s_em d) (s_nl d) (s_nline d) (s_tline d) (s_fel d) (s_eml d) (s_fall d) nq K pm (ci i) (li i)
    (f_PS f) (f_mem f) (f_A f) (f_wk f) (f_L f) (f_W f) (f_D f) (f_phi f) nall tall (r_US r) (r_AS r) (r_L r) (r_f r) (r_PE r)).
Hypothesis I : (i < nset)%nat.
Notation SE := (same_self nset ds ng uniform uniform_var pm i).
Notation US := (old_US log_erfc type_tf flag nset ds ng uniform uniform_var junk pm nall tall r i).
Notation AS := (old_AS log_erfc type_tf flag nset ds ng uniform uniform_var junk pm nall tall r i).
Notation N := (set_points ds i).
Notation M := (nq * (1 + s_nl d))%nat.
Notation T := (total nall (1 + s_nl d)).
Notation U := (fun a b => sigma i * sigma i * US (a * N + b)%nat).
Notation V := (fun a => sigma i * sigma i * AS (a * T + a)%nat).

Lemma ntall_eq : old_ntall ds nall i = T.
Proof.
  unfold old_ntall. rewrite line_start_total. rewrite !PropPart.total_psum. cbn [Nat.add]. generalize (S (s_nl d)). induction n as [|x IH]; [reflexivity|].
  cbn [psum]. rewrite IH. f_equal. destruct x; reflexivity.
Qed.
Section Given.
Hypothesis OK : aok i.
Hypothesis G : good_set i.
Variables SS Si L : nat -> nat -> R.
Hypothesis DE : described psi i SS Si L.
Notation kn := (kern log_erfc type_tf flag nset ds ng uniform uniform_var junk pm i I G).
Notation kn' := (kern' log_erfc type_tf flag nset ds ng uniform uniform_var junk pm i I G).
Notation SP := (sigma_pos uniform_var pm i).
Lemma parts_scalar : spd N SS /\ inv_of N SS Si
  /\ (forall a b, (a < N)%nat -> (b < N)%nat -> old_PC_scalar log_erfc type_tf flag nset ds ng uniform uniform_var junk pm f i (a * N + b)%nat = / (sigma i * sigma i) * SS a b)
  /\ (forall a b, (a < N)%nat -> (b < M)%nat -> old_Larr ds nq f i (a * M + b)%nat = L a b)
  /\ (forall v, (forall a, (a < N)%nat -> mv M L v a = 0) -> forall j, (j < M)%nat -> v j = 0).
Proof.
  destruct (parts log_erfc type_tf flag nset ds ng uniform uniform_var nq junk (fun _ => f) pm i I OK G SS Si L DE) as (H1 & H2 & _ & H4 & H5).
  split; [exact H1|]. split; [exact H2|]. split; [|split; [exact H4|exact H5]].
  intros a b A B. pose proof (cov_to nset ds ng uniform uniform_var junk pm i I psi pm SE _ (proj1 DE)) as D'.
  pose proof (EndProofs.scalar_filled (s_ncon d) (s_tcon d) (s_fe d) (s_em d) (s_nl d) (s_nline d) (s_tline d) (s_fel d) (s_eml d) pm (ci i) (li i) (psi i) K kn' (f_PS f) (f_mem f) (f_A f)) as F.
  pose proof (EndProofs.filled_stored (s_ncon d) (s_tcon d) (s_fe d) (s_em d) (s_nl d) (s_nline d) (s_tline d) (s_fel d) (s_eml d) pm (ci i) (li i) (psi i) _ SS (fun _ => 0) 0%nat F D' a b A B) as E.
  assert (PA : forall len P x, (x < len)%nat -> EndModel.put (fun _ => 0) 0 len P x = P x) by (intros len P x X; exact (EndProofs.put_at (fun _ => 0) 0 len P x X)).
  cbn [Nat.add] in E. unfold set_points, set_sizes in *. rewrite PA in E by (rewrite EndProofs.n_points; nia).
  unfold old_PC_scalar. rewrite E. rewrite (sig_eq nset ds ng uniform uniform_var pm i I pm SE). unfold Rdiv. ring.
Qed.
Lemma targets c k : (c < 1 + s_nl d)%nat -> (k < nall c)%nat -> let x := (total nall c + k)%nat in (x < T)%nat /\
  target_covariance (PropEnd.curve_of (psi i) c) (psi i) (taud i) (sigma i) (set_sizes ds i) (set_time ds i) (tall x) (U x) /\
  target_variance (PropEnd.curve_of (psi i) c) (taud i) (sigma i) (tall x) (V x).
Proof.
  intros C KK x. destruct kn' as (H1 & H2 & H3 & H4 & _).
  pose proof (proj1 (cross (s_ncon d) (s_tcon d) (s_nl d) (s_nline d) (s_tline d) pm (ci i) (k_lc K) (k_ll K) (k_ll2 K) (psi i) H1 H2 H3 nall tall (r_US r))) as HU.
  pose proof (proj1 (recon (s_nl d) pm (ci i) (k_lc K) (k_ll K) (k_ll2 K) (psi i) H1 H2 H3 H4 nall tall (r_AS r))) as HA.
  rewrite <- (taud_eq nset ds ng uniform uniform_var pm i I pm SE).
  rewrite <- (EndProofs.n_points (s_ncon d) (s_nl d) (s_nline d)) in HU at 1.
  assert (ET' : list_sum (map nall (seq 0 (S (s_nl d)))) = T) by apply EndProofs.total_seq.
  assert (R : (x < T)%nat).
  { unfold x. pose proof (EndProofs.total_mono nall (S c) (1 + s_nl d) ltac:(lia)) as H. cbn [total] in H. lia. }
  assert (LR : locate (map nall (seq 0 (S (s_nl d)))) x = Some (c, k)) by (apply EndProofs.locate_total; [lia|exact KK]).
  assert (RT : rtime nall tall c k = tall x) by (unfold rtime, x; rewrite EndProofs.total_seq; reflexivity).
  split; [exact R|]. split.
  - intros b B. destruct (HU x b ltac:(rewrite ET'; exact R) B) as (c' & k' & e & m & L1 & L2 & PCV). rewrite LR in L1. injection L1 as <- <-.
    exists e, m, (US (x * N + b)%nat). split; [exact L2|]. split; [reflexivity|]. rewrite RT in PCV. destruct c, e; exact PCV.
  - destruct (HA x x ltac:(rewrite ET'; exact R) ltac:(rewrite ET'; exact R)) as (c' & k' & e & m & L1 & L2 & PCV). rewrite LR in L1, L2. injection L1 as <- <-. injection L2 as <- <-.
    rewrite ET', RT in PCV. change (set_covar_Amat_line _ _ _ _ _ _ _ _ _) with AS in PCV. destruct c as [|j]; cbn [PropEnd.curve_of target_variance point_cov] in *.
    + rewrite PCV. rewrite Rminus_diag_eq, Rabs_R0 by reflexivity. unfold Rdiv. rewrite Ropp_0, Rmult_0_l, exp_0. ring.
    + eexists. split; [exact PCV|reflexivity].
Qed.
Lemma best_of o : comes_to N M T Si L (sigma i) (s_fall d) US AS (old_Lrec ds nq nall tall r i) o ->
  best_outcome ds uniform_var nq psi pm i SS Si L nall tall o.
Proof.
  intros (Gi & HG & Y & H). destruct parts_scalar as (PD & HI & _ & _ & INJ). pose proof SP as SG.
  split; [apply (ls_link N M Si L (s_fall d) Gi); auto; exact (spd_inv _ _ _ PD HI)|].
  intros c k C KK x. destruct (targets c k C KK) as (R & T1 & T2). fold x in R, T1, T2.
  exists (U x), (V x). split; [exact T1|]. split; [exact T2|].
  destruct (H x (U x) (entry nq c (tall x)) (V x) R) as [E1 E2].
  - intros b B. field. lra.
  - field. lra.
  - intros j J. unfold x, old_Lrec. rewrite PropPart.total_psum. apply rec_trend_ok; auto; [exact (proj1 OK)|lia].
  - apply (best_core N M SS Si L Gi (U x) (V x) _ (entry nq c (tall x)) (s_fall d) (sigma i)); auto.
    + apply (C68_joint_covariance (psi i) (taud i) (sigma i) (set_sizes ds i) (set_time ds i) (set_error2 nset ds ng uniform uniform_var pm i) SS (PropEnd.curve_of (psi i) c) (tall x) (U x) (V x)); auto.
      * apply exp_pos.
      * intros j J. apply kn. unfold set_sizes in J. rewrite EndProofs.len_sizes in J. lia.
      * intros g. destruct c as [|j]; [discriminate|]. intros X. injection X as <-. apply kn. lia.
      * intros e m He Hm. left. rewrite <- (err_eq nset ds ng uniform uniform_var junk pm i I pm SE) by exact He. apply (any_err nset ds ng uniform uniform_var nq junk pm i I OK); assumption.
      * exact (proj1 DE).
    + intros v. unfold trend_at. symmetry. apply sumn_window. nia.
Qed.
Lemma old2_best : dsytr_spec dsytrf dsytri -> best_outcome ds uniform_var nq psi pm i SS Si L nall tall old2.
Proof.
  intros LP. apply best_of. destruct parts_scalar as (PD & HI & HP & HL & INJ).
  unfold reconstruct_line_from_varmodel2. rewrite ntall_eq, (nall_eq ds i), (sigma_eq nset ds ng uniform uniform_var pm i I). apply (old_rec_end2_ok N M T SS Si L); auto. apply SP.
Qed.
Lemma old1_best : ConProofs.lu_spec dgetrf dgetri -> lu_solve_spec dgetrf dgetrs -> exists o, old1 = Ok o /\ best_outcome ds uniform_var nq psi pm i SS Si L nall tall o.
Proof.
  intros LU LS. destruct parts_scalar as (PD & HI & HP & HL & INJ).
  unfold reconstruct_line_from_varmodel. rewrite ntall_eq, (nall_eq ds i), (sigma_eq nset ds ng uniform uniform_var pm i I).
  destruct (old_rec_end1_ok N M T SS Si L (sigma i) (old_PC_scalar log_erfc type_tf flag nset ds ng uniform uniform_var junk pm f i) (old_Larr ds nq f i) (s_fall d) US AS
    (old_Lrec ds nq nall tall r i) SP PD HI HP HL INJ dgetrf dgetri dgetrs LU LS) as (o & E & H).
  exists o. split; [exact E|apply best_of, H].
Qed.
(** an outcome with the best predictions is determined *)
Lemma outcome_unique o o' : best_outcome ds uniform_var nq psi pm i SS Si L nall tall o -> best_outcome ds uniform_var nq psi pm i SS Si L nall tall o' ->
  same_outcome M (1 + s_nl d) nall o o'.
Proof.
  intros [Y H] [Y' H']. destruct parts_scalar as (PD & HI & _ & _ & INJ). split.
  - apply (MoveProofs.ls_unique N M L (s_fall d) Si); auto. exact (spd_inv _ _ _ PD HI).
  - intros c k C KK x. destruct (H c k C KK) as (u & W & U1 & V1 & B), (H' c k C KK) as (u' & W' & U2 & V2 & B').
    apply (MoveProofs.best_unique N M SS L u u' W W' (fun w => trend_at nq w c (tall (total nall c + k)%nat)) (fun w => trend_at nq w c (tall (total nall c + k)%nat)) (s_fall d)); auto.
    + intros y Yy. symmetry. exact (MoveProofs.target_unique _ _ _ _ _ _ _ _ _ U1 U2 y Yy).
    + symmetry. exact (MoveProofs.variance_unique _ _ _ _ _ _ V1 V2).
Qed.
Lemma now_best : set_ok nset ds ng uniform uniform_var nq pm i -> separate ds (fun _ => f) i -> dsytr_spec dsytrf dsytri -> dtrtri_spec dtrtri -> dlauum_spec dlauum ->
  best_outcome ds uniform_var nq psi pm i SS Si L nall tall now.
Proof.
  intros OK' AP LS LT LL. destruct DE as (D & IV & TD). pose proof OK' as (NQ & NL & NC & ORD & _ & ET).
  pose proof (EndProofs.rec_generic (s_ncon d) (s_tcon d) (s_fe d) (s_em d) (s_nl d) (s_nline d) (s_tline d) (s_fel d) (s_eml d) pm (ci i) (li i) (psi i) K
    kn' (proj2 kn) (err_pos nset ds ng uniform uniform_var nq junk pm i I pm SE OK') dsytrf dsytri dtrtri dlauum (s_fall d) nq
    (f_mem f) (f_A f) (f_wk f) (f_L f) (f_W f) (f_D f) (f_phi f) NQ NL NC ORD ET AP nall tall (r_US r) (r_AS r) (r_L r) (r_f r) (r_PE r) _ SS Si L LS LT LL
    (EndProofs.scalar_filled (s_ncon d) (s_tcon d) (s_fe d) (s_em d) (s_nl d) (s_nline d) (s_tline d) (s_fel d) (s_eml d) pm (ci i) (li i) (psi i) K kn' (f_PS f) (f_mem f) (f_A f))
    (cov_to nset ds ng uniform uniform_var junk pm i I psi pm SE SS D) IV TD) as [H1 H2].
  split; [exact H1|]. intros c k C KK x. destruct (H2 c k C KK) as (u & W & U1 & V1 & B).
  rewrite (sig_eq nset ds ng uniform uniform_var pm i I pm SE), (taud_eq nset ds ng uniform uniform_var pm i I pm SE) in U1, V1.
  exists u, W. split; [exact U1|]. split; [exact V1|exact B].
Qed.
End Given.

(** ** C109 *)
(** Both functions not in use return for a set with any number of lines, none included,
    the times in any order, any numbers of output times, whatever is found in memory. *)
Theorem C109_general SS Si L : lapack_rec dsytrf dsytri dgetrf dgetri dgetrs -> aok i -> good_set i -> described psi i SS Si L ->
  best_outcome ds uniform_var nq psi pm i SS Si L nall tall old2 /\
  exists o, old1 = Ok o /\ best_outcome ds uniform_var nq psi pm i SS Si L nall tall o.
Proof. intros (LP & LU & LS) OK G DE. split; [apply old2_best|apply old1_best]; assumption. Qed.
(** With at least one line and the continuum in order the function in use gives the same
    numbers. *)
Theorem C109_same : lapack_rec dsytrf dsytri dgetrf dgetri dgetrs -> dtrtri_spec dtrtri -> dlauum_spec dlauum ->
  set_ok nset ds ng uniform uniform_var nq pm i -> good_set i -> separate ds (fun _ => f) i ->
  same_outcome M (1 + s_nl d) nall now old2 /\ exists o, old1 = Ok o /\ same_outcome M (1 + s_nl d) nall now o.
Proof.
  intros LR LT LL OK G AP. pose proof (ok_any _ _ _ _ _ _ _ _ OK) as OK'.
  destruct (C105_described log_erfc type_tf flag nset ds ng uniform uniform_var nq junk pm i I OK' G) as (SS & Si & L & DE).
  destruct (C109_general SS Si L LR OK' G DE) as (B2 & o & E & B1).
  pose proof (now_best G SS Si L DE OK AP (proj1 LR) LT LL) as B.
  split; [exact (outcome_unique OK' G SS Si L DE _ _ B B2)|]. exists o. split; [exact E|exact (outcome_unique OK' G SS Si L DE _ _ B B1)].
Qed.
End Proofs.
Print Assumptions C109_general.
Print Assumptions C109_same.

(** ** Where the function in use is not right *)
(** One set of two continuum points at time 0 with errors 1 and 2 and fluxes 0 and 1, no
    line; constant trend, all parameters 0, so that sigma = taud = 1. *)
Definition two_set (_ : nat) : lcset := LcSet 2 (fun _ => 0) PropBare.two_e 1 0 (fun _ => 0%nat) (fun _ _ => 0) (fun _ _ => 0) (fun _ => 0) INR.
Lemma two_set_ok : any_set_ok 1 two_set 1 0 false 1 (fun _ => 0) 0.
Proof.
  split; [lia|]. split.
  - intros [|c] m C M; cbn [s_nl two_set] in C; [|lia]. cbn [set_error2 two_set s_fe s_em]. rewrite exp_0. destruct m; cbn [PropBare.two_e]; lra.
  - intros [|c] C; cbn [s_nl two_set] in C; [|lia]. exists (fun i => i). unfold set_curves. cbn [narr_of two_set s_ncon]. split; [intros; lia|]. intros a b X Y _. lia.
Qed.
Notation C2 := (covariance (exp 0 * sqrt (exp 0) * (exp 0 * sqrt (exp 0))) (exp 0) ((exp 0 - 1) * 1) (fun _ => 0) PropBare.two_e).
Notation psi2 := (fun i j => response tophat 1 (component 1 two_set 1 0 false (fun _ => 0) exp i j)).
Lemma two_described (log_erfc : R -> R) : exists Si, set_described 1 two_set 1 0 false 1 (fun _ => 0) psi2 0 C2 Si (PropBare.powers (fun _ => 0)).
Proof.
  destruct (C105_described log_erfc 1 false 1 two_set 1 0 false 1 (fun _ _ => 0%nat) (fun _ => 0) 0 ltac:(lia) two_set_ok Logic.I) as (SS & Si & L & D & IV & TD).
  pose proof (cov_to 1 two_set 1 0 false (fun _ _ => 0%nat) (fun _ => 0) 0 ltac:(lia) psi2 (fun _ => 0) (same_self 1 two_set 1 0 false (fun _ => 0) 0) _ D) as D'.
  assert (E : forall a b, (a < 2)%nat -> (b < 2)%nat -> SS a b = C2 a b).
  { intros a b A B. exact (EndProofs.con_block 2 (fun _ => 0) PropBare.two_e 1 0 (fun _ => 0%nat) (fun _ _ => 0) (fun _ _ => 0) (fun _ => 0) (fun _ => 0) _ _ _ SS a b D' A B). }
  exists Si. split; [|split].
  - intros a b A B. destruct (D a b A B) as (c & k & e & m & v & H). exists c, k, e, m, v. rewrite <- E by assumption. exact H.
  - intros a b A B. destruct (IV a b A B) as [H1 H2]. change (set_points two_set 0) with 2%nat in *. split; [rewrite <- H1|rewrite <- H2]; apply sumn_ext; intros k KK; rewrite E by assumption; reflexivity.
  - intros [|c] k v C KK; cbn [s_nl two_set] in C; [|lia]. unfold trend_at, PropBare.powers. cbn. ring.
Qed.
Theorem C109_no_lines_refuted : any_set_ok 1 two_set 1 0 false 1 (fun _ => 0) 0 /\
  forall IP (dsytrf : nat -> (nat -> nat -> R) -> (nat -> nat -> R) * IP) dsytri dtrtri dlauum dgetrf dgetri dgetrs log_erfc f r,
  lapack_rec dsytrf dsytri dgetrf dgetri dgetrs -> dtrtri_spec dtrtri -> dlauum_spec dlauum -> apart (f_A f) 4 (f_wk f) 4 ->
  let K := pointers log_erfc 1 false (con_index false) (line_index 1 two_set 1 0 false (fun _ _ => 0%nat)) 1 (fun _ => 0) 0 in
  rec_f (rec_set dsytrf dsytri dtrtri dlauum 2 (fun _ => 0) PropBare.two_e 1 0 (fun _ => 0%nat) (fun _ _ => 0) (fun _ _ => 0) (fun _ => 0) INR 1 K (fun _ => 0) (con_index false 0)
    (line_index 1 two_set 1 0 false (fun _ _ => 0%nat) 0) (f_PS f) (f_mem f) (f_A f) (f_wk f) (f_L f) (f_W f) (f_D f) (f_phi f) (fun _ => 1%nat) (fun _ => 0) (r_US r) (r_AS r) (r_L r) (r_f r) (r_PE r)) 0%nat = 2 / 3 /\
  rec_f (reconstruct_line_from_varmodel2 dsytrf dsytri log_erfc 1 false 1 two_set 1 0 false 1 (fun _ _ => 0%nat) (fun _ => 0) (fun _ => 1%nat) (fun _ => 0) f r 0) 0%nat = 1 / 5 /\
  exists o, reconstruct_line_from_varmodel dgetrf dgetri dgetrs log_erfc 1 false 1 two_set 1 0 false 1 (fun _ _ => 0%nat) (fun _ => 0) (fun _ => 1%nat) (fun _ => 0) f r 0 = Ok o /\ rec_f o 0%nat = 1 / 5.
Proof.
  split; [exact two_set_ok|]. intros IP trf tri trtri lauum getrf getri getrs log_erfc f r LR HT HL AP K.
  assert (S1 : exp 0 * sqrt (exp 0) = 1) by (rewrite exp_0, sqrt_1; ring).
  assert (U1 : exp 0 * sqrt (exp 0) * (exp 0 * sqrt (exp 0)) * exp (- (Rabs (0 - 0) / exp 0)) = 1).
  { rewrite S1. rewrite Rminus_0_r, Rabs_R0. unfold Rdiv. rewrite Rmult_0_l, Ropp_0, exp_0. ring. }
  destruct (two_described log_erfc) as (Si & DE).
  destruct (C109_general trf tri getrf getri getrs log_erfc 1 false 1 two_set 1 0 false 1 (fun _ _ => 0%nat) (fun _ => 0) (fun _ => 1%nat) (fun _ => 0) f r 0 ltac:(lia) _ Si _ LR two_set_ok Logic.I DE) as ([_ B2] & o & E & [_ B1]).
  assert (FIN : forall v e, PropOut.prediction two_set false 1 psi2 (fun _ => 0) 0 C2 (PropBare.powers (fun _ => 0)) 0 0 v e -> v = 1 / 5).
  { intros v e (u & W & TC & _ & B). replace (1 / 5) with ((4 * INR 0 + INR 1) / 5) by (cbn; lra). revert B. apply PropBare.two_best.
    - intros b B. destruct (TC b ltac:(cbn; lia)) as (e' & m & x & L1 & -> & PC). cbn [set_sizes two_set s_ncon s_nl s_nline map seq locate] in L1. destruct (Nat.ltb_spec b 2); [|lia]. injection L1 as <- <-.
      cbn [PropEnd.curve_of] in PC. rewrite PC. unfold set_sigma, set_taud. cbn. rewrite S1, Rminus_0_r, Rabs_R0. unfold Rdiv. rewrite Ropp_0, Rmult_0_l, exp_0. ring.
    - intros v'. unfold trend_at. cbn [sumn pow Nat.mul Nat.add]. ring. }
  split; [|split].
  - destruct (PropBare.C106_curve 2 (fun _ => 0) PropBare.two_e 1 (fun _ => 0%nat) (fun _ _ => 0) (fun _ _ => 0) (fun _ => 0) INR 1 K (fun _ => 0) (con_index false 0)
      (line_index 1 two_set 1 0 false (fun _ _ => 0%nat) 0) (f_lc f) (f_ll f) (f_PS f) (f_mem f) (f_A f) (f_wk f) (f_L f) (f_W f) (f_D f) (f_phi f)
      trf tri trtri lauum (fun _ => 1%nat) (fun _ => 0) (r_US r) (r_AS r) (r_L r) (r_f r) (r_PE r) PropBare.two_ok (proj1 LR) HT HL AP) as [[LS F] _].
    set (out := rec_set _ _ _ _ _ _ _ _ _ _ _ _ _ _ _ _ _ _ _ _ _ _ _ _ _ _ _ _ _ _ _ _ _ _) in *.
    rewrite (F 0%nat ltac:(lia)). set (q := rec_yq out 0%nat) in *.
    assert (Q : q = 2 / 3).
    { specialize (LS (fun _ => 2 / 3)). unfold chi_square, residual, PropBare.powers in LS. cbn [sumn pow] in LS. fold q in LS.
      rewrite !PropBare.C2_entry in LS by lia. rewrite !S1 in LS. cbn [INR] in LS. nra. }
    unfold residual, PropBare.powers. cbn [sumn pow]. fold q. rewrite !PropBare.C2_entry by lia. rewrite !U1, !S1, Q. cbn [INR]. field.
  - exact (FIN _ _ (B2 0%nat 0%nat ltac:(cbn; lia) ltac:(lia))).
  - exists o. split; [exact E|exact (FIN _ _ (B1 0%nat 0%nat ltac:(cbn; lia) ltac:(lia)))].
Qed.
Print Assumptions C109_no_lines_refuted.

(** ** Cases meeting the hypotheses *)
Lemma lapack_rec_met : lapack_rec ref_dsytrf ref_dsytri PropCon.some_lu PropCon.some_inv some_solve.
Proof. destruct lapack_old_met as (A & _ & B & C). split; [exact A|]. split; assumption. Qed.
(** the two sets of PropSets.v, a different number of output times for every curve *)
Example C109_general_case fall pm uv mem mr tall i : (i < 2)%nat -> exists SS Si L o,
  let ps := fun i j => response tophat 2 (component 2 (case_sets fall) 2 0 uv pm exp i j) in
  set_described 2 (case_sets fall) 2 0 uv 2 pm ps i SS Si L /\
  reconstruct_line_from_varmodel PropCon.some_lu PropCon.some_inv some_solve (fun _ => 0) 1 false 2 (case_sets fall) 2 0 uv 2 (fun _ _ => 0%nat) pm S tall (case_found mem i) (RecFound mr mr mr mr mr) i = Ok o /\
  best_outcome (case_sets fall) uv 2 ps pm i SS Si L S tall o.
Proof.
  intros I. pose proof (ok_any _ _ _ _ _ _ _ _ (case_set_ok fall 0 uv pm i I)) as OK.
  destruct (C105_described (fun _ => 0) 1 false 2 (case_sets fall) 2 0 uv 2 (fun _ _ => 0%nat) pm i I OK Logic.I) as (SS & Si & L & D).
  destruct (C109_general ref_dsytrf ref_dsytri PropCon.some_lu PropCon.some_inv some_solve (fun _ => 0) 1 false 2 (case_sets fall) 2 0 uv 2 (fun _ _ => 0%nat) pm S tall (case_found mem i) (RecFound mr mr mr mr mr) i I
    SS Si L lapack_rec_met OK Logic.I D) as (_ & o & E & B).
  exists SS, Si, L, o. split; [exact D|]. split; [exact E|exact B].
Qed.
Example C109_same_case fall pm uv mem mr tall i : (i < 2)%nat -> let d := case_sets fall i in let f := case_found mem i in
  let K := pointers (fun _ => 0) 1 false (con_index uv) (line_index 2 (case_sets fall) 2 0 uv (fun _ _ => 0%nat)) 2 pm i in
  same_outcome (2 * (3 + i)) (3 + i) S
    (rec_set ref_dsytrf ref_dsytri ref_dtrtri ref_dlauum (s_ncon d) (s_tcon d) (s_fe d) (s_em d) (s_nl d) (s_nline d) (s_tline d) (s_fel d) (s_eml d) (s_fall d) 2 K pm (con_index uv i)
      (line_index 2 (case_sets fall) 2 0 uv (fun _ _ => 0%nat) i) mem mem 0 1000 mem mem mem mem S tall mr mr mr mr mr)
    (reconstruct_line_from_varmodel2 ref_dsytrf ref_dsytri (fun _ => 0) 1 false 2 (case_sets fall) 2 0 uv 2 (fun _ _ => 0%nat) pm S tall f (RecFound mr mr mr mr mr) i).
Proof.
  intros I d f K. destruct lapack_exists as (_ & _ & HT & HL).
  exact (proj1 (C109_same ref_dsytrf ref_dsytri ref_dtrtri ref_dlauum PropCon.some_lu PropCon.some_inv some_solve (fun _ => 0) 1 false 2 (case_sets fall) 2 0 uv 2 (fun _ _ => 0%nat) pm S tall f (RecFound mr mr mr mr mr) i I
    lapack_rec_met HT HL (case_set_ok fall 0 uv pm i I) Logic.I (case_separate fall mem i I))).
Qed.
Example C109_no_lines_case mem mr : let f := Found mem mem mem mem mem mem 0 4 mem mem mem mem in
  rec_f (reconstruct_line_from_varmodel2 ref_dsytrf ref_dsytri (fun _ => 0) 1 false 1 two_set 1 0 false 1 (fun _ _ => 0%nat) (fun _ => 0) (fun _ => 1%nat) (fun _ => 0) f (RecFound mr mr mr mr mr) 0) 0%nat = 1 / 5.
Proof.
  intros f. destruct lapack_exists as (_ & _ & HT & HL).
  apply (proj2 C109_no_lines_refuted _ ref_dsytrf ref_dsytri ref_dtrtri ref_dlauum PropCon.some_lu PropCon.some_inv some_solve (fun _ => 0) f (RecFound mr mr mr mr mr) lapack_rec_met HT HL). left. cbn. lia.
Qed.
