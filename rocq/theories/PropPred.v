(** C60: the reconstructed light curves are the best linear unbiased prediction of the
    true curves, and the reconstructed errors its standard error.  Real arithmetic,
    no rounding. *)
From Coq Require Import Reals List Arith Lia Lra Psatz.
From Verif Require Import SemisepModel SemisepProofs SemisepProofs2 MatBridge MatBridge2 SemisepProofs3 PropSemisep
  PartModel PartProofs PartProofs2 PropPart PolyRoots GlsAlgebra LikeModel LikeProofs PropLike PredModel PredProofs.
Import ListNotations.
Open Scope R_scope.

(** ** What the statements are about *)

(** The data y are n numbers with covariance SS about a trend L v, v unknown.  A point
    of a curve is predicted by sum w_k y_k; [target v] is the trend v at that point.
    Unbiased: right on average whatever the trend. *)
Definition unbiased (n m : nat) (L : nat -> nat -> R) (target : (nat -> R) -> R) (w : nat -> R) : Prop :=
  forall v, sumn n (fun k => w k * sumn m (fun j => L k j * v j)) = target v.
(** The variance of (true value - prediction): u_k is the covariance of the true value
    with datum k, A its own variance. *)
Definition error_variance (n : nat) (SS : nat -> nat -> R) (u : nat -> R) (A : R) (w : nat -> R) : R :=
  A - 2 * sumn n (fun k => w k * u k) + sumn n (fun k => sumn n (fun l => w k * SS k l * w l)).
(** value is the best linear unbiased prediction, err its standard error; the best
    weights are unique. *)
Definition best_prediction (n m : nat) (SS L : nat -> nat -> R) (u : nat -> R) (A : R) (target : (nat -> R) -> R) (y : nat -> R) (value err : R) : Prop :=
  exists w, unbiased n m L target w /\ value = sumn n (fun k => w k * y k) /\
    0 <= err /\ err * err = error_variance n SS u A w /\
    (forall w', unbiased n m L target w' -> error_variance n SS u A w <= error_variance n SS u A w') /\
    (forall w', unbiased n m L target w' -> error_variance n SS u A w' <= error_variance n SS u A w -> forall k, (k < n)%nat -> w' k = w k).
(** A, u and SS are covariances: no combination of the true value and the data has a
    negative variance. *)
Definition joint_covariance (n : nat) (SS : nat -> nat -> R) (u : nat -> R) (A : R) : Prop :=
  forall x0 x, 0 <= x0 * x0 * A + 2 * x0 * sumn n (fun k => x k * u k) + sumn n (fun k => sumn n (fun l => x k * SS k l * x l)).
(** the coefficients q minimise chi-square *)
Definition least_squares (n m : nat) (Si L : nat -> nat -> R) (y q : nat -> R) : Prop :=
  forall q', chi_square n Si (residual m L y q) <= chi_square n Si (residual m L y q').

(** ** Links to the proofs *)
Lemma unb_link : forall n m L target l w, (forall v, target v = sumn m (fun j => l j * v j)) ->
  (unbiased n m L target w <-> forall j, (j < m)%nat -> mv n (tr L) w j = l j).
Proof.
  intros n m L target l w HT.
  assert (E : forall v, sumn n (fun k => w k * sumn m (fun j => L k j * v j)) = dot m (mv n (tr L) w) v) by (intros v; apply (dot_tr n m w L v)).
  split.
  - intros U j J. specialize (U (fun i => if Nat.eqb i j then 1 else 0)). rewrite E, HT in U. unfold dot in U.
    rewrite !(sumn_single m j) in U; auto; try (intros i I NE; destruct (Nat.eqb_spec i j); [lia|ring]).
    rewrite Nat.eqb_refl in U. lra.
  - intros U v. rewrite E, HT. apply sumn_ext. intros j J. rewrite U by auto. reflexivity.
Qed.

Lemma best_core : forall n m SS Si L Gi u A target l y sigma value err,
  0 < sigma -> spd n SS -> inv_of n SS Si ->
  (forall v, (forall i, (i < n)%nat -> mv m L v i = 0) -> forall j, (j < m)%nat -> v j = 0) ->
  inv_of m (gram n Si L) Gi -> joint_covariance n SS u A ->
  (forall v, target v = sumn m (fun j => l j * v j)) ->
  value = dot n u (mv n Si (resid m L y (mv m Gi (mv n (tr L) (mv n Si y))))) + dot m l (mv m Gi (mv n (tr L) (mv n Si y))) ->
  err = sigma * sqrt ((A - dot n u (mv n Si u) + dot m (dd n Si L u l) (mv m Gi (dd n Si L u l))) / (sigma * sigma)) ->
  best_prediction n m SS L u A target y value err.
Proof.
  intros n m SS Si L Gi u A target l y sigma value err SG PD HI INJ HG JC HT EV EE.
  pose proof (spd_inv _ _ _ PD HI) as PDi. pose proof (gram_spd _ _ _ _ PDi INJ) as PG. pose proof (proj1 (spd_inv _ _ _ PG HG)) as GS.
  assert (S2 : 0 < sigma * sigma) by nra.
  exists (ww n m Si L Gi u l). set (w := ww n m Si L Gi u l).
  pose proof (fun w' => unb_link n m L target l w' HT) as UL.
  assert (M : mse n SS u A w = A - dot n u (mv n Si u) + dot m (dd n Si L u l) (mv m Gi (dd n Si L u l))) by (apply (mse_ww n m SS Si L Gi u l A PD HI HG)).
  assert (MP : 0 <= mse n SS u A w).
  { specialize (JC 1 (fun k => - w k)). cbv beta in JC. unfold mse, dot, quad.
    rewrite (sumn_ext n (fun k => - w k * u k) (fun k => -1 * (w k * u k))) in JC by (intros; ring). rewrite sumn_scal in JC.
    rewrite (sumn_ext n (fun k => sumn n (fun l0 => - w k * SS k l0 * - w l0)) (fun k => sumn n (fun l0 => w k * SS k l0 * w l0))) in JC
      by (intros; apply sumn_ext; intros; ring). lra. }
  split; [apply UL; apply (ww_unbiased n m SS Si L Gi u l HG) || apply (ww_unbiased n m Si L Gi u l HG)|].
  split; [rewrite EV; symmetry; apply (ww_pred n m SS Si L Gi u l y PD HI GS)|].
  rewrite EE, <- M. split; [apply Rmult_le_pos; [lra|apply sqrt_pos]|].
  split.
  - replace (sigma * sqrt (mse n SS u A w / (sigma * sigma)) * (sigma * sqrt (mse n SS u A w / (sigma * sigma))))
      with (sigma * sigma * (sqrt (mse n SS u A w / (sigma * sigma)) * sqrt (mse n SS u A w / (sigma * sigma)))) by ring.
    rewrite sqrt_sqrt; [change (error_variance n SS u A w) with (mse n SS u A w); field; lra|]. apply Rmult_le_pos; [exact MP|left; apply Rinv_0_lt_compat; auto].
  - split.
    + intros w' U. apply (mse_best n m SS Si L Gi u l A PD HI HG). apply UL. auto.
    + intros w' U H k K. apply (mse_unique n m SS Si L Gi u l A PD HI HG w'); auto. apply UL. auto.
Qed.

Lemma ls_link : forall n m Si L y Gi q, spd n Si ->
  (forall v, (forall i, (i < n)%nat -> mv m L v i = 0) -> forall j, (j < m)%nat -> v j = 0) ->
  inv_of m (gram n Si L) Gi -> (forall j, (j < m)%nat -> q j = mv m Gi (mv n (tr L) (mv n Si y)) j) ->
  least_squares n m Si L y q.
Proof.
  intros n m Si L y Gi q PD INJ HG Q q'. pose proof (normal_gram n m Si L y Gi q HG Q) as NM.
  rewrite (chi_link n Si _ (resid m L y q)) by (intros; apply resid_link).
  rewrite (chi_link n Si _ (resid m L y q')) by (intros; apply resid_link).
  apply (normal_min n m Si L y PD INJ q q' NM).
Qed.

(** ** The lines and the continuum together *)

(** the values, before they are interpreted *)
Lemma rec_line_value : forall IP (dsytrf : nat -> (nat -> nat -> R) -> (nat -> nat -> R) * IP) dsytri dtrtri dlauum
    nq nl ncon tc fe error_mean lnn tl fall p0 p1 p2 nall tall US AS mem A wk L0 W0 D0 phi0 Lr0 f0 PE0 S Si L U V,
  let sigma := exp p1 * sqrt (exp p2) in
  let syserr := (exp p0 - 1) * error_mean in
  let size := narr_of ncon lnn in
  let n := total size (1 + nl) in
  let T := total nall (1 + nl) in
  dsytr_spec dsytrf dsytri -> dtrtri_spec dtrtri -> dlauum_spec dlauum ->
  (1 <= nq)%nat -> (1 <= nl)%nat -> (1 <= ncon)%nat ->
  proper_times ncon syserr tc fe ->
  (forall c, (c < 1 + nl)%nat -> enough_times nq (size c) (times_of tc tl c)) ->
  symmetric n S -> positive_definite n S -> is_inverse n S Si ->
  (forall i j, (i < ncon)%nat -> (j < ncon)%nat -> S i j = covariance (sigma * sigma) (exp p2) syserr tc fe i j) ->
  stored mem A n (fun i j => S i j / (sigma * sigma)) -> apart A (n * n) wk (2 * (n * n)) ->
  trend_design nq (1 + nl) size (times_of tc tl) L ->
  (forall r k, (r < T)%nat -> (k < n)%nat -> US (r * n + k)%nat = U r k / (sigma * sigma)) ->
  (forall r, (r < T)%nat -> AS (r * T + r)%nat = V r / (sigma * sigma)) ->
  let out := rec_line_set dsytrf dsytri dtrtri dlauum nq nl ncon tc fe error_mean lnn tl fall p0 p1 p2 nall tall US AS mem A wk L0 W0 D0 phi0 Lr0 f0 PE0 in
  let m := (nq * (1 + nl))%nat in
  exists Gi, inv_of m (gram n Si L) Gi /\
  let q := mv m Gi (mv n (tr L) (mv n Si fall)) in
  (forall j, (j < m)%nat -> rec_yq out j = q j) /\
  forall c k, (c < 1 + nl)%nat -> (k < nall c)%nat ->
    let r := (total nall c + k)%nat in
    let l := entry nq c (tall r) in
    (r < T)%nat /\
    rec_f out r = dot n (U r) (mv n Si (resid m L fall q)) + dot m l q /\
    rec_fe out r = sigma * sqrt ((V r - dot n (U r) (mv n Si (U r)) + dot m (dd n Si L (U r) l) (mv m Gi (dd n Si L (U r) l))) / (sigma * sigma)).
Proof.
  intros IP trf tri dt dl nq nl ncon tc fe em lnn tl fall p0 p1 p2 nall tall US AS mem A wk L0 W0 D0 phi0 Lr0 f0 PE0 SS Si L U V sigma syserr size n T
    LP LT LL NQ NL NC PT ET SY PD IV CC ST AP TD HU HV out m.
  assert (TP : 0 < exp p2) by apply exp_pos.
  assert (SG : 0 < sigma) by (apply Rmult_lt_0_compat; [apply exp_pos|apply sqrt_lt_R0; auto]).
  assert (S2 : 0 < sigma * sigma) by nra.
  assert (ET' : line_start (nall 0%nat) (fun k => nall (1 + k)%nat) nl = T).
  { rewrite line_start_total. unfold T. rewrite !total_psum. cbn [Nat.add]. generalize (S nl). induction n0 as [|x IH]; [reflexivity|].
    cbn [psum]. rewrite IH. f_equal. destruct x; reflexivity. }
  unfold out, rec_line_set. clear out. unfold m. clear m. fold sigma. rewrite ET'. rewrite (line_start_total ncon lnn nl). fold size. change (total size (S nl)) with n.
  set (C := fun i j => / (sigma * sigma) * SS i j).
  assert (SPD : spd n SS) by (apply spd_of; auto).
  assert (SPC : spd n C) by (apply spd_scal; auto; apply Rinv_0_lt_compat; auto).
  assert (HI : inv_of n SS Si) by (intros i j I J; destruct (IV i j I J); auto).
  assert (PT' : proper_times ncon ((exp p0 - 1) * em / sigma) tc (fun i => fe i / sigma)).
  { intros i I. destruct (PT i I) as [|[E H]]; [left; auto|right; split; auto].
    fold syserr. unfold Rdiv. pose proof (Rinv_neq_0_compat sigma). destruct H as [H|H]; [left|right]; apply Rmult_integral_contrapositive; split; auto; apply H0; lra. }
  pose proof (C29_semiseparable_iter IP trf tri dt dl mem A wk n size nl C 1 (exp p2)
     ((exp p0 - 1) * em / sigma) tc (fun i => fe i / sigma) W0 D0 phi0 LP LT LL NC ltac:(lra) TP PT' NL eq_refl AP) as G.
  match type of G with ?h1 -> ?h2 -> ?h3 -> ?h4 -> ?w => assert (G' : w) end.
  { apply G.
    - exact (proj1 SPC).
    - intros k K. assert (LE : (total size k <= n)%nat).
      { unfold n. rewrite !total_psum. apply psum_le. lia. }
      replace n with (total size k + (n - total size k))%nat in SPC by lia.
      apply (C29_positive_definite_leading (total size k) (n - total size k) C); [exact (proj1 SPC)|].
      intros x X. exact (proj2 SPC x X).
    - intros i j I J. unfold C. rewrite CC by auto. unfold covariance. fold syserr. destruct (Nat.eqb i j); field; lra.
    - intros i j I J. rewrite ST by auto. unfold C. field. lra. }
  change (fun k : nat => match k with 0%nat => ncon | S q => lnn q end) with size.
  destruct (inverse_semiseparable_iter trf tri dt dl tc 1 (1 / exp p2) (fun i => fe i / sigma)
     ((exp p0 - 1) * em / sigma) W0 D0 phi0 mem A n size nl wk) as [mem' ld].
  destruct G' as [GI _].
  assert (INJ : forall v, (forall i, (i < n)%nat -> mv (nq * (1 + nl)) L v i = 0) -> forall j, (j < nq * (1 + nl))%nat -> v j = 0).
  { intros v. unfold n. rewrite total_psum. apply (design_inj nq (1 + nl) size (times_of tc tl)); [|exact ET].
    intros c k m. rewrite <- total_psum. apply design_entry; auto. }
  assert (GI' : inv_of n C (fun i j => mem' (A + i * n + j)%nat)) by (intros i j I J; destruct (GI i j I J); auto).
  pose proof (inv_scal n (/ (sigma * sigma)) SS Si (Rinv_neq_0_compat _ (Rgt_not_eq _ _ S2)) HI) as HC.
  pose proof (spd_inv _ _ _ SPD HI) as PDi.
  assert (EG : exists Gi, inv_of (nq * (1 + nl)) (gram n Si L) Gi).
  { apply det_inv. pose proof (spd_det _ _ (gram_spd _ _ _ _ PDi INJ)). lra. }
  destruct EG as [Gi HGi]. exists Gi. split; [exact HGi|]. cbv zeta.
  destruct (line_rec_end_ok trf tri LP n (nq * (1 + nl)) T (fun x => mem' (A + x)%nat) (trend_matrix nq nl ncon tc lnn tl L0) fall US AS
    (rec_trend nq nl nall tall Lr0) f0 PE0 sigma SS Si L Gi SG SPD HI HGi INJ) as [R1 R2].
  - intros i j I J. replace (A + (i * n + j))%nat with (A + i * n + j)%nat by lia.
    rewrite (inv_unique GI' HC I J). field. lra.
  - intros i j I J. destruct (curve_at size (1 + nl) i) as (c & k & Hc & Hk & E); [unfold n in I; rewrite total_psum in I; auto|].
    rewrite E. unfold size. rewrite trend_matrix_ok by (auto; lia). fold size. rewrite <- total_psum.
    symmetry. apply (design_entry nq (1 + nl) size (times_of tc tl) L TD); auto.
  - split; [exact R1|]. intros c k Hc Hk. set (r := (total nall c + k)%nat).
    assert (RT : (r < T)%nat).
    { unfold r, T. rewrite (total_psum nall c), (total_psum nall (1 + nl)). pose proof (psum_le (1 + nl) (S c) nall ltac:(lia)) as X. change (psum nall (S c)) with (psum nall c + nall c)%nat in X. lia. }
    split; [exact RT|]. apply (R2 r (U r) (entry nq c (tall r)) (V r) RT).
    + intros j J. apply HU; auto.
    + apply HV; auto.
    + intros j J. unfold r. rewrite total_psum. apply rec_trend_ok; auto. lia.
Qed.

(** nall c points of curve c are reconstructed, point k of curve c at time
    tall (total nall c + k).  U r k is the covariance of the true curve at reconstructed
    point r with datum k and V r its variance (their values are the subject of C36). *)
Theorem C60_light_curves : forall IP (dsytrf : nat -> (nat -> nat -> R) -> (nat -> nat -> R) * IP) dsytri dtrtri dlauum
    nq nl ncon tc fe error_mean lnn tl fall p0 p1 p2 nall tall US AS mem A wk L0 W0 D0 phi0 Lr0 f0 PE0 S Si L U V,
  let sigma := exp p1 * sqrt (exp p2) in
  let syserr := (exp p0 - 1) * error_mean in
  let size := narr_of ncon lnn in
  let n := total size (1 + nl) in
  let T := total nall (1 + nl) in
  dsytr_spec dsytrf dsytri -> dtrtri_spec dtrtri -> dlauum_spec dlauum ->
  (1 <= nq)%nat -> (1 <= nl)%nat -> (1 <= ncon)%nat ->
  proper_times ncon syserr tc fe ->
  (forall c, (c < 1 + nl)%nat -> enough_times nq (size c) (times_of tc tl c)) ->
  symmetric n S -> positive_definite n S -> is_inverse n S Si ->
  (forall i j, (i < ncon)%nat -> (j < ncon)%nat -> S i j = covariance (sigma * sigma) (exp p2) syserr tc fe i j) ->
  stored mem A n (fun i j => S i j / (sigma * sigma)) -> apart A (n * n) wk (2 * (n * n)) ->
  trend_design nq (1 + nl) size (times_of tc tl) L ->
  (forall r k, (r < T)%nat -> (k < n)%nat -> US (r * n + k)%nat = U r k / (sigma * sigma)) ->
  (forall r, (r < T)%nat -> AS (r * T + r)%nat = V r / (sigma * sigma)) ->
  (forall r, (r < T)%nat -> joint_covariance n S (U r) (V r)) ->
  let out := rec_line_set dsytrf dsytri dtrtri dlauum nq nl ncon tc fe error_mean lnn tl fall p0 p1 p2 nall tall US AS mem A wk L0 W0 D0 phi0 Lr0 f0 PE0 in
  least_squares n (nq * (1 + nl)) Si L fall (rec_yq out) /\
  forall c k, (c < 1 + nl)%nat -> (k < nall c)%nat ->
    let r := (total nall c + k)%nat in
    best_prediction n (nq * (1 + nl)) S L (U r) (V r) (fun v => trend_at nq v c (tall r)) fall (rec_f out r) (rec_fe out r).
Proof.
  intros IP trf tri dt dl nq nl ncon tc fe em lnn tl fall p0 p1 p2 nall tall US AS mem A wk L0 W0 D0 phi0 Lr0 f0 PE0 SS Si L U V sigma syserr size n T
    LP LT LL NQ NL NC PT ET SY PD IV CC ST AP TD HU HV JC out.
  destruct (rec_line_value IP trf tri dt dl nq nl ncon tc fe em lnn tl fall p0 p1 p2 nall tall US AS mem A wk L0 W0 D0 phi0 Lr0 f0 PE0 SS Si L U V
    LP LT LL NQ NL NC PT ET SY PD IV CC ST AP TD HU HV) as (Gi & HGi & R1 & R2).
  fold sigma size in HGi, R1, R2. fold n in HGi, R1, R2. fold out in R1, R2.
  assert (SG : 0 < sigma) by (apply Rmult_lt_0_compat; [apply exp_pos|apply sqrt_lt_R0, exp_pos]).
  assert (SPD : spd n SS) by (apply spd_of; auto).
  assert (HI : inv_of n SS Si) by (intros i j I J; destruct (IV i j I J); auto).
  pose proof (spd_inv _ _ _ SPD HI) as PDi.
  assert (INJ : forall v, (forall i, (i < n)%nat -> mv (nq * (1 + nl)) L v i = 0) -> forall j, (j < nq * (1 + nl))%nat -> v j = 0).
  { intros v. unfold n. rewrite total_psum. apply (design_inj nq (1 + nl) size (times_of tc tl)); [|exact ET].
    intros c k m. rewrite <- total_psum. apply design_entry; auto. }
  split; [apply (ls_link n (nq * (1 + nl)) Si L fall Gi); auto|].
  intros c k Hc Hk. destruct (R2 c k Hc Hk) as (RT & E1 & E2). cbv zeta.
  apply (best_core n (nq * (1 + nl)) SS Si L Gi (U (total nall c + k)%nat) (V (total nall c + k)%nat) _ (entry nq c (tall (total nall c + k)%nat)) fall sigma); auto.
  intros v. unfold trend_at. symmetry. apply sumn_window. nia.
Qed.
Print Assumptions C60_light_curves.

(** ** The continuum alone *)

(** What dgetrf and dgetri are for: the inverse of a nonsingular matrix. *)
Definition dget_spec (dget : nat -> arr -> arr) : Prop :=
  forall n a G Gi, stored a 0 n G -> is_inverse n G Gi -> stored (dget n a) 0 n Gi.

(** The damped random walk itself needs no hypothesis on the covariances. *)
Theorem C60_kernel_nonnegative : forall n s2 tau syserr t err s,
  0 < s2 -> 0 < tau -> joint_covariance n (covariance s2 tau syserr t err) (fun k => s2 * exp (- (Rabs (s - t k) / tau))) s2.
Proof.
  intros n s2 tau syserr t err s S2 TP x0 x.
  pose proof (joint_nonneg tau TP n t x s x0) as H. unfold kk in H.
  assert (E : sumn n (fun k => sumn n (fun l => x k * covariance s2 tau syserr t err k l * x l)) =
    s2 * sumn n (fun k => sumn n (fun l => x k * exp (- (Rabs (t k - t l) / tau)) * x l)) + sumn n (fun k => (err k ^ 2 + syserr ^ 2) * x k ^ 2)).
  { rewrite <- sumn_scal, <- sumn_plus. apply sumn_ext. intros k K. rewrite <- sumn_scal.
    assert (F : sumn n (fun l => if Nat.eqb k l then (err k ^ 2 + syserr ^ 2) * x k ^ 2 else 0) = (err k ^ 2 + syserr ^ 2) * x k ^ 2).
    { rewrite (sumn_single n k); [rewrite Nat.eqb_refl; reflexivity|auto|]. intros i I NE. destruct (Nat.eqb_spec k i); [lia|reflexivity]. }
    rewrite <- F, <- sumn_plus. apply sumn_ext. intros l Hl. unfold covariance. destruct (Nat.eqb_spec k l) as [->|]; ring. }
  rewrite E.
  assert (P : 0 <= sumn n (fun k => (err k ^ 2 + syserr ^ 2) * x k ^ 2)).
  { clear. induction n; cbn [sumn]; [lra|]. assert (0 <= (err n ^ 2 + syserr ^ 2) * x n ^ 2); [|lra]. apply Rmult_le_pos; nra. }
  rewrite (sumn_ext n (fun k => x k * (s2 * exp (- (Rabs (s - t k) / tau)))) (fun k => s2 * (x k * exp (- (Rabs (s - t k) / tau))))) by (intros; ring).
  rewrite sumn_scal. nra.
Qed.
Print Assumptions C60_kernel_nonnegative.

Theorem C60_continuum : forall dget nq n t f fe sigma tau syserr T tall L0 W0 D0 phi0 Z0 Lr0 PE10 PE20 f0 Si,
  let S := covariance (sigma * sigma) tau syserr t fe in
  dget_spec dget -> (1 <= nq)%nat -> (1 <= n)%nat -> 0 < sigma -> 0 < tau ->
  proper_times n syserr t fe -> enough_times nq n t -> is_inverse n S Si ->
  let out := rec_con_set dget nq n t f fe sigma tau syserr T tall L0 W0 D0 phi0 Z0 Lr0 PE10 PE20 f0 in
  least_squares n nq Si (fun k j => t k ^ j) f (rec_yq out) /\
  forall i, (i < T)%nat ->
    best_prediction n nq S (fun k j => t k ^ j) (fun k => sigma * sigma * exp (- (Rabs (tall i - t k) / tau))) (sigma * sigma)
      (fun v => sumn nq (fun j => v j * tall i ^ j)) f (rec_f out i) (rec_fe out i).
Proof.
  intros dget nq n t f fe sigma tau syserr T tall L0 W0 D0 phi0 Z0 Lr0 PE10 PE20 f0 Si SS DG NQ N SG TP PT ET IV out.
  assert (S2 : 0 < sigma * sigma) by nra. set (s2 := sigma * sigma) in *.
  set (L := fun i j => t i ^ j) in *.
  assert (SPD : spd n SS).
  { split.
    - intros i j I J. unfold SS, covariance. rewrite Rabs_minus_sym. destruct (Nat.eqb_spec i j) as [->|NE]; [rewrite Nat.eqb_refl; reflexivity|].
      destruct (Nat.eqb_spec j i); [congruence|reflexivity].
    - intros x X. apply C28_positive_definite; auto. }
  assert (HI : inv_of n SS Si) by (intros i j I J; destruct (IV i j I J); auto).
  pose proof (spd_inv _ _ _ SPD HI) as PDi.
  assert (HL : forall i j, (i < n)%nat -> (j < nq)%nat -> con_trend nq n t L0 (i * nq + j)%nat = L i j) by (intros; apply con_trend_ok; auto).
  assert (INJ : forall v, (forall i, (i < n)%nat -> mv nq L v i = 0) -> forall j, (j < nq)%nat -> v j = 0).
  { intros v Z j J. destruct ET as (pick & P1 & P2).
    refine (@poly_zero nq v (fun i => t (pick i)) P2 _ j J).
    intros i I. etransitivity; [|apply (Z (pick i)); auto]. apply sumn_ext. intros k K. unfold L. ring. }
  pose proof (gram_spd _ _ _ _ PDi INJ) as PG. set (G := gram n Si L) in *.
  assert (EG : exists Gi, inv_of nq G Gi). { apply det_inv. pose proof (spd_det _ _ PG). lra. }
  destruct EG as [Gi HGi].
  unfold rec_con_set in out. fold s2 in out.
  pose proof (C26_matrix n nq s2 tau syserr t fe (con_trend nq n t L0) Z0 W0 D0 phi0 N S2 TP PT) as CM.
  pose proof (C26_matrix n T s2 tau syserr t fe (con_Umat tau n t T tall) PE10 W0 D0 phi0 N S2 TP PT) as CT.
  destruct (compute_semiseparable_drw t n s2 (1 / tau) fe syserr W0 D0 phi0) as [[W D] phi].
  destruct CM as [CM _]. destruct CT as [_ CT].
  set (ybuf := multiply_mat_semiseparable_drw (con_trend nq n t L0) W D phi n nq s2 Z0) in *.
  set (PE1 := multiply_mat_transposeB_semiseparable_drw (con_Umat tau n t T tall) W D phi n T s2 PE10) in *.
  assert (SOL : forall z y, solution n SS z y -> forall i, (i < n)%nat -> z i = mv n Si y i).
  { intros z y H i I. rewrite <- (mv_id n Si SS z i (inv_swap _ _ _ HI) I). apply mv_ext; auto. }
  assert (EY : forall i j, (i < n)%nat -> (j < nq)%nat -> ybuf (i * nq + j)%nat = sumn n (fun l => Si i l * L l j)).
  { intros i j I J. rewrite (SOL (fun i => ybuf (i * nq + j)%nat) _ (CM j J) i I). unfold mv. apply sumn_ext. intros l Hl. rewrite HL by auto. reflexivity. }
  set (Cq := mul_tA (con_trend nq n t L0) ybuf nq nq n) in *.
  assert (ECq : stored Cq 0 nq G).
  { intros i j I J. cbn [Nat.add]. unfold Cq, mul_tA. rewrite tab_val by auto. unfold G, gram. apply sumn_ext.
    intros l Hl. rewrite EY, HL by auto. reflexivity. }
  pose proof (DG nq Cq G Gi ECq (inverse_both _ _ _ HGi)) as H1.
  set (Cq' := dget nq Cq) in *. set (yuq := matvec_tA ybuf n nq f) in *.
  set (yq := mul_MN Cq' yuq nq 1 nq) in *. set (q := mv nq Gi (mv n (tr L) (mv n Si f))).
  assert (Q : forall j, (j < nq)%nat -> yq j = q j).
  { intros j J. unfold yq, mul_MN. replace j with (j * 1 + 0)%nat at 1 by lia. rewrite tab_val by lia.
    unfold q, mv at 1. apply sumn_ext. intros l Hl. change (j * nq + l)%nat with (0 + j * nq + l)%nat. rewrite H1 by auto.
    replace (l * 1 + 0)%nat with l by lia. f_equal. unfold yuq, matvec_tA. rewrite mv_mv. unfold mv, tr.
    apply sumn_ext. intros k K. rewrite EY by auto. f_equal. apply sumn_ext. intros b B. rewrite (proj1 PDi b k B K). ring. }
  set (y := matvec_ab (con_trend nq n t L0) n nq yq f (-1) 1) in *.
  assert (Y : forall i, (i < n)%nat -> y i = resid nq L f q i).
  { intros i I. unfold y, matvec_ab, resid, mv. rewrite (sumn_ext nq _ (fun j => L i j * q j)); [ring|].
    intros j J. rewrite HL, Q by auto. reflexivity. }
  split; [apply (ls_link n nq Si L f Gi); auto|].
  intros i I. set (u := fun k => s2 * exp (- (Rabs (tall i - t k) / tau))). set (l := fun j => tall i ^ j).
  assert (HU : forall k, (k < n)%nat -> con_Umat tau n t T tall (i * n + k)%nat = u k / s2).
  { intros k K. unfold con_Umat. rewrite tab_val by auto. unfold u. field. lra. }
  assert (E1 : forall k, (k < n)%nat -> PE1 (k * T + i)%nat = mv n Si u k / s2).
  { intros k K. rewrite (SOL (fun k => PE1 (k * T + i)%nat) _ (CT i I) k K). unfold mv, Rdiv. rewrite (Rmult_comm _ (/ s2)), <- sumn_scal.
    apply sumn_ext. intros j J. rewrite HU by auto. unfold Rdiv. ring. }
  assert (HLr : forall j, (j < nq)%nat -> con_trend nq T tall Lr0 (i * nq + j)%nat = l j) by (intros; apply con_trend_ok; auto).
  apply (best_core n nq SS Si L Gi u s2 _ l f sigma); auto.
  - apply C60_kernel_nonnegative; auto.
  - intros v. apply sumn_ext. intros j J. unfold l. ring.
  - unfold out. cbn [rec_f]. unfold matvec_ab at 1. unfold matvec_tA_ab. fold q.
    rewrite (dot_comm n u), (sym_dot n Si _ u (proj1 PDi)).
    rewrite (sumn_ext n _ (fun k => / s2 * (resid nq L f q k * mv n Si u k))) by (intros k K; rewrite E1, Y by auto; unfold Rdiv; ring).
    rewrite (sumn_ext nq _ (fun j => l j * q j)) by (intros j J; rewrite HLr, Q by auto; reflexivity).
    rewrite sumn_scal. unfold dot. field. lra.
  - unfold out. cbn [rec_fe]. fold s2. set (Dd := dd n Si L u l). f_equal. f_equal.
    set (Lr := mul_tA_ab PE1 (con_trend nq n t L0) (con_trend nq T tall Lr0) T nq n s2 (-1)).
    assert (EL : forall j, (j < nq)%nat -> Lr (i * nq + j)%nat = - Dd j).
    { intros j J. unfold Lr, mul_tA_ab. rewrite tab_val by auto. rewrite HLr by auto. unfold Dd, dd, mv at 1.
      rewrite (sumn_ext n _ (fun k => / s2 * (tr L j k * mv n Si u k))).
      - rewrite sumn_scal. field. lra.
      - intros k K. rewrite E1, HL by auto. unfold tr, Rdiv. ring. }
    unfold mul_tB_ab. rewrite tab_val by auto. unfold mul_MN_ab at 2. rewrite tab_val by auto.
    rewrite (sumn_ext nq _ (fun j => / s2 * (mv nq (tr Gi) Dd j * Dd j))).
    2: { intros j J. unfold mul_MN_ab. rewrite tab_val by auto. rewrite EL by auto.
         rewrite (sumn_ext nq _ (fun b => -1 * (tr Gi j b * Dd b))).
         - rewrite sumn_scal. unfold mv, Rdiv. ring.
         - intros b B. change (b * nq + j)%nat with (0 + b * nq + j)%nat. rewrite EL, H1 by auto. unfold tr. ring. }
    rewrite (sumn_ext n _ (fun k => / s2 * / s2 * (u k * mv n Si u k))) by (intros k K; rewrite HU, E1 by auto; unfold Rdiv; ring).
    rewrite !sumn_scal. rewrite (dot_tr nq nq Dd Gi). unfold dot. field. lra.
Qed.
Print Assumptions C60_continuum.

(** ** Cases meeting the hypotheses *)
Definition ref_dget (n : nat) (a : arr) : arr := tab n (invn n (fun i j => a (i * n + j)%nat)).
Example dget_exists : dget_spec ref_dget.
Proof.
  intros n a G Gi ST IV i j I J. cbn [Nat.add]. unfold ref_dget. rewrite tab_val by auto.
  assert (HI : inv_of n (fun i j => a (i * n + j)%nat) Gi).
  { intros x z X Z. destruct (IV x z X Z) as [E _]. etransitivity; [|exact E]. apply sumn_ext. intros k K.
    specialize (ST x k X K). cbn [Nat.add] in ST. rewrite ST. reflexivity. }
  refine (inv_unique _ HI I J). apply invn_ok. apply det_inv. eauto.
Qed.

(** Linear trends, three continuum and three line points; the continuum is reconstructed
    at times 1/2 and 1, the line at time 7/2, in one damped random walk. *)
Definition ex_tall (r : nat) : R := match r with 0%nat => 1 / 2 | 1%nat => 1 | _ => 7 / 2 end.
Definition ex_U (r k : nat) : R := exp (- (Rabs (ex_tall r - INR k) / 1)).
Example C60_example : exists Si,
  is_inverse 6 exS Si /\
  let out := rec_line_set ref_dsytrf ref_dsytri ref_dtrtri ref_dlauum 2 1 3 (fun i => INR i) (fun _ => 0) 1 (fun _ => 3%nat)
    (fun _ k => INR (3 + k)) (fun i => INR (i * i)) 0 0 0 (fun c => (2 - c)%nat) ex_tall
    (tab 6 ex_U) (fun _ => 1) (store (fun _ => 0) 0 6 6 exS) 0 36 (fun _ => 0) (fun _ => 0) (fun _ => 0) (fun _ => 0) (fun _ => 0) (fun _ => 0) (fun _ => 0) in
  best_prediction 6 4 exS
    (fun i j => trend_matrix 2 1 3 (fun i => INR i) (fun _ => 3%nat) (fun _ k => INR (3 + k)) (fun _ => 0) (i * 4 + j)%nat)
    (ex_U 2) 1 (fun v => trend_at 2 v 1 (7 / 2)) (fun i => INR (i * i)) (rec_f out 2%nat) (rec_fe out 2%nat).
Proof.
  destruct (exS_ok 6) as [SY PD].
  destruct (proj1 (det_inv 6 exS)) as [Si HI]; [pose proof (spd_det 6 exS (spd_of _ _ SY PD)); lra|].
  exists Si. split; [exact (inverse_both _ _ _ HI)|].
  assert (SG : exp 0 * sqrt (exp 0) = 1) by (rewrite exp_0, sqrt_1; ring).
  destruct (C60_light_curves _ ref_dsytrf ref_dsytri ref_dtrtri ref_dlauum 2 1 3 (fun i => INR i) (fun _ => 0) 1 (fun _ => 3%nat)
    (fun _ k => INR (3 + k)) (fun i => INR (i * i)) 0 0 0 (fun c => (2 - c)%nat) ex_tall (tab 6 ex_U) (fun _ => 1) (store (fun _ => 0) 0 6 6 exS) 0 36
    (fun _ => 0) (fun _ => 0) (fun _ => 0) (fun _ => 0) (fun _ => 0) (fun _ => 0) (fun _ => 0) exS Si
    (fun i j => trend_matrix 2 1 3 (fun i => INR i) (fun _ => 3%nat) (fun _ k => INR (3 + k)) (fun _ => 0) (i * 4 + j)%nat)
    ex_U (fun _ => 1)) as [_ P2]; auto; try lia.
  - exact C29_contract_met.
  - exact dtrtri_exists.
  - exact dlauum_exists.
  - intros i _. left. rewrite S_INR. lra.
  - intros c C. exists (fun i => i). assert (c = 0 \/ c = 1)%nat as [-> | ->] by lia; split; simpl narr_of; try (intros; lia); intros i j I J E; cbn [times_of] in E; apply INR_eq in E; lia.
  - exact (inverse_both _ _ _ HI).
  - intros i j I J. rewrite SG, exp_0. unfold exS. f_equal; ring.
  - intros i j I J. rewrite SG. change (total (narr_of 3 (fun _ => 3%nat)) (1 + 1)) with 6%nat in *. rewrite (store_in (fun _ => 0) 0 6 6 exS) by auto. field.
  - left. simpl. lia.
  - exact (C30_trend_matrix 2 1 3 (fun i => INR i) (fun _ => 3%nat) (fun _ k => INR (3 + k)) (fun _ => 0) ltac:(lia)).
  - intros r k R K. rewrite SG. change (total (narr_of 3 (fun _ => 3%nat)) (1 + 1)) with 6%nat in *. rewrite tab_val by auto. field.
  - intros r R. rewrite SG. field.
  - intros r R x0 x. pose proof (C60_kernel_nonnegative 6 1 1 0 (fun i => INR i) (fun _ => 0) (ex_tall r) ltac:(lra) ltac:(lra) x0 x) as H.
    unfold exS, ex_U. change (total (narr_of 3 (fun _ => 3%nat)) (1 + 1)) with 6%nat in *.
    eapply Rle_trans; [exact H|]. right. f_equal. f_equal. f_equal. apply sumn_ext. intros; ring.
  - exact (P2 1%nat 0%nat ltac:(lia) ltac:(lia)).
Qed.

(** The continuum alone: three points, one with an error, two at the same time; five
    reconstructed times, before, between and after the data. *)
Example C60_continuum_example : exists Si,
  is_inverse 3 (covariance (2 * 2) 3 0 ex_t ex_e) Si /\
  let out := rec_con_set ref_dget 2 3 ex_t (fun i => INR (i * i)) ex_e 2 3 0 5 (fun i => INR i - 2)
    (fun _ => 0) (fun _ => 0) (fun _ => 0) (fun _ => 0) (fun _ => 0) (fun _ => 0) (fun _ => 0) (fun _ => 0) (fun _ => 0) in
  least_squares 3 2 Si (fun k j => ex_t k ^ j) (fun i => INR (i * i)) (rec_yq out) /\ 0 <= rec_fe out 4%nat.
Proof.
  destruct (proj1 (det_inv 3 (covariance (2 * 2) 3 0 ex_t ex_e))) as [Si HI].
  { assert (X : spd 3 (covariance (2 * 2) 3 0 ex_t ex_e)); [|pose proof (spd_det _ _ X); lra]. split.
    - intros i j I J. unfold covariance. rewrite Rabs_minus_sym. destruct (Nat.eqb_spec i j) as [->|NE]; [rewrite Nat.eqb_refl; reflexivity|].
      destruct (Nat.eqb_spec j i); [congruence|reflexivity].
    - intros x X. apply C28_positive_definite; auto; try lra. exact C26_28_example. }
  exists Si. split; [exact (inverse_both _ _ _ HI)|].
  destruct (C60_continuum ref_dget 2 3 ex_t (fun i => INR (i * i)) ex_e 2 3 0 5 (fun i => INR i - 2)
    (fun _ => 0) (fun _ => 0) (fun _ => 0) (fun _ => 0) (fun _ => 0) (fun _ => 0) (fun _ => 0) (fun _ => 0) (fun _ => 0) Si dget_exists) as [P1 P2]; try lia; try lra.
  - exact C26_28_example.
  - exists (fun i => i). split; [intros; lia|]. intros i j I J E. assert (i = 0 \/ i = 1)%nat as [-> | ->] by lia; assert (j = 0 \/ j = 1)%nat as [-> | ->] by lia; auto; cbn in E; lra.
  - exact (inverse_both _ _ _ HI).
  - split; [exact P1|]. destruct (P2 4%nat ltac:(lia)) as (w & _ & _ & P & _). exact P.
Qed.
