(** C66: the decomposed light curves are the best linear unbiased predictions of the
    components, they add up to the reconstructed line, and the decomposed errors are
    the prediction errors for a known trend only.  Real arithmetic, no rounding. *)
From Coq Require Import Reals List Arith Lia Lra Psatz Bool.
From Verif Require Import SemisepModel SemisepProofs SemisepProofs2 MatBridge MatBridge2 SemisepProofs3 PropSemisep
  PartModel PartProofs PartProofs2 PropPart PolyRoots GlsAlgebra LikeModel LikeProofs PropLike PredModel PredProofs PropPred DecompModel DecompProofs.
From Verif Require KernelModel KernelSpec PropKernel PropCov CovModel CovProofs CovProofs2 MixModel DecompMat PropDecompCov.
Import ListNotations.
Open Scope R_scope.

(** ** What the statements are about *)

(** The part of the trend of curve c that belongs to component g: the continuum (c = 0)
    keeps all of its trend; a line gives each component a part in proportion to its
    area, or nothing when areas may be negative (flag).  area j g is the area of
    component g of line j. *)
Definition part_of_trend (flag : bool) (ng : nat) (area : nat -> nat -> R) (g c : nat) : R :=
  match c with
  | O => 1
  | S j => if flag then 0 else area j g / sumn ng (area j)
  end.
(** value is the best linear unbiased prediction; the best weights are unique *)
Definition best_value (n m : nat) (SS L : nat -> nat -> R) (u : nat -> R) (A : R) (target : (nat -> R) -> R) (y : nat -> R) (value : R) : Prop :=
  exists w, unbiased n m L target w /\ value = sumn n (fun k => w k * y k) /\
    (forall w', unbiased n m L target w' -> error_variance n SS u A w <= error_variance n SS u A w') /\
    (forall w', unbiased n m L target w' -> error_variance n SS u A w' <= error_variance n SS u A w -> forall k, (k < n)%nat -> w' k = w k).
(** err is the least standard error of any linear prediction, unbiased or not: what is
    left when the trend is known *)
Definition known_trend_error (n : nat) (SS : nat -> nat -> R) (u : nat -> R) (A : R) (err : R) : Prop :=
  0 <= err /\ (exists w, err * err = error_variance n SS u A w) /\ (forall w, err * err <= error_variance n SS u A w).

(** ** Links to the proofs *)
Lemma value_core : forall n m SS Si L Gi u A target l y value,
  spd n SS -> inv_of n SS Si ->
  (forall v, (forall i, (i < n)%nat -> mv m L v i = 0) -> forall j, (j < m)%nat -> v j = 0) ->
  inv_of m (gram n Si L) Gi ->
  (forall v, target v = sumn m (fun j => l j * v j)) ->
  value = dot n u (mv n Si (resid m L y (mv m Gi (mv n (tr L) (mv n Si y))))) + dot m l (mv m Gi (mv n (tr L) (mv n Si y))) ->
  best_value n m SS L u A target y value.
Proof.
  intros n m SS Si L Gi u A target l y value PD HI INJ HG HT EV.
  pose proof (spd_inv _ _ _ PD HI) as PDi. pose proof (gram_spd _ _ _ _ PDi INJ) as PG. pose proof (proj1 (spd_inv _ _ _ PG HG)) as GS.
  exists (ww n m Si L Gi u l). set (w := ww n m Si L Gi u l).
  pose proof (fun w' => unb_link n m L target l w' HT) as UL.
  split; [apply UL; apply (ww_unbiased n m Si L Gi u l HG)|].
  split; [rewrite EV; symmetry; apply (ww_pred n m SS Si L Gi u l y PD HI GS)|].
  split.
  - intros w' U. apply (mse_best n m SS Si L Gi u l A PD HI HG). apply UL. auto.
  - intros w' U H k K. apply (mse_unique n m SS Si L Gi u l A PD HI HG w'); auto. apply UL. auto.
Qed.

Lemma error_core : forall n SS Si u A sigma err, 0 < sigma -> spd n SS -> inv_of n SS Si -> joint_covariance n SS u A ->
  err = sigma * sqrt ((A - dot n u (mv n Si u)) / (sigma * sigma)) -> known_trend_error n SS u A err.
Proof.
  intros n SS Si u A sigma err SG PD HI JC EE.
  set (Z := fun _ _ : nat => 0). set (l := fun _ : nat => 0). set (w := ww n 0 Si Z Z u l).
  assert (HG : inv_of 0 (gram n Si Z) Z) by (intros i j I; lia).
  assert (M : mse n SS u A w = A - dot n u (mv n Si u)).
  { unfold w. rewrite (mse_ww n 0 SS Si Z Z u l A PD HI HG). unfold dot at 2. cbn [sumn]. ring. }
  assert (B : forall w', error_variance n SS u A w <= error_variance n SS u A w').
  { intros w'. apply (mse_best n 0 SS Si Z Z u l A PD HI HG). intros; lia. }
  assert (MP : 0 <= mse n SS u A w).
  { specialize (JC 1 (fun k => - w k)). cbv beta in JC. unfold mse, dot, quad.
    rewrite (sumn_ext n (fun k => - w k * u k) (fun k => -1 * (w k * u k))) in JC by (intros; ring). rewrite sumn_scal in JC.
    rewrite (sumn_ext n (fun k => sumn n (fun l0 => - w k * SS k l0 * - w l0)) (fun k => sumn n (fun l0 => w k * SS k l0 * w l0))) in JC
      by (intros; apply sumn_ext; intros; ring). lra. }
  assert (S2 : 0 < sigma * sigma) by nra.
  assert (E : err * err = error_variance n SS u A w).
  { rewrite EE, <- M.
    replace (sigma * sqrt (mse n SS u A w / (sigma * sigma)) * (sigma * sqrt (mse n SS u A w / (sigma * sigma))))
      with (sigma * sigma * (sqrt (mse n SS u A w / (sigma * sigma)) * sqrt (mse n SS u A w / (sigma * sigma)))) by ring.
    rewrite sqrt_sqrt; [change (error_variance n SS u A w) with (mse n SS u A w); field; lra|]. apply Rmult_le_pos; [exact MP|left; apply Rinv_0_lt_compat; auto]. }
  split; [rewrite EE; apply Rmult_le_pos; [lra|apply sqrt_pos]|].
  split; [exists w; exact E|]. intros w'. rewrite E. apply B.
Qed.

Lemma part_share : forall flag ng pm idx_line g c,
  share flag ng pm idx_line g c = part_of_trend flag ng (fun j g => exp (pm (idx_line j + 1 + 3 * g)%nat)) g c.
Proof. reflexivity. Qed.

Lemma rows_total : forall (nall : nat -> nat) nl, line_start (nall 0%nat) (fun k => nall (1 + k)%nat) nl = total nall (1 + nl).
Proof.
  intros nall nl. rewrite line_start_total. rewrite !total_psum. cbn [Nat.add]. generalize (S nl). induction n as [|x IH]; [reflexivity|].
  cbn [psum]. rewrite IH. f_equal. destruct x; reflexivity.
Qed.

(** the values, before they are interpreted *)
Lemma decompose_value : forall dgesol flag ng pm idx_line nq nl ncon tc lnn tl fall p1 p2 nall tall g PC US AS L0 Lr0 UT0 S Si L Gi U V,
  let sigma := exp p1 * sqrt (exp p2) in
  let size := narr_of ncon lnn in
  let n := total size (1 + nl) in
  let T := total nall (1 + nl) in
  dgesol_spec dgesol -> (1 <= nq)%nat -> spd n S -> inv_of n S Si ->
  stored PC 0 n (fun i j => S i j / (sigma * sigma)) ->
  trend_design nq (1 + nl) size (times_of tc tl) L ->
  inv_of (nq * (1 + nl)) (gram n Si L) Gi ->
  (forall r k, (r < T)%nat -> (k < n)%nat -> US (r * n + k)%nat = U r k / (sigma * sigma)) ->
  (forall r, (r < T)%nat -> AS (r * T + r)%nat = V r / (sigma * sigma)) ->
  let out := decompose dgesol flag ng pm idx_line nq nl ncon tc lnn tl fall p1 p2 nall tall g PC US AS L0 Lr0 UT0 in
  let m := (nq * (1 + nl))%nat in
  let q := mv m Gi (mv n (tr L) (mv n Si fall)) in
  (forall j, (j < m)%nat -> rec_yq out j = q j) /\
  forall c k, (c < 1 + nl)%nat -> (k < nall c)%nat ->
    let r := (total nall c + k)%nat in
    let l := fun j => part_of_trend flag ng (fun j g => exp (pm (idx_line j + 1 + 3 * g)%nat)) g c * entry nq c (tall r) j in
    (r < T)%nat /\
    rec_f out r = dot n (U r) (mv n Si (resid m L fall q)) + dot m l q /\
    rec_fe out r = sigma * sqrt ((V r - dot n (U r) (mv n Si (U r))) / (sigma * sigma)).
Proof.
  intros dgesol flag ng pm idx_line nq nl ncon tc lnn tl fall p1 p2 nall tall g PC US AS L0 Lr0 UT0 SS Si L Gi U V sigma size n T
    DG NQ PD HI ST TD HG HU HV out m q.
  assert (SG : 0 < sigma) by (apply Rmult_lt_0_compat; [apply exp_pos|apply sqrt_lt_R0, exp_pos]).
  assert (En : line_start ncon lnn nl = n) by (rewrite line_start_total; reflexivity).
  pose proof (rows_total nall nl) as ET. fold T in ET.
  assert (HL : forall i j, (i < n)%nat -> (j < m)%nat -> trend_matrix nq nl ncon tc lnn tl L0 (i * m + j)%nat = L i j).
  { intros i j I J. destruct (curve_at size (1 + nl) i) as (c & k & C & K & E); [unfold n in I; rewrite total_psum in I; auto|].
    subst i. unfold size, m. rewrite trend_matrix_ok by (auto; lia). fold size. symmetry. rewrite <- total_psum. apply (design_entry nq (1 + nl) size (times_of tc tl) L TD); auto. }
  pose proof (decompose_ok dgesol DG flag ng pm idx_line nq nl ncon tc lnn tl fall p1 p2 nall tall g PC US AS L0 Lr0 UT0 SS Si L Gi) as D.
  cbv zeta in D. rewrite En, ET in D. fold sigma in D. fold m in D.
  destruct (D SG PD HI HG ST HL) as [D1 D2]. fold out in D1, D2. fold q in D1, D2.
  split; [exact D1|]. intros c k C K r l.
  assert (RT : (r < T)%nat).
  { unfold r, T. rewrite (total_psum nall c), (total_psum nall (1 + nl)). pose proof (psum_le (1 + nl) (S c) nall ltac:(lia)) as X. change (psum nall (S c)) with (psum nall c + nall c)%nat in X. lia. }
  split; [exact RT|]. apply (D2 r (U r) l (V r) RT).
  - intros j J. apply HU; auto.
  - apply HV; auto.
  - intros j J. unfold l, r, m in *. rewrite (total_psum nall c). rewrite dec_trend_ok by (auto; lia). rewrite part_share. reflexivity.
Qed.

(** ** The curves of one component *)

(** nq coefficients per curve, continuum and nl lines; S, L and the rest as in
    C60_light_curves.  U r k is the covariance of the target at row r (the continuum, or
    component g of a line) with datum k and V r its variance. *)
Theorem C66_component_curves : forall dgesol flag ng pm idx_line nq nl ncon tc lnn tl fall p1 p2 nall tall g PC US AS L0 Lr0 UT0 S Si L U V,
  let sigma := exp p1 * sqrt (exp p2) in
  let size := narr_of ncon lnn in
  let n := total size (1 + nl) in
  let T := total nall (1 + nl) in
  let area := fun j g => exp (pm (idx_line j + 1 + 3 * g)%nat) in
  dgesol_spec dgesol -> (1 <= nq)%nat ->
  (forall c, (c < 1 + nl)%nat -> enough_times nq (size c) (times_of tc tl c)) ->
  symmetric n S -> positive_definite n S -> is_inverse n S Si ->
  stored PC 0 n (fun i j => S i j / (sigma * sigma)) ->
  trend_design nq (1 + nl) size (times_of tc tl) L ->
  (forall r k, (r < T)%nat -> (k < n)%nat -> US (r * n + k)%nat = U r k / (sigma * sigma)) ->
  (forall r, (r < T)%nat -> AS (r * T + r)%nat = V r / (sigma * sigma)) ->
  let out := decompose dgesol flag ng pm idx_line nq nl ncon tc lnn tl fall p1 p2 nall tall g PC US AS L0 Lr0 UT0 in
  least_squares n (nq * (1 + nl)) Si L fall (rec_yq out) /\
  forall c k, (c < 1 + nl)%nat -> (k < nall c)%nat ->
    let r := (total nall c + k)%nat in
    best_value n (nq * (1 + nl)) S L (U r) (V r) (fun v => part_of_trend flag ng area g c * trend_at nq v c (tall r)) fall (rec_f out r) /\
    (joint_covariance n S (U r) (V r) -> known_trend_error n S (U r) (V r) (rec_fe out r)).
Proof.
  intros dgesol flag ng pm idx_line nq nl ncon tc lnn tl fall p1 p2 nall tall g PC US AS L0 Lr0 UT0 SS Si L U V sigma size n T area
    DG NQ ET SY PD IV ST TD HU HV out.
  assert (SG : 0 < sigma) by (apply Rmult_lt_0_compat; [apply exp_pos|apply sqrt_lt_R0, exp_pos]).
  assert (SPD : spd n SS) by (apply spd_of; auto).
  assert (HI : inv_of n SS Si) by (intros i j I J; destruct (IV i j I J); auto).
  pose proof (spd_inv _ _ _ SPD HI) as PDi. set (m := (nq * (1 + nl))%nat).
  assert (INJ : forall v, (forall i, (i < n)%nat -> mv m L v i = 0) -> forall j, (j < m)%nat -> v j = 0).
  { intros v. unfold n. rewrite total_psum. apply (design_inj nq (1 + nl) size (times_of tc tl)); [|exact ET].
    intros c k j. rewrite <- total_psum. apply design_entry; auto. }
  pose proof (gram_spd _ _ _ _ PDi INJ) as PG.
  assert (EG : exists Gi, inv_of m (gram n Si L) Gi). { apply det_inv. pose proof (spd_det _ _ PG). lra. }
  destruct EG as [Gi HGi].
  destruct (decompose_value dgesol flag ng pm idx_line nq nl ncon tc lnn tl fall p1 p2 nall tall g PC US AS L0 Lr0 UT0 SS Si L Gi U V
    DG NQ SPD HI ST TD HGi HU HV) as [D1 D2].
  fold sigma size in D1, D2. fold n in D1, D2. fold out in D1, D2.
  split; [apply (ls_link n m Si L fall Gi); auto|].
  intros c k C K r. destruct (D2 c k C K) as (RT & E1 & E2). fold r in RT, E1, E2. split.
  - eapply (value_core n m SS Si L Gi (U r) (V r) _ _ fall _ SPD HI INJ HGi); [|exact E1].
    intros v. cbv beta. unfold trend_at. fold area. rewrite <- (sumn_window c nq m) by (unfold m; nia).
    rewrite <- sumn_scal. apply sumn_ext. intros j J. ring.
  - intros JC. exact (error_core n SS Si (U r) (V r) sigma _ SG SPD HI JC E2).
Qed.
Print Assumptions C66_component_curves.

(** ** The components add up to the line *)
Lemma total_start : forall (f : nat -> nat) c, total f c = CovProofs.start f c.
Proof. induction c as [|c IH]; [reflexivity|]. rewrite CovProofs.start_S. cbn [total]. rewrite IH. reflexivity. Qed.

Lemma Umat_parts : forall ncon tcon nl nline tline pm icp Slc Sll Sll2 (Slc1 Sll1 : nat -> R -> R -> nat -> R) (Sll21 : nat -> R -> R -> nat -> nat -> R) ng nrec trec U (U1 : nat -> arr),
  let n := total (narr_of ncon nline) (1 + nl) in
  (forall t s j, (j < nl)%nat -> sumn ng (fun g => Slc1 g t s j) = Slc t s j) ->
  (forall t s j, (j < nl)%nat -> sumn ng (fun g => Sll1 g t s j) = Sll t s j) ->
  (forall t s j l, (j < nl)%nat -> (l < nl)%nat -> sumn ng (fun g => Sll21 g t s j l) = Sll2 t s j l) ->
  forall c k b, (c < 1 + nl)%nat -> (k < nrec c)%nat -> (b < n)%nat ->
  let x := ((total nrec c + k) * n + b)%nat in
  let whole := CovModel.set_covar_Umat_line ncon tcon nl nline tline pm icp Slc Sll Sll2 n nrec trec U x in
  let one := fun g => set_covar_Umat_line_single ncon tcon nl nline tline pm icp Slc (Slc1 g) (Sll1 g) (Sll21 g) n nrec trec (U1 g) x in
  (c = 0%nat -> forall g, one g = whole) /\ ((0 < c)%nat -> sumn ng one = whole).
Proof.
  intros ncon tcon nl nline tline pm icp Slc Sll Sll2 Slc1 Sll1 Sll21 ng nrec trec U U1 n H1 H2 H3 c k b C K B x whole one.
  assert (En : n = CovProofs.total (CovProofs.size ncon nline) nl) by (unfold n, CovProofs.total; rewrite total_start; reflexivity).
  destruct (CovProofs.pos_surj (CovProofs.size ncon nline) nl b) as ([d e] & Vq & Eq); [rewrite <- En; exact B|].
  assert (Vp : CovProofs.valid nrec nl (c, k)) by (split; cbn; [lia|exact K]).
  assert (Ex : x = CovProofs.adr2 nrec (CovProofs.size ncon nline) nl (c, k) (d, e)).
  { unfold x, CovProofs.adr2. rewrite Eq, <- En. unfold CovProofs.pos. cbn [fst snd]. rewrite total_start. reflexivity. }
  pose proof (proj2 (CovProofs2.Umat_spec ncon tcon nl nline tline pm icp Slc Sll Sll2 nrec trec U) _ _ Vp Vq) as W.
  rewrite <- En, <- Ex in W. fold whole in W. rewrite W.
  assert (O : forall g, one g = DecompMat.single_value pm icp Slc (Slc1 g) (Sll1 g) (Sll21 g) (CovProofs2.Trec nrec trec) (CovProofs.T tcon tline) (c, k) (d, e)).
  { intros g. pose proof (proj2 (DecompMat.Umat_single_spec ncon tcon nl nline tline pm icp Slc (Slc1 g) (Sll1 g) (Sll21 g) nrec trec (U1 g)) _ _ Vp Vq) as X.
    rewrite <- En, <- Ex in X. exact X. }
  destruct Vq as [Vd _]. cbn [fst] in Vd.
  split.
  - intros -> g. rewrite O. unfold DecompMat.single_value, CovProofs.rect_value. cbn [fst]. reflexivity.
  - intros C0. rewrite (sumn_ext ng one _ (fun g _ => O g)). unfold DecompMat.single_value, CovProofs.rect_value. cbn [fst].
    destruct c as [|j]; [lia|]. destruct d as [|l]; [apply H1; lia|]. destruct (j =? l)%nat; [apply H2|apply H3]; lia.
Qed.

Lemma parts_sum : forall ng area j, (1 <= ng)%nat -> (forall g, 0 < area j g) -> sumn ng (fun g => part_of_trend false ng area g (S j)) = 1.
Proof.
  intros ng area j N P. cbn [part_of_trend]. assert (S0 : 0 < sumn ng (area j)).
  { destruct ng; [lia|]. clear N. induction ng; cbn [sumn] in *; [specialize (P 0%nat); lra|]. specialize (P (S ng)). lra. }
  rewrite (sumn_ext ng _ (fun g => / sumn ng (area j) * area j g)) by (intros; unfold Rdiv; ring). rewrite sumn_scal. field. lra.
Qed.

(** Row by row: the decomposed continuum is the reconstructed continuum; the decomposed
    curves of a line sum to the reconstructed line, less its trend if areas may be
    negative. *)
Definition adds_up (flag : bool) (ng nq nl : nat) (nall : nat -> nat) (tall : arr) (part : nat -> rec_out) (whole : rec_out) : Prop :=
  forall c k, (c < 1 + nl)%nat -> (k < nall c)%nat ->
    let r := (total nall c + k)%nat in
    (c = 0%nat -> forall g, (g < ng)%nat -> rec_f (part g) r = rec_f whole r) /\
    ((0 < c)%nat -> sumn ng (fun g => rec_f (part g) r) = rec_f whole r - (if flag then trend_at nq (rec_yq whole) c (tall r) else 0)).

Lemma scale_id : forall x s, 0 < s -> x = s * x / s.
Proof. intros. field. lra. Qed.

Section AddUp.
Context {IP : Type}.
Variable dsytrf : nat -> (nat -> nat -> R) -> (nat -> nat -> R) * IP.
Variable dsytri : nat -> (nat -> nat -> R) -> IP -> nat -> nat -> R.
Variables dtrtri dlauum : nat -> arr -> arr.
Variable dgesol : nat -> nat -> arr -> arr -> arr.
Hypothesis LS : dsytr_spec dsytrf dsytri.
Hypothesis LT : dtrtri_spec dtrtri.
Hypothesis LL : dlauum_spec dlauum.
Hypothesis DG : dgesol_spec dgesol.
Variables nq nl ncon ng : nat.
Variable tc : arr.
Variable fe : arr.
Variable error_mean : R.
Variable lnn : nat -> nat.
Variable tl : nat -> arr.
Variable fall : arr.
Variable pm : arr.
Variable idx_con : nat.
Variable idx_line : nat -> nat.
Variable nall : nat -> nat.
Variable tall : arr.
Notation p0 := (pm idx_con).
Notation p1 := (pm (idx_con + 1)%nat).
Notation p2 := (pm (idx_con + 2)%nat).
Notation sigma := (exp p1 * sqrt (exp p2)).
Notation syserr := ((exp p0 - 1) * error_mean).
Notation size := (narr_of ncon lnn).
Notation n := (total size (1 + nl)).
Variables S Si L : nat -> nat -> R.
Variable mem : nat -> R.
Variables A wk : nat.
Variable PC : nat -> arr.
Hypothesis NQ : (1 <= nq)%nat.
Hypothesis NL : (1 <= nl)%nat.
Hypothesis NC : (1 <= ncon)%nat.
Hypothesis NG : (1 <= ng)%nat.
Hypothesis PT : proper_times ncon syserr tc fe.
Hypothesis ET : forall c, (c < 1 + nl)%nat -> enough_times nq (size c) (times_of tc tl c).
Hypothesis SY : symmetric n S.
Hypothesis PD : positive_definite n S.
Hypothesis IV : is_inverse n S Si.
Hypothesis CC : forall i j, (i < ncon)%nat -> (j < ncon)%nat -> S i j = covariance (sigma * sigma) (exp p2) syserr tc fe i j.
Hypothesis ST : stored mem A n (fun i j => S i j / (sigma * sigma)).
Hypothesis SP : forall g, (g < ng)%nat -> stored (PC g) 0 n (fun i j => S i j / (sigma * sigma)).
Hypothesis AP : apart A (n * n) wk (2 * (n * n)).
Hypothesis TD : trend_design nq (1 + nl) size (times_of tc tl) L.

Lemma adds_up_core : forall flag US AS US1 AS1 L0 W0 D0 phi0 Lr0 f0 PE0 L1 Lr1 UT1,
  (forall c k b, (c < 1 + nl)%nat -> (k < nall c)%nat -> (b < n)%nat ->
     let x := ((total nall c + k) * n + b)%nat in
     (c = 0%nat -> forall g, US1 g x = US x) /\ ((0 < c)%nat -> sumn ng (fun g => US1 g x) = US x)) ->
  adds_up flag ng nq nl nall tall
    (fun g => decompose dgesol flag ng pm idx_line nq nl ncon tc lnn tl fall p1 p2 nall tall g (PC g) (US1 g) (AS1 g) (L1 g) (Lr1 g) (UT1 g))
    (rec_line_set dsytrf dsytri dtrtri dlauum nq nl ncon tc fe error_mean lnn tl fall p0 p1 p2 nall tall US AS mem A wk L0 W0 D0 phi0 Lr0 f0 PE0).
Proof.
  intros flag US AS US1 AS1 L0 W0 D0 phi0 Lr0 f0 PE0 L1 Lr1 UT1 HS c k C K r.
  assert (SG : 0 < sigma) by (apply Rmult_lt_0_compat; [apply exp_pos|apply sqrt_lt_R0, exp_pos]).
  assert (S2 : 0 < sigma * sigma) by (apply Rmult_lt_0_compat; exact SG).
  assert (SPD : spd n S) by (apply spd_of; auto).
  assert (HI : inv_of n S Si) by (intros i j I J; destruct (IV i j I J); auto).
  destruct (rec_line_value IP dsytrf dsytri dtrtri dlauum nq nl ncon tc fe error_mean lnn tl fall p0 p1 p2 nall tall US AS mem A wk L0 W0 D0 phi0 Lr0 f0 PE0 S Si L
    (fun r k => sigma * sigma * US (r * n + k)%nat) (fun r => sigma * sigma * AS (r * total nall (1 + nl) + r)%nat)
    LS LT LL NQ NL NC PT ET SY PD IV CC ST AP TD) as (Gi & HGi & R1 & R2).
  { intros; apply scale_id; exact S2. } { intros; apply scale_id; exact S2. }
  set (m := (nq * (1 + nl))%nat) in *. set (q := mv m Gi (mv n (tr L) (mv n Si fall))) in *.
  set (whole := rec_line_set _ _ _ _ _ _ _ _ _ _ _ _ _ _ _ _ _ _ _ _ _ _ _ _ _ _ _ _ _ _) in *.
  destruct (R2 c k C K) as (RT & E1 & _). fold r in RT, E1.
  set (area := fun j g => exp (pm (idx_line j + 1 + 3 * g)%nat)).
  assert (D : forall g, (g < ng)%nat ->
    rec_f (decompose dgesol flag ng pm idx_line nq nl ncon tc lnn tl fall p1 p2 nall tall g (PC g) (US1 g) (AS1 g) (L1 g) (Lr1 g) (UT1 g)) r
    = dot n (fun b => sigma * sigma * US1 g (r * n + b)%nat) (mv n Si (resid m L fall q)) + part_of_trend flag ng area g c * dot m (entry nq c (tall r)) q).
  { intros g G.
    destruct (decompose_value dgesol flag ng pm idx_line nq nl ncon tc lnn tl fall p1 p2 nall tall g (PC g) (US1 g) (AS1 g) (L1 g) (Lr1 g) (UT1 g) S Si L Gi
      (fun r k => sigma * sigma * US1 g (r * n + k)%nat) (fun r => sigma * sigma * AS1 g (r * total nall (1 + nl) + r)%nat)
      DG NQ SPD HI (SP g G) TD HGi) as [_ D2].
    { intros; apply scale_id; exact S2. } { intros; apply scale_id; exact S2. }
    destruct (D2 c k C K) as (_ & D3 & _). fold r in D3. rewrite D3. fold m q area. f_equal.
    unfold dot. rewrite <- sumn_scal. apply sumn_ext. intros j J. ring. }
  clear R2. split.
  - intros C0 g G. rewrite (D g G), E1. replace (part_of_trend flag ng area g c) with 1 by (rewrite C0; reflexivity). rewrite Rmult_1_l. f_equal.
    apply sumn_ext. intros b B. destruct (HS c k b C K B) as [H _]. fold r in H. rewrite (H C0 g). reflexivity.
  - intros C0. rewrite (sumn_ext ng _ _ D), sumn_plus, E1.
    assert (X : sumn ng (fun g => dot n (fun b => sigma * sigma * US1 g (r * n + b)%nat) (mv n Si (resid m L fall q)))
      = dot n (fun b => sigma * sigma * US (r * n + b)%nat) (mv n Si (resid m L fall q))).
    { unfold dot. rewrite sumn_swap. apply sumn_ext. intros b B. destruct (HS c k b C K B) as [_ H]. fold r in H. rewrite <- (H C0).
      rewrite (sumn_ext ng _ (fun g => sigma * sigma * mv n Si (resid m L fall q) b * US1 g (r * n + b)%nat)) by (intros; ring).
      rewrite sumn_scal. ring. }
    rewrite X.
    rewrite (sumn_ext ng _ (fun g => dot m (entry nq c (tall r)) q * part_of_trend flag ng area g c)) by (intros; ring). rewrite sumn_scal.
    destruct c as [|j]; [lia|]. destruct flag.
    + cbn [part_of_trend]. rewrite sumn_zero.
      assert (Y : trend_at nq (rec_yq whole) (Datatypes.S j) (tall r) = dot m (entry nq (Datatypes.S j) (tall r)) q).
      { unfold trend_at. rewrite <- (sumn_window (Datatypes.S j) nq m) by (unfold m; nia). apply sumn_ext. intros i I. rewrite R1 by auto. reflexivity. }
      rewrite Y. ring.
    + rewrite parts_sum; [ring|exact NG|]. intros g. apply exp_pos.
Qed.

(** Components of one shape.  The kernels agree with those of the whole line outside the
    tolerance bands (C65_time_unit_refuted: inside they do not). *)
Theorem C66_components_add_up : forall log_erfc type_tf flag icp ilp nds US AS US1 AS1 L0 W0 D0 phi0 Lr0 f0 PE0 L1 Lr1 UT1,
  icp nds = idx_con ->
  let component := fun j g => KernelSpec.stored (PropCov.decode flag) pm (ilp nds j) g in
  (forall j g, (j < nl)%nat -> (g < ng)%nat -> (2 <= type_tf)%nat -> PropDecompCov.rates_apart (exp p2) (component j g)) ->
  (forall j, (j < nl)%nat -> (2 <= type_tf)%nat -> PropKernel.clear (exp p2) ng (component j)) ->
  let K := CovModel.pointers log_erfc type_tf flag icp ilp ng pm nds in
  let K1 := single_pointers log_erfc type_tf flag icp ilp ng pm nds in
  adds_up flag ng nq nl nall tall
    (fun g => decompose dgesol flag ng pm idx_line nq nl ncon tc lnn tl fall p1 p2 nall tall g (PC g)
       (set_covar_Umat_line_single ncon tc nl lnn tl pm idx_con (CovModel.k_lc K) (fun t s j => s_lc K1 t s j g) (fun t s j => s_ll K1 t s j g)
          (fun t s j l => s_ll2 K1 t s j l g) n nall tall (US1 g)) (AS1 g) (L1 g) (Lr1 g) (UT1 g))
    (rec_line_set dsytrf dsytri dtrtri dlauum nq nl ncon tc fe error_mean lnn tl fall p0 p1 p2 nall tall
       (CovModel.set_covar_Umat_line ncon tc nl lnn tl pm idx_con (CovModel.k_lc K) (CovModel.k_ll K) (CovModel.k_ll2 K) n nall tall US)
       AS mem A wk L0 W0 D0 phi0 Lr0 f0 PE0).
Proof.
  intros log_erfc type_tf flag icp ilp nds US AS US1 AS1 L0 W0 D0 phi0 Lr0 f0 PE0 L1 Lr1 UT1 HC component RA CL K K1.
  apply adds_up_core. intros c k b C Kk B.
  assert (ADD : forall t s t1 t2 j l, (j < nl)%nat -> (l < nl)%nat -> _) by
    (intros t s t1 t2 j l J Hl; refine (PropDecompCov.C65_components_add_up log_erfc type_tf flag icp ilp ng pm nds t s t1 t2 j l _ _);
     [intros mm kk [-> | ->] KK TT; rewrite HC; apply RA; auto | intros TT; rewrite HC; split; apply CL; auto]).
  apply (Umat_parts ncon tc nl lnn tl pm idx_con (CovModel.k_lc K) (CovModel.k_ll K) (CovModel.k_ll2 K)
    (fun g t s j => s_lc K1 t s j g) (fun g t s j => s_ll K1 t s j g) (fun g t s j l => s_ll2 K1 t s j l g) ng nall tall US US1); auto.
  - intros t s j J. exact (proj1 (ADD t s t s j j J J)).
  - intros t s j J. exact (proj2 (proj2 (ADD t s t s j j J J)) eq_refl).
  - intros t s j l J Hl. exact (proj1 (proj2 (ADD t s t s j l J Hl))).
Qed.

(** Components of different shapes; here no band matters. *)
Theorem C66_mixed_components_add_up : forall log_erfc erfc type_tf icp ilp ty nds US AS US1 AS1 L0 W0 D0 phi0 Lr0 f0 PE0 L1 Lr1 UT1,
  let Slc := fun t s j => MixModel.Slc_mmap log_erfc icp ilp ng ty t s pm nds j in
  let Sll := fun t s j => MixModel.Sll_mmap log_erfc erfc icp ilp ng ty t s pm nds j in
  let Sll2 := fun t s j l => MixModel.Sll2_mmap log_erfc erfc icp ilp ng ty t s pm nds j l in
  let K1 := single_pointers_mmap log_erfc erfc type_tf false icp ilp ng ty pm nds in
  adds_up false ng nq nl nall tall
    (fun g => decompose dgesol false ng pm idx_line nq nl ncon tc lnn tl fall p1 p2 nall tall g (PC g)
       (set_covar_Umat_line_single ncon tc nl lnn tl pm idx_con Slc (fun t s j => s_lc K1 t s j g) (fun t s j => s_ll K1 t s j g)
          (fun t s j l => s_ll2 K1 t s j l g) n nall tall (US1 g)) (AS1 g) (L1 g) (Lr1 g) (UT1 g))
    (rec_line_set dsytrf dsytri dtrtri dlauum nq nl ncon tc fe error_mean lnn tl fall p0 p1 p2 nall tall
       (CovModel.set_covar_Umat_line ncon tc nl lnn tl pm idx_con Slc Sll Sll2 n nall tall US)
       AS mem A wk L0 W0 D0 phi0 Lr0 f0 PE0).
Proof.
  intros log_erfc erfc type_tf icp ilp ty nds US AS US1 AS1 L0 W0 D0 phi0 Lr0 f0 PE0 L1 Lr1 UT1 Slc Sll Sll2 K1.
  apply adds_up_core. intros c k b C Kk B.
  pose proof (fun t s t1 t2 j l => PropDecompCov.C67_components_add_up log_erfc erfc type_tf icp ilp ng ty pm nds t s t1 t2 j l) as ADD.
  apply (Umat_parts ncon tc nl lnn tl pm idx_con Slc Sll Sll2
    (fun g t s j => s_lc K1 t s j g) (fun g t s j => s_ll K1 t s j g) (fun g t s j l => s_ll2 K1 t s j l g) ng nall tall US US1); auto.
  - intros t s j J. exact (proj1 (ADD t s t s j j)).
  - intros t s j J. exact (proj2 (proj2 (ADD t s t s j j))).
  - intros t s j l J Hl. exact (proj1 (proj2 (ADD t s t s j l))).
Qed.
End AddUp.
Print Assumptions C66_components_add_up.
Print Assumptions C66_mixed_components_add_up.

(** ** Cases meeting the hypotheses *)
Definition ref_dgesol (m n : nat) (a b : arr) : arr :=
  tab n (fun i j => sumn m (fun l => invn m (fun i j => a (i * m + j)%nat) i l * b (l * n + j)%nat)).
Example dgesol_exists : dgesol_spec ref_dgesol.
Proof.
  intros m n a b G Gi ST IV i j I J. unfold ref_dgesol. rewrite tab_val by auto. apply sumn_ext. intros l Hl. f_equal.
  assert (HI : inv_of m (fun i j => a (i * m + j)%nat) Gi).
  { intros x z X Z. destruct (IV x z X Z) as [E _]. etransitivity; [|exact E]. apply sumn_ext. intros k K.
    specialize (ST x k X K). cbn [Nat.add] in ST. rewrite ST. reflexivity. }
  refine (inv_unique _ HI I Hl). apply invn_ok. apply det_inv. eauto.
Qed.

(** Linear trends, three continuum and three line points as in C60_example, two
    components of which the first holds a quarter of the area; the continuum at 1/2 and
    1, the component at 7/2. *)
Definition pm_quarter (i : nat) : R := match i with 7%nat => ln 3 | _ => 0 end.
Example C66_case : exists Si,
  is_inverse 6 exS Si /\
  let out := decompose ref_dgesol false 2 pm_quarter (fun _ => 3%nat) 2 1 3 (fun i => INR i) (fun _ => 3%nat) (fun _ k => INR (3 + k)) (fun i => INR (i * i)) 0 0
    (fun c => (2 - c)%nat) ex_tall 0 (tab 6 exS) (tab 6 ex_U) (fun _ => 1) (fun _ => 0) (fun _ => 0) (fun _ => 0) in
  best_value 6 4 exS
    (fun i j => trend_matrix 2 1 3 (fun i => INR i) (fun _ => 3%nat) (fun _ k => INR (3 + k)) (fun _ => 0) (i * 4 + j)%nat)
    (ex_U 2) 1 (fun v => 1 / 4 * trend_at 2 v 1 (7 / 2)) (fun i => INR (i * i)) (rec_f out 2%nat) /\
  known_trend_error 6 exS (ex_U 2) 1 (rec_fe out 2%nat).
Proof.
  destruct (exS_ok 6) as [SY PD].
  destruct (proj1 (det_inv 6 exS)) as [Si HI]; [pose proof (spd_det 6 exS (spd_of _ _ SY PD)); lra|].
  exists Si. split; [exact (inverse_both _ _ _ HI)|].
  assert (SG : exp 0 * sqrt (exp 0) = 1) by (rewrite exp_0, sqrt_1; ring).
  destruct (C66_component_curves ref_dgesol false 2 pm_quarter (fun _ => 3%nat) 2 1 3 (fun i => INR i) (fun _ => 3%nat) (fun _ k => INR (3 + k)) (fun i => INR (i * i)) 0 0
    (fun c => (2 - c)%nat) ex_tall 0 (tab 6 exS) (tab 6 ex_U) (fun _ => 1) (fun _ => 0) (fun _ => 0) (fun _ => 0) exS Si
    (fun i j => trend_matrix 2 1 3 (fun i => INR i) (fun _ => 3%nat) (fun _ k => INR (3 + k)) (fun _ => 0) (i * 4 + j)%nat)
    ex_U (fun _ => 1)) as [_ P2]; auto; try lia.
  - exact dgesol_exists.
  - intros c C. exists (fun i => i). assert (c = 0 \/ c = 1)%nat as [-> | ->] by lia; split; simpl narr_of; try (intros; lia); intros i j I J E; cbn [times_of] in E; apply INR_eq in E; lia.
  - exact (inverse_both _ _ _ HI).
  - intros i j I J. rewrite SG. change (total (narr_of 3 (fun _ => 3%nat)) (1 + 1)) with 6%nat in *. cbn [Nat.add]. rewrite tab_val by auto. field.
  - exact (C30_trend_matrix 2 1 3 (fun i => INR i) (fun _ => 3%nat) (fun _ k => INR (3 + k)) (fun _ => 0) ltac:(lia)).
  - intros r k R K. rewrite SG. change (total (narr_of 3 (fun _ => 3%nat)) (1 + 1)) with 6%nat in *. rewrite tab_val by auto. field.
  - intros r R. rewrite SG. field.
  - destruct (P2 1%nat 0%nat ltac:(lia) ltac:(lia)) as [B E]. change (total (fun c => (2 - c)%nat) 1 + 0)%nat with 2%nat in B, E.
    cbn [part_of_trend sumn] in B. unfold pm_quarter in B. cbn [Nat.add Nat.mul] in B. rewrite exp_0, exp_ln in B by lra.
    replace (1 / (0 + 1 + 3)) with (1 / 4) in B by lra. split; [exact B|]. apply E.
    intros x0 x. pose proof (C60_kernel_nonnegative 6 1 1 0 (fun i => INR i) (fun _ => 0) (ex_tall 2) ltac:(lra) ltac:(lra) x0 x) as H.
    unfold exS, ex_U. eapply Rle_trans; [exact H|]. right. f_equal. f_equal. f_equal. apply sumn_ext. intros; ring.
Qed.

(** Two top-hats: the curves of the two components add up to the line, hypotheses met. *)
Example C66_add_up_case :
  let z := fun _ : nat => 0 in
  let K := CovModel.pointers (fun x => x) 1 false (fun _ => 0%nat) (fun _ _ => 3%nat) 2 pm_quarter 0 in
  let K1 := single_pointers (fun x => x) 1 false (fun _ => 0%nat) (fun _ _ => 3%nat) 2 pm_quarter 0 in
  let part := fun g => decompose ref_dgesol false 2 pm_quarter (fun _ => 3%nat) 2 1 3 (fun i => INR i) (fun _ => 3%nat) (fun _ k => INR (3 + k)) (fun i => INR (i * i)) 0 0
    (fun c => (2 - c)%nat) ex_tall g (tab 6 exS)
    (set_covar_Umat_line_single 3 (fun i => INR i) 1 (fun _ => 3%nat) (fun _ k => INR (3 + k)) pm_quarter 0 (CovModel.k_lc K) (fun t s j => s_lc K1 t s j g)
       (fun t s j => s_ll K1 t s j g) (fun t s j l => s_ll2 K1 t s j l g) 6 (fun c => (2 - c)%nat) ex_tall z) z z z z in
  let whole := rec_line_set ref_dsytrf ref_dsytri ref_dtrtri ref_dlauum 2 1 3 (fun i => INR i) z 1 (fun _ => 3%nat)
    (fun _ k => INR (3 + k)) (fun i => INR (i * i)) 0 0 0 (fun c => (2 - c)%nat) ex_tall
    (CovModel.set_covar_Umat_line 3 (fun i => INR i) 1 (fun _ => 3%nat) (fun _ k => INR (3 + k)) pm_quarter 0 (CovModel.k_lc K) (CovModel.k_ll K) (CovModel.k_ll2 K)
       6 (fun c => (2 - c)%nat) ex_tall z) z (store z 0 6 6 exS) 0 36 z z z z z z z in
  rec_f (part 0%nat) 2%nat + rec_f (part 1%nat) 2%nat = rec_f whole 2%nat.
Proof.
  intros z K K1 part whole.
  destruct (exS_ok 6) as [SY PD].
  destruct (proj1 (det_inv 6 exS)) as [Si HI]; [pose proof (spd_det 6 exS (spd_of _ _ SY PD)); lra|].
  assert (SG : exp 0 * sqrt (exp 0) = 1) by (rewrite exp_0, sqrt_1; ring).
  pose proof (C66_components_add_up ref_dsytrf ref_dsytri ref_dtrtri ref_dlauum ref_dgesol C29_contract_met dtrtri_exists dlauum_exists dgesol_exists
    2 1 3 2 (fun i => INR i) z 1 (fun _ => 3%nat) (fun _ k => INR (3 + k)) (fun i => INR (i * i)) pm_quarter 0 (fun _ => 3%nat) (fun c => (2 - c)%nat) ex_tall
    exS Si (fun i j => trend_matrix 2 1 3 (fun i => INR i) (fun _ => 3%nat) (fun _ k => INR (3 + k)) z (i * 4 + j)%nat) (store z 0 6 6 exS) 0 36 (fun _ => tab 6 exS)) as T.
  specialize (T ltac:(lia) ltac:(lia) ltac:(lia) ltac:(lia)).
  match type of T with ?a1 -> ?a2 -> ?a3 -> ?a4 -> ?a5 -> ?a6 -> ?a7 -> ?a8 -> ?a9 -> ?a10 -> ?w => assert (T' : w) end.
  { apply T.
    - intros i _. left. rewrite S_INR. lra.
    - intros c C. exists (fun i => i). assert (c = 0 \/ c = 1)%nat as [-> | ->] by lia; split; simpl narr_of; try (intros; lia); intros i j I J E; cbn [times_of] in E; apply INR_eq in E; lia.
    - exact SY.
    - exact PD.
    - exact (inverse_both _ _ _ HI).
    - intros i j I J. unfold pm_quarter. cbn [Nat.add]. rewrite SG, exp_0. unfold exS, z. f_equal; ring.
    - intros i j I J. replace (exp (pm_quarter (0 + 1)%nat) * sqrt (exp (pm_quarter (0 + 2)%nat))) with 1 by (symmetry; exact SG). change (total (narr_of 3 (fun _ => 3%nat)) (1 + 1)) with 6%nat in *. rewrite (store_in z 0 6 6 exS) by auto. field.
    - intros g G i j I J. unfold pm_quarter. cbn [Nat.add]. rewrite SG. change (total (narr_of 3 (fun _ => 3%nat)) (1 + 1)) with 6%nat in *. rewrite tab_val by auto. field.
    - left. simpl. lia.
    - exact (C30_trend_matrix 2 1 3 (fun i => INR i) (fun _ => 3%nat) (fun _ k => INR (3 + k)) z ltac:(lia)). }
  specialize (T' (fun x => x) 1%nat false (fun _ => 0%nat) (fun _ _ => 3%nat) 0%nat z z (fun _ => z) (fun _ => z) z z z z z z z (fun _ => z) (fun _ => z) (fun _ => z) eq_refl).
  cbv zeta in T'. specialize (T' ltac:(intros; exfalso; lia) ltac:(intros; exfalso; lia)).
  destruct (T' 1%nat 0%nat ltac:(lia) ltac:(cbn; lia)) as [_ E]. specialize (E ltac:(lia)).
  change (total (fun c => (2 - c)%nat) 1 + 0)%nat with 2%nat in E. cbn [sumn] in E. rewrite Rplus_0_l, Rminus_0_r in E. exact E.
Qed.

(** ** The decomposed errors leave out the uncertainty of the trend (the code that would
    add it is commented out, src/line_decomp.c:834-847, src/line_decomp_mmap.c:547-560).

    One continuum and one line point, both at time 0 and without error, constant trends,
    a top-hat response of area 1 and half width 1, damping time 1.  The continuum at
    time 1: the error is below that of every unbiased prediction, the code's own
    included. *)
Definition K_one : CovModel.kernels := CovModel.pointers (fun x => x) 1 false (fun _ => 0%nat) (fun _ _ => 3%nat) 1 (fun _ => 0) 0.
Definition K1_one : singles := single_pointers (fun x => x) 1 false (fun _ => 0%nat) (fun _ _ => 3%nat) 1 (fun _ => 0) 0.
Definition S_one (i j : nat) : R :=
  match i, j with
  | 0%nat, 0%nat => 1
  | 1%nat, 1%nat => CovModel.k_ll K_one 0 0 0
  | _, _ => CovModel.k_lc K_one 0 0 0
  end.
Definition nall_one (c : nat) : nat := match c with 0%nat => 1%nat | _ => 0%nat end.
Definition US_one : arr :=
  set_covar_Umat_line_single 1 (fun _ => 0) 1 (fun _ => 1%nat) (fun _ _ => 0) (fun _ => 0) 0 (CovModel.k_lc K_one)
    (fun t s j => s_lc K1_one t s j 0%nat) (fun t s j => s_ll K1_one t s j 0%nat) (fun t s j l => s_ll2 K1_one t s j l 0%nat) 2 nall_one (fun _ => 1) (fun _ => 0).
Definition AS_one : arr :=
  set_covar_Amat_line_single 1 (fun _ => 0) 0 (CovModel.k_lc K_one)
    (fun t s j => s_ll K1_one t s j 0%nat) (fun t s j l => s_ll2 K1_one t s j l 0%nat) (fun t s j => s_self K1_one t s j 0%nat) nall_one (fun _ => 1) (fun _ => 0).

Lemma lc_one : forall t s, Rabs (s - t) <= 1 -> CovModel.k_lc K_one t s 0 = (2 - exp (- (s - t + 1)) - exp (s - t - 1)) / 2.
Proof.
  intros t s B. pose proof (Rle_abs (s - t)). pose proof (Rle_abs (- (s - t))) as B2. rewrite Rabs_Ropp in B2.
  change (CovModel.k_lc K_one t s 0) with (0 + KernelModel.slc1_tophat (exp 0) (exp 0) 0 (exp 0) (s - t)).
  unfold KernelModel.slc1_tophat. rewrite exp_0. rewrite !Rminus_0_r.
  destruct (Rlt_dec (s - t) (- (1))) as [X|X]; [lra|].
  destruct (Rlt_dec (s - t) 1) as [Y|Y].
  - replace (- (s - t + 1) / 1) with (- (s - t + 1)) by field. replace ((s - t - 1) / 1) with (s - t - 1) by field. field.
  - replace (- (s - t - 1) / 1) with (s - t - 1) by lra. replace (- (s - t + 1) / 1) with (- (s - t + 1)) by field.
    replace (s - t - 1) with 0 by lra. rewrite exp_0. field.
Qed.
Lemma ll_one : CovModel.k_ll K_one 0 0 0 = (1 + exp (-2)) / 2.
Proof.
  change (CovModel.k_ll K_one 0 0 0) with (0 + KernelModel.sll1_tophat (exp 0) (exp 0) 0 (exp 0) (exp 0) 0 (exp 0) (0 - 0)).
  unfold KernelModel.sll1_tophat. rewrite exp_0. destruct (Rge_dec 1 1) as [_|X]; [|lra].
  destruct (Rlt_dec _ (- (1) - 1)) as [X|X]; [lra|]. destruct (Rlt_dec _ (- (1) + 1)) as [Y|Y]; [lra|].
  destruct (Rlt_dec _ (1 - 1)) as [Z|Z]; [lra|]. destruct (Rlt_dec _ (1 + 1)) as [W|W]; [|lra].
  match goal with |- context [exp ?a + exp ?b - exp ?c - exp ?d - _] =>
    replace a with (-2) by field; replace b with (-2) by field; replace c with 0 by field; replace d with 0 by field end.
  rewrite exp_0. field.
Qed.
Lemma z_range : 1 / 3 <= exp (-1) <= 1 / 2 /\ exp (-2) = exp (-1) * exp (-1).
Proof.
  assert (E : exp (-1) * exp 1 = 1) by (rewrite <- exp_plus; replace (-1 + 1) with 0 by ring; apply exp_0).
  assert (exp 1 <= 3) by apply exp_le_3. assert (2 <= exp 1) by (pose proof (exp_ineq1 1); lra). pose proof (exp_pos (-1)).
  split; [split; nra|]. rewrite <- exp_plus. f_equal. ring.
Qed.
Theorem C66_error_refuted : exists Si L,
  let u := fun k => US_one k in
  let target := fun v => trend_at 1 v 0 1 in
  symmetric 2 S_one /\ positive_definite 2 S_one /\ is_inverse 2 S_one Si /\ joint_covariance 2 S_one u 1 /\
  trend_design 1 2 (narr_of 1 (fun _ => 1%nat)) (times_of (fun _ => 0) (fun _ _ => 0)) L /\
  forall y, let out := decompose ref_dgesol false 1 (fun _ => 0) (fun _ => 3%nat) 1 1 1 (fun _ => 0) (fun _ => 1%nat) (fun _ _ => 0) y 0 0
    nall_one (fun _ => 1) 0 (tab 2 S_one) US_one AS_one (fun _ => 0) (fun _ => 0) (fun _ => 0) in
  best_value 2 2 S_one L u 1 target y (rec_f out 0%nat) /\
  forall w, unbiased 2 2 L target w -> rec_fe out 0%nat * rec_fe out 0%nat < error_variance 2 S_one u 1 w.
Proof.
  set (z := exp (-1)). destruct z_range as [Z E2]. fold z in Z, E2.
  assert (Q0 : S_one 0%nat 1%nat = 1 - z).
  { unfold S_one. rewrite lc_one by (rewrite Rminus_0_r, Rabs_R0; lra). replace (0 - 0 - 1) with (-1) by ring. replace (- (0 - 0 + 1)) with (-1) by ring. fold z. field. }
  assert (Q1 : S_one 1%nat 0%nat = 1 - z) by (rewrite <- Q0; reflexivity).
  assert (Q2 : S_one 1%nat 1%nat = (1 + z * z) / 2) by (unfold S_one; rewrite ll_one, E2; reflexivity).
  assert (U0 : US_one 0%nat = z).
  { change (US_one 0%nat) with (exp (- Rabs (1 - 0) / exp 0)). rewrite exp_0, Rminus_0_r, Rabs_R1. unfold z. f_equal. field. }
  assert (U1 : US_one 1%nat = (1 - z * z) / 2).
  { change (US_one 1%nat) with (CovModel.k_lc K_one 1 0 0). rewrite lc_one by (replace (0 - 1) with (- (1)) by ring; rewrite Rabs_Ropp, Rabs_R1; lra).
    replace (- (0 - 1 + 1)) with 0 by ring. replace (0 - 1 - 1) with (-2) by ring. rewrite exp_0, E2. field. }
  assert (A0 : AS_one 0%nat = 1) by reflexivity.
  assert (SY : symmetric 2 S_one).
  { intros i j I J. assert (i = 0 \/ i = 1)%nat as [-> | ->] by lia; assert (j = 0 \/ j = 1)%nat as [-> | ->] by lia; reflexivity. }
  assert (PD : positive_definite 2 S_one).
  { intros x (j & J & X). cbn [sumn]. rewrite Q0, Q1, Q2. change (S_one 0%nat 0%nat) with 1.
    set (a := x 0%nat) in *. set (b := x 1%nat) in *.
    assert (D : 0 < (1 + z * z) / 2 - (1 - z) * (1 - z)) by nra.
    assert (AB : a <> 0 \/ b <> 0) by (assert (j = 0 \/ j = 1)%nat as [-> | ->] by lia; auto).
    assert (EQ : 0 + (0 + a * 1 * a + a * (1 - z) * b) + (0 + b * (1 - z) * a + b * ((1 + z * z) / 2) * b)
      = (a + (1 - z) * b) * (a + (1 - z) * b) + ((1 + z * z) / 2 - (1 - z) * (1 - z)) * (b * b)) by field.
    rewrite EQ. destruct (Req_dec b 0) as [B0|B0].
    - rewrite B0. destruct AB as [A1|]; [|lra]. replace (_ + _) with (a * a) by ring. apply Rsqr_pos_lt. exact A1.
    - assert (BB : 0 < b * b) by (apply Rsqr_pos_lt; exact B0). pose proof (Rmult_lt_0_compat _ _ D BB). pose proof (Rle_0_sqr (a + (1 - z) * b)) as Q. unfold Rsqr in Q. lra. }
  destruct (proj1 (det_inv 2 S_one)) as [Si HI]; [pose proof (spd_det 2 S_one (spd_of _ _ SY PD)); lra|].
  pose (L := fun i j => trend_matrix 1 1 1 (fun _ => 0) (fun _ => 1%nat) (fun _ _ => 0) (fun _ => 0) (i * 2 + j)%nat).
  exists Si, L. intros u target.
  assert (JC : joint_covariance 2 S_one u 1).
  { intros x0 x. cbn [sumn]. unfold u. rewrite U0, U1, Q0, Q1, Q2. change (S_one 0%nat 0%nat) with 1.
    set (a := x 0%nat). set (b := x 1%nat).
    pose (p := 1 - z * z). pose (h := (1 - z) - z * ((1 - z * z) / 2)). pose (c := (1 + z * z) / 2 - (1 - z * z) / 2 * ((1 - z * z) / 2)).
    assert (P0 : 0 < p) by (unfold p; nra).
    assert (EQ : x0 * x0 * 1 + 2 * x0 * (0 + a * z + b * ((1 - z * z) / 2)) + (0 + (0 + a * 1 * a + a * (1 - z) * b) + (0 + b * (1 - z) * a + b * ((1 + z * z) / 2) * b))
      = (x0 + z * a + (1 - z * z) / 2 * b) * (x0 + z * a + (1 - z * z) / 2 * b) + (p * (a * a) + 2 * h * (a * b) + c * (b * b))) by (unfold p, h, c; field).
    rewrite EQ.
    assert (PC : h * h <= p * c).
    { assert (E : p * c - h * h = (1 - z) / 4 * ((1 + z) * (1 + 4 * (z * z) - z * z * (z * z)) - (1 - z) * ((1 - z) * (1 - z)) * ((2 + z) * (2 + z)))) by (unfold p, h, c; field).
      set (zz := z * z) in *. assert (ZZ : 1 / 9 <= zz <= 1 / 4) by (unfold zz; nra).
      assert (X1 : 1 + 4 * zz - zz * zz >= 1 + 4 / 9 - 1 / 81) by nra.
      assert (X2 : (1 + z) * (1 + 4 * zz - zz * zz) >= 4 / 3 * (1 + 4 / 9 - 1 / 81)) by nra.
      assert (X3 : 0 <= (1 - z) * (1 - z) <= 4 / 9) by nra.
      assert (X4 : 0 <= (1 - z) * ((1 - z) * (1 - z)) <= 8 / 27) by nra.
      assert (X5 : 0 <= (2 + z) * (2 + z) <= 25 / 4) by nra.
      assert (X6 : (1 - z) * ((1 - z) * (1 - z)) * ((2 + z) * (2 + z)) <= 8 / 27 * (25 / 4)) by nra.
      assert (X7 : 0 <= (1 - z) / 4 * ((1 + z) * (1 + 4 * zz - zz * zz) - (1 - z) * ((1 - z) * (1 - z)) * ((2 + z) * (2 + z)))) by (apply Rmult_le_pos; lra).
      lra. }
    assert (Q : 0 <= p * (p * (a * a) + 2 * h * (a * b) + c * (b * b))).
    { replace (p * (p * (a * a) + 2 * h * (a * b) + c * (b * b))) with ((p * a + h * b) * (p * a + h * b) + (p * c - h * h) * (b * b)) by ring.
      assert (0 <= b * b) by nra. assert (0 <= (p * a + h * b) * (p * a + h * b)) by apply Rle_0_sqr. nra. }
    assert (0 <= (x0 + z * a + (1 - z * z) / 2 * b) * (x0 + z * a + (1 - z * z) / 2 * b)) by apply Rle_0_sqr.
    assert (0 <= p * (a * a) + 2 * h * (a * b) + c * (b * b)); [|lra]. apply (Rmult_le_reg_l p); lra. }
  assert (TD : trend_design 1 2 (narr_of 1 (fun _ => 1%nat)) (times_of (fun _ => 0) (fun _ _ => 0)) L)
    by (exact (C30_trend_matrix 1 1 1 (fun _ => 0) (fun _ => 1%nat) (fun _ _ => 0) (fun _ => 0) ltac:(lia))).
  repeat (split; [assumption || exact (inverse_both _ _ _ HI)|]).
  intros y out.
  assert (SG : exp 0 * sqrt (exp 0) = 1) by (rewrite exp_0, sqrt_1; ring).
  destruct (C66_component_curves ref_dgesol false 1 (fun _ => 0) (fun _ => 3%nat) 1 1 1 (fun _ => 0) (fun _ => 1%nat) (fun _ _ => 0) y 0 0
    nall_one (fun _ => 1) 0 (tab 2 S_one) US_one AS_one (fun _ => 0) (fun _ => 0) (fun _ => 0) S_one Si L (fun _ => u) (fun _ => 1)) as [_ P].
  - exact dgesol_exists.
  - lia.
  - intros c C. exists (fun i => i). assert (c = 0 \/ c = 1)%nat as [-> | ->] by lia; split; simpl narr_of; intros; lia.
  - exact SY.
  - exact PD.
  - exact (inverse_both _ _ _ HI).
  - intros i j I J. rewrite SG. change (total (narr_of 1 (fun _ => 1%nat)) (1 + 1)) with 2%nat in *. cbn [Nat.add]. rewrite tab_val by auto. field.
  - exact TD.
  - intros r k Rr K. rewrite SG. change (total nall_one (1 + 1)) with 1%nat in Rr. assert (r = 0)%nat by lia. subst r. unfold u. cbn [Nat.add Nat.mul]. field.
  - intros r Rr. rewrite SG. change (total nall_one (1 + 1)) with 1%nat in Rr. assert (r = 0)%nat by lia. subst r. cbn [Nat.add Nat.mul]. rewrite A0. field.
  - destruct (P 0%nat 0%nat ltac:(lia) ltac:(cbn; lia)) as [B E]. change (total nall_one 0 + 0)%nat with 0%nat in B, E. fold out in B, E.
    cbn [part_of_trend] in B. split.
    + destruct B as (w & W1 & W2). exists w. split; [|split; [exact (proj1 W2)|split]].
      * intros v. etransitivity; [exact (W1 v)|]. unfold target. ring.
      * intros w' U. apply (proj1 (proj2 W2)). intros v. etransitivity; [exact (U v)|]. unfold target. ring.
      * intros w' U. apply (proj2 (proj2 W2)). intros v. etransitivity; [exact (U v)|]. unfold target. ring.
    + intros w U.
      assert (LV : forall v, sumn 2 (fun k => w k * sumn 2 (fun j => L k j * v j)) = w 0%nat * v 0%nat + w 1%nat * v 1%nat).
      { intros v. cbn [sumn]. 
        replace (L 0%nat 0%nat) with 1 by reflexivity. replace (L 0%nat 1%nat) with 0 by reflexivity.
        replace (L 1%nat 0%nat) with 0 by reflexivity. replace (L 1%nat 1%nat) with 1 by reflexivity. ring. }
      assert (W0 : w 0%nat = 1).
      { pose proof (U (fun j => match j with 0%nat => 1 | _ => 0 end)) as X. rewrite LV in X. unfold target, trend_at in X. cbn [sumn Nat.mul Nat.add pow] in X. lra. }
      assert (W1 : w 1%nat = 0).
      { pose proof (U (fun j => match j with 1%nat => 1 | _ => 0 end)) as X. rewrite LV in X. unfold target, trend_at in X. cbn [sumn Nat.mul Nat.add pow] in X. lra. }
      destruct (E JC) as (_ & _ & M). change (total (narr_of 1 (fun _ => 1%nat)) (1 + 1)) with 2%nat in M. eapply Rle_lt_trans; [apply (M (fun k => match k with 0%nat => z | _ => 0 end))|].
      unfold error_variance. cbn [sumn]. unfold u. rewrite W0, W1, U0, Q0, Q1, Q2. change (S_one 0%nat 0%nat) with 1.
      apply Rminus_gt_0_lt. match goal with |- 0 < ?a => replace a with ((1 - z) * (1 - z)) by field end. apply Rmult_lt_0_compat; lra.
Qed.
Print Assumptions C66_error_refuted.
