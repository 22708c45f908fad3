(** C68: the covariances of a continuum, its lines and their components form positive
    definite matrices.  Over the real numbers. *)
From Coq Require Import Reals List Lra Lia Psatz Arith.
From Coquelicot Require Import Coquelicot.
From Verif Require Import SemisepModel SemisepProofs KernelCalc KernelSpec KernelGauss2 CovModel PropCov MixSpec PropMix PsdCore PsdKernel PsdSym.
From Verif Require PropPart PropPred.
Import ListNotations.
Open Scope R_scope.

(** ** What the statements are about *)
(** S is the covariance matrix of all data points: curve 0 is the continuum, curve j+1
    the line with response psi j; [sizes] are the numbers of points, point i of curve c
    is measured at [times c i] with squared error [err2 c i]. *)
Definition data_covariance (psi : nat -> R -> R) (taud sigma : R) (sizes : list nat) (times err2 : nat -> nat -> R) (S : nat -> nat -> R) : Prop :=
  forall a b, (a < list_sum sizes)%nat -> (b < list_sum sizes)%nat ->
  exists c i d m v, locate sizes a = Some (c, i) /\ locate sizes b = Some (d, m)
    /\ point_cov psi taud c d (times c i) (times d m) v
    /\ S a b = sigma * sigma * v + (if Nat.eqb a b then err2 c i else 0).
(** u is the covariance with the data of a point of the continuum (None) or of a curve
    with the given response, taken at time t, and A its variance *)
Definition target_covariance (target : option (R -> R)) (psi : nat -> R -> R) (taud sigma : R) (sizes : list nat) (times : nat -> nat -> R) (t : R) (u : nat -> R) : Prop :=
  forall b, (b < list_sum sizes)%nat -> exists d m v, locate sizes b = Some (d, m) /\ u b = sigma * sigma * v
    /\ match target, d with
       | None, O => v = exp (- Rabs (t - times d m) / taud)
       | None, S l => cov_cl (psi l) taud t (times d m) v
       | Some f, O => cov_cl f taud (times d m) t v
       | Some f, S l => cov_ll f (psi l) taud t (times d m) v
       end.
Definition target_variance (target : option (R -> R)) (taud sigma t A : R) : Prop :=
  match target with None => A = sigma * sigma | Some f => exists v, cov_ll f f taud t t v /\ A = sigma * sigma * v end.
(** a response made of components of the four shapes, each of positive width *)
Definition of_shapes (f : R -> R) : Prop :=
  exists n ty c, (forall k, (k < n)%nat -> (ty k < 4)%nat /\ 0 < width (c k)) /\ forall a, f a = mixed_response n ty c a.

(** ** Links to the proofs *)
Lemma locate_len sizes : forall a c i, locate sizes a = Some (c, i) -> (c < length sizes)%nat /\ (i < nth c sizes 0)%nat.
Proof.
  induction sizes as [|m r IH]; intros a c i; cbn [locate length]; [discriminate|].
  destruct (Nat.ltb_spec a m) as [L|L].
  - intros E. injection E as <- <-. split; [lia|exact L].
  - destruct (locate r (a - m)) as [[c' i']|] eqn:E; cbn [option_map fst snd]; [|discriminate].
    intros X. injection X as <- <-. destruct (IH _ _ _ E). cbn [nth]. split; [lia|assumption].
Qed.
Lemma able_shapes taud f : 0 < taud -> of_shapes f -> able taud f.
Proof.
  intros T (n & ty & c & H & E). destruct (mixed_able taud n ty c T H) as ((Phi & A & B1 & B2) & g & G). split.
  - exists Phi, A. split; [|exact B2]. intros a. rewrite E. apply B1.
  - exists g. intros s t. eapply wl_ext; [|apply G]. intros a. cbv beta. rewrite E. reflexivity.
Qed.
Definition pt (psi : nat -> R -> R) (c : nat) (t : R) : point := (match c with O => None | S j => Some (psi j) end, t).

(** covariances are unique *)
Lemma cov_ll_unique f g taud t s u v : cov_ll f g taud t s u -> cov_ll f g taud t s v -> u = v.
Proof.
  intros (i1 & A1 & B1) (i2 & A2 & B2). eapply wl_unique; [exact B1|]. eapply wl_ext; [|exact B2]. intros a. cbv beta. f_equal.
  eapply wl_unique; [exact (A2 a)|exact (A1 a)].
Qed.
Lemma point_cov_unique psi taud c d t s u v : point_cov psi taud c d t s u -> point_cov psi taud c d t s v -> u = v.
Proof.
  destruct c, d; cbn [point_cov].
  - intros -> ->. reflexivity.
  - apply wl_unique.
  - apply wl_unique.
  - apply cov_ll_unique.
Qed.
Lemma diag_sum n (f : nat -> R) x : sumn n (fun a => sumn n (fun b => if Nat.eqb a b then f a * (x a * x b) else 0)) = sumn n (fun a => f a * (x a * x a)).
Proof.
  apply sumn_ext. intros a A. rewrite (sumn_single n a); [rewrite Nat.eqb_refl; reflexivity|exact A|].
  intros b B N. destruct (Nat.eqb_spec a b); [congruence|reflexivity].
Qed.
Lemma squares_nonneg (f : nat -> R) x N : (forall a, (a < N)%nat -> 0 <= f a) -> 0 <= sumn N (fun a => f a * (x a * x a)).
Proof.
  induction N as [|N IH]; intros F; cbn [sumn]; [lra|]. assert (0 <= sumn N (fun a => f a * (x a * x a))) by (apply IH; intros; apply F; lia).
  pose proof (F N ltac:(lia)). pose proof (Rle_0_sqr (x N)) as Q. unfold Rsqr in Q. nra.
Qed.
Lemma squares_pos (f : nat -> R) x N : (forall a, (a < N)%nat -> 0 < f a) -> (exists i, (i < N)%nat /\ x i <> 0) -> 0 < sumn N (fun a => f a * (x a * x a)).
Proof.
  intros F (i & I & X). revert I F. induction N as [|N IH]; intros I F; [lia|]. cbn [sumn].
  destruct (Nat.eq_dec i N) as [->|D].
  - pose proof (squares_nonneg f x N (fun a L => Rlt_le _ _ (F a ltac:(lia)))). pose proof (F N ltac:(lia)). assert (0 < x N * x N) by (apply Rsqr_pos_lt, X). nra.
  - assert (0 < sumn N (fun a => f a * (x a * x a))) by (apply IH; [lia|intros; apply F; lia]).
    pose proof (F N ltac:(lia)). pose proof (Rle_0_sqr (x N)) as Q. unfold Rsqr in Q. nra.
Qed.

Section Mat.
Variables taud sigma : R.
Hypothesis T0 : 0 < taud.
Hypothesis S0 : 0 < sigma.
Variable psi : nat -> R -> R.
Variable sizes : list nat.
Notation n := (list_sum sizes).
Hypothesis AB : forall j, (S j < length sizes)%nat -> able taud (psi j).
Variables times err2 : nat -> nat -> R.
Variable S : nat -> nat -> R.
Hypothesis HS : data_covariance psi taud sigma sizes times err2 S.

Definition pt_at (a : nat) : point := match locate sizes a with Some (c, i) => pt psi c (times c i) | None => (None, 0) end.
Definition err_at (a : nat) : R := match locate sizes a with Some (c, i) => err2 c i | None => 0 end.
Definition val (a b : nat) : R := (S a b - (if Nat.eqb a b then err_at a else 0)) / (sigma * sigma).
Lemma pt_able a f : (a < n)%nat -> fst (pt_at a) = Some f -> able taud f.
Proof.
  intros A. unfold pt_at. destruct (locate sizes a) as [[c i]|] eqn:E; [|discriminate].
  apply locate_len in E. destruct c as [|j]; cbn [pt fst]; [discriminate|]. intros X. injection X as <-. apply AB, E.
Qed.
Lemma val_cov a b : (a < n)%nat -> (b < n)%nat -> cov_of taud (pt_at a) (pt_at b) (val a b).
Proof.
  intros A B. destruct (HS a b A B) as (c & i & d & m & v & E1 & E2 & C & E). unfold pt_at, val, err_at. rewrite E, E1, E2.
  match goal with |- cov_of _ _ _ ?w => replace w with v by (destruct (Nat.eqb a b); field; lra) end. destruct c, d; exact C.
Qed.
Lemma val_S a b : S a b = sigma * sigma * val a b + (if Nat.eqb a b then err_at a else 0).
Proof. unfold val. field. lra. Qed.
Lemma quad_split x : sumn n (fun a => sumn n (fun b => x a * S a b * x b)) =
  sigma * sigma * sumn n (fun a => sumn n (fun b => x a * val a b * x b)) + sumn n (fun a => err_at a * (x a * x a)).
Proof.
  rewrite <- diag_sum, <- sumn_scal, <- sumn_plus. apply sumn_ext. intros a A. rewrite <- sumn_scal, <- sumn_plus. apply sumn_ext. intros b B.
  rewrite (val_S a b). destruct (Nat.eqb a b); ring.
Qed.
Lemma mat_sym : PropPart.symmetric n S.
Proof.
  intros a b A B. rewrite (val_S a b), (val_S b a). f_equal.
  - f_equal. apply (points_sym taud (pt_at a) (pt_at b) (val a a)); try apply val_cov; try assumption; intros f; apply pt_able; assumption.
  - destruct (Nat.eqb_spec a b) as [->|N]; [rewrite Nat.eqb_refl; reflexivity|]. destruct (Nat.eqb_spec b a); [congruence|reflexivity].
Qed.
Lemma mat_pd : (forall a, (a < n)%nat -> 0 < err_at a) -> PropPart.positive_definite n S.
Proof.
  intros NP x X. rewrite quad_split. pose proof (squares_pos err_at x n NP X).
  pose proof (points_nonneg taud n pt_at val T0 (fun i f I => pt_able i f I) val_cov x). assert (0 < sigma * sigma) by (apply Rmult_lt_0_compat; exact S0). nra.
Qed.
Lemma mat_joint target t u A : (forall f, target = Some f -> able taud f) ->
  target_covariance target psi taud sigma sizes times t u -> target_variance target taud sigma t A ->
  (forall a, (a < n)%nat -> 0 <= err_at a) -> PropPred.joint_covariance n S u A.
Proof.
  intros PA HU HA NP x0 x. rewrite quad_split. pose proof (squares_nonneg err_at x n NP) as Q.
  assert (S2 : 0 < sigma * sigma) by (apply Rmult_lt_0_compat; exact S0).
  assert (H : 0 <= x0 * x0 * (A / (sigma * sigma)) + 2 * x0 * sumn n (fun a => x a * (u a / (sigma * sigma))) + sumn n (fun a => sumn n (fun b => x a * val a b * x b))).
  { apply (joint_points taud n pt_at val (target, t) (fun a => u a / (sigma * sigma)) (A / (sigma * sigma)) T0); auto.
    - intros i f I. apply pt_able, I.
    - exact val_cov.
    - intros b B. destruct (HU b B) as (d & m & v & E1 & -> & C). unfold pt_at. rewrite E1.
      replace (sigma * sigma * v / (sigma * sigma)) with v by (field; lra). destruct target, d; exact C.
    - destruct target as [f|]; cbn [target_variance] in HA.
      + destruct HA as (v & V & ->). replace (sigma * sigma * v / (sigma * sigma)) with v by (field; lra). exact V.
      + rewrite HA. unfold cov_of. cbn [fst snd]. rewrite Rminus_diag_eq, Rabs_R0 by reflexivity. unfold Rdiv. rewrite Ropp_0, Rmult_0_l, exp_0. field. lra. }
  rewrite (sumn_ext n (fun a => x a * (u a / (sigma * sigma))) (fun a => / (sigma * sigma) * (x a * u a))) in H by (intros; unfold Rdiv; ring).
  rewrite sumn_scal in H. apply (Rmult_le_compat_l (sigma * sigma)) in H; [|lra]. rewrite Rmult_0_r in H.
  set (a1 := sumn n (fun a => x a * u a)) in *. set (a2 := sumn n (fun a => sumn n (fun b => x a * val a b * x b))) in *.
  replace (sigma * sigma * (x0 * x0 * (A / (sigma * sigma)) + 2 * x0 * (/ (sigma * sigma) * a1) + a2)) with (x0 * x0 * A + 2 * x0 * a1 + sigma * sigma * a2) in H by (field; lra).
  lra.
Qed.
Lemma err_at_pos (P : R -> Prop) : (forall c i, (c < length sizes)%nat -> (i < nth c sizes 0)%nat -> P (err2 c i)) -> forall a, (a < n)%nat -> P (err_at a).
Proof.
  intros H a A. destruct (HS a a A A) as (c & i & _ & _ & _ & E & _). unfold err_at. rewrite E. destruct (locate_len _ _ _ _ E). apply H; assumption.
Qed.
End Mat.

(** ** C68 *)
(** Any number of lines with responses of any of the shapes, any numbers of points and
    times, in any order and repeated at will; errors positive.  [taud] and [sigma] are
    the damping time and amplitude of the continuum. *)
Theorem C68_data_positive_definite : forall psi taud sigma sizes times err2 S,
  0 < taud -> 0 < sigma -> (forall j, (Datatypes.S j < length sizes)%nat -> of_shapes (psi j)) ->
  (forall c i, (c < length sizes)%nat -> (i < nth c sizes 0)%nat -> 0 < err2 c i) ->
  data_covariance psi taud sigma sizes times err2 S ->
  PropPart.symmetric (list_sum sizes) S /\ PropPart.positive_definite (list_sum sizes) S.
Proof.
  intros psi taud sigma sizes times err2 SS T0 S0 SH E D.
  assert (AB : forall j, (S j < length sizes)%nat -> able taud (psi j)) by (intros j J; apply able_shapes; auto).
  split.
  - apply (mat_sym taud sigma T0 S0 psi sizes AB times err2 SS D).
  - apply (mat_pd taud sigma T0 S0 psi sizes AB times err2 SS D). apply (err_at_pos taud sigma psi sizes times err2 SS D (fun e => 0 < e)), E.
Qed.
Print Assumptions C68_data_positive_definite.

(** together with one more point: of the continuum, of a line, of a component, or of
    any other response of these shapes; here errors may be zero *)
Theorem C68_joint_covariance : forall psi taud sigma sizes times err2 S target t u A,
  0 < taud -> 0 < sigma -> (forall j, (Datatypes.S j < length sizes)%nat -> of_shapes (psi j)) -> (forall f, target = Some f -> of_shapes f) ->
  (forall c i, (c < length sizes)%nat -> (i < nth c sizes 0)%nat -> 0 <= err2 c i) ->
  data_covariance psi taud sigma sizes times err2 S ->
  target_covariance target psi taud sigma sizes times t u -> target_variance target taud sigma t A ->
  PropPred.joint_covariance (list_sum sizes) S u A.
Proof.
  intros psi taud sigma sizes times err2 SS target t u A T0 S0 SH SH' E D HU HA.
  assert (AB : forall j, (S j < length sizes)%nat -> able taud (psi j)) by (intros j J; apply able_shapes; auto).
  apply (mat_joint taud sigma T0 S0 psi sizes AB times err2 SS D target t u A); auto.
  - intros f F. apply able_shapes; auto.
  - apply (err_at_pos taud sigma psi sizes times err2 SS D (fun e => 0 <= e)), E.
Qed.
Print Assumptions C68_joint_covariance.

(** The order of the two integrals in the covariance of two lines does not matter. *)
Theorem C68_covariance_symmetric : forall f g taud t s vf v w, 0 < taud -> of_shapes f -> of_shapes g ->
  cov_ll f f taud t t vf -> cov_ll f g taud t s v -> cov_ll g f taud s t w -> v = w.
Proof.
  intros f g taud t s vf v w T F G C1 C2 C3.
  apply (points_sym taud (Some f, t) (Some g, s) vf v w T); auto; cbn [fst]; intros h X; injection X as <-; apply able_shapes; assumption.
Qed.
Print Assumptions C68_covariance_symmetric.

(** Two different top-hat lines whose covariances exist (further cases, for the whole
    matrices, are C68_case, C69_case and C70_case in PropEnd.v) *)
Example C68_symmetric_case : let f := response tophat 1 (stored exp (fun _ => 0) 3) in let g := response tophat 1 (stored exp (fun _ => 1) 3) in
  exists vf v w, of_shapes f /\ of_shapes g /\ cov_ll f f 1 0 0 vf /\ cov_ll f g 1 0 2 v /\ cov_ll g f 1 2 0 w /\ v = w.
Proof.
  intros f g. pose (pm := fun i => if (i <? 6)%nat then 0 else if (i <? 10)%nat then 1 else 0).
  assert (E0 : exp (pm 2%nat) = 1) by (cbn; apply exp_0).
  assert (S1 : forall c, of_shapes (response tophat 1 (stored exp (fun _ => c) 3))).
  { intros c. exists 1%nat, (fun _ => 1%nat), (stored exp (fun _ => c) 3). split; [|reflexivity]. intros k _. split; [lia|apply exp_pos]. }
  pose proof (fun t1 t2 a b => PropKernel.C31_tophat_line_line exp (fun _ => 0%nat) (fun _ j => (2 + 3 * j)%nat) 1 pm t1 t2 0 a b) as H. cbv beta in H. cbn [Nat.add] in H. rewrite E0 in H.
  assert (V1 := H 0 0 0%nat 0%nat). assert (V2 := H 0 2 0%nat 1%nat). assert (V3 := H 2 0 1%nat 0%nat).
  change (response tophat 1 (stored exp pm (2 + 3 * 0))) with f in *. change (response tophat 1 (stored exp pm (2 + 3 * 1))) with g in *.
  eexists. eexists. eexists. split; [apply S1|]. split; [apply S1|]. split; [exact V1|]. split; [exact V2|]. split; [exact V3|].
  eapply (C68_covariance_symmetric f g 1 0 2); [lra|apply S1|apply S1|exact V1|exact V2|exact V3].
Qed.
