(** Best linear unbiased prediction and least squares under a change of units, of time
    origins and of the order of the points. *)
From Coq Require Import Reals List Arith Lia Lra Psatz.
From Coquelicot Require Import Coquelicot.
From Verif Require Import CPrelude SemisepModel SemisepProofs SemisepProofs2 MatBridge MatBridge2 SemisepProofs3 PartProofs PartProofs2 KernelCalc KernelSpec KernelModel KernelSym KernelGauss2 PartModel
  CovModel LikeModel PredModel PropPart PropSemisep GlsAlgebra LikeProofs PropLike PredProofs PropPred.
From Verif Require Import PropCov MixSpec PropKernel MixModel PropMix PsdCore PsdKernel PropPsd UnitMat UnitProofs.
From Verif Require EndProofs PropEnd.
Import ListNotations.
Open Scope R_scope.

(** ** Best predictions *)
Lemma variance_ext n SS u u' V V' x x' : (forall k, (k < n)%nat -> u k = u' k) -> V = V' -> (forall k, (k < n)%nat -> x k = x' k) ->
  error_variance n SS u V x = error_variance n SS u' V' x'.
Proof.
  intros U -> X. unfold error_variance. f_equal; [f_equal; f_equal|]; apply sumn_ext; intros k K.
  - rewrite U, X by exact K. reflexivity.
  - apply sumn_ext. intros l LL. rewrite !X by assumption. reflexivity.
Qed.
Lemma unbiased_ext n m L tg tg' x x' : (forall v, tg v = tg' v) -> (forall k, (k < n)%nat -> x k = x' k) -> unbiased n m L tg x -> unbiased n m L tg' x'.
Proof. intros T X H v. rewrite <- T, <- H. apply sumn_ext. intros k K. rewrite X by exact K. reflexivity. Qed.
Lemma best_unique n m SS L u u' V V' tg tg' y v e v' e' : (forall k, (k < n)%nat -> u k = u' k) -> V = V' -> (forall w, tg w = tg' w) ->
  best_prediction n m SS L u V tg y v e -> best_prediction n m SS L u' V' tg' y v' e' -> v' = v /\ e' = e.
Proof.
  intros U EV T (w & B & -> & P & Q & M & N) (w' & B' & -> & P' & Q' & M' & N').
  assert (B1 : unbiased n m L tg w') by (apply (unbiased_ext n m L tg' tg w'); auto).
  assert (B2 : unbiased n m L tg' w) by (apply (unbiased_ext n m L tg tg' w); auto).
  assert (X : forall x, error_variance n SS u V x = error_variance n SS u' V' x) by (intros x; apply variance_ext; auto).
  assert (E : forall k, (k < n)%nat -> w' k = w k) by (apply (N w' B1); rewrite !X; apply M', B2).
  split; [apply sumn_ext; intros k K; rewrite E by exact K; reflexivity|].
  apply Rsqr_inj; [exact P'|exact P|]. unfold Rsqr. rewrite Q, Q', X. apply variance_ext; auto.
Qed.

Section Change.
Variables (n m : nat) (pi : nat -> nat) (be : nat -> R) (SS L U : nat -> nat -> R) (y v y' : nat -> R).
Hypothesis P1 : forall i, (i < n)%nat -> (pi i < n)%nat.
Hypothesis P2 : forall i j, (i < n)%nat -> (j < n)%nat -> pi i = pi j -> i = j.
Hypothesis BP : forall i, (i < n)%nat -> 0 < be i.
Hypothesis HU : forall z, exists w, forall l, (l < m)%nat -> sumn m (fun k => U l k * w k) = z l.
Hypothesis HY : forall i, (i < n)%nat -> y' i = be i * (y (pi i) + sumn m (fun l => L (pi i) l * v l)).
Definition back (j : nat) : nat := match find (fun i => Nat.eqb (pi i) j) (seq 0 n) with Some i => i | None => 0%nat end.
Lemma back_pi i : (i < n)%nat -> back (pi i) = i.
Proof.
  intros I. unfold back. destruct (find _ _) as [k|] eqn:F.
  - apply find_some in F. destruct F as [F E]. apply in_seq in F. apply Nat.eqb_eq in E. apply P2; [lia|exact I|exact E].
  - apply find_none with (x := i) in F; [|apply in_seq; lia]. rewrite Nat.eqb_refl in F. discriminate.
Qed.
Section Target.
Variables (f V : R) (u u' : nat -> R) (V' : R) (tg tg' : (nat -> R) -> R).
Hypothesis F0 : 0 < f.
Hypothesis Hu : forall i, (i < n)%nat -> u' i = f * be i * u (pi i).
Hypothesis HV : V' = f * f * V.
Hypothesis Ht : forall w, tg' w = f * tg (fun l => sumn m (fun k => U l k * w k)).
Hypothesis Te : forall z z', (forall l, (l < m)%nat -> z l = z' l) -> tg z = tg z'.
(** weights for the new data from those for the old data, and back *)
Definition fwd (x : nat -> R) (i : nat) : R := f * x (pi i) / be i.
Definition bwd (x' : nat -> R) (j : nat) : R := be (back j) * x' (back j) / f.
Lemma fwd_bwd x' i : (i < n)%nat -> fwd (bwd x') i = x' i.
Proof. intros I. unfold fwd, bwd. rewrite back_pi by exact I. pose proof (BP i I). field. lra. Qed.
Lemma fwd_sum x w : sumn n (fun i => fwd x i * sumn m (fun k => L' m pi be L U i k * w k)) = f * sumn n (fun i => x i * sumn m (fun l => L i l * sumn m (fun k => U l k * w k))).
Proof.
  rewrite <- (@sumn_reindex n pi P1 P2 (fun i => x i * sumn m (fun l => L i l * sumn m (fun k => U l k * w k)))). rewrite <- sumn_scal. apply sumn_ext. intros i I.
  unfold fwd, L'. rewrite (sumn_ext m _ (fun k => be i * (sumn m (fun l => L (pi i) l * U l k) * w k))) by (intros; ring). rewrite sumn_scal.
  replace (f * x (pi i) / be i * (be i * sumn m (fun k => sumn m (fun l => L (pi i) l * U l k) * w k))) with (f * (x (pi i) * sumn m (fun k => sumn m (fun l => L (pi i) l * U l k) * w k)))
    by (field; apply Rgt_not_eq, BP, I).
  f_equal. f_equal.
  rewrite (sumn_ext m (fun k => _ * w k) (fun k => sumn m (fun l => L (pi i) l * U l k * w k))) by (intros; rewrite Rmult_comm, <- sumn_scal; apply sumn_ext; intros; ring).
  rewrite sumn_swap. apply sumn_ext. intros l LL. rewrite <- sumn_scal. apply sumn_ext. intros. ring.
Qed.
Lemma fwd_unbiased x : unbiased n m (L' m pi be L U) tg' (fwd x) <-> unbiased n m L tg x.
Proof.
  split; intros H.
  - intros z. destruct (HU z) as [w W]. specialize (H w). rewrite fwd_sum, Ht in H. apply Rmult_eq_reg_l in H; [|lra].
    rewrite <- (Te _ _ W), <- H. apply sumn_ext. intros i I. f_equal. apply sumn_ext. intros l LL. rewrite W by exact LL. reflexivity.
  - intros w. rewrite fwd_sum, Ht, H. reflexivity.
Qed.
Lemma fwd_variance x : error_variance n (SS' pi be SS) u' V' (fwd x) = f * f * error_variance n SS u V x.
Proof.
  unfold error_variance.
  rewrite <- (@sumn_reindex n pi P1 P2 (fun k => x k * u k)), <- (@sumn_reindex n pi P1 P2 (fun k => sumn n (fun l => x k * SS k l * x l))).
  rewrite Rmult_plus_distr_l, Rmult_minus_distr_l, <- HV. f_equal; [f_equal|].
  - rewrite (sumn_ext n (fun k => fwd x k * u' k) (fun i => f * f * (x (pi i) * u (pi i)))); [rewrite sumn_scal; ring|].
    intros i I. rewrite Hu by exact I. unfold fwd. field. apply Rgt_not_eq, BP, I.
  - rewrite <- sumn_scal. apply sumn_ext. intros i I. rewrite <- (@sumn_reindex n pi P1 P2 (fun l => x (pi i) * SS (pi i) l * x l)). rewrite <- sumn_scal. apply sumn_ext. intros l LL.
    unfold fwd, SS'. pose proof (BP i I). pose proof (BP l LL). field. lra.
Qed.
Lemma best_change val err : best_prediction n m SS L u V tg y val err ->
  best_prediction n m (SS' pi be SS) (L' m pi be L U) u' V' tg' y' (f * (val + tg v)) (f * err).
Proof.
  intros (w & B & EV & P & Q & M & N). exists (fwd w). split; [apply fwd_unbiased, B|].
  assert (F2 : 0 < f * f) by (apply Rmult_lt_0_compat; exact F0).
  assert (UB : forall w', unbiased n m (L' m pi be L U) tg' w' -> unbiased n m L tg (bwd w')).
  { intros w' H. apply fwd_unbiased. revert H. apply unbiased_ext; [reflexivity|]. intros k K. symmetry. apply fwd_bwd, K. }
  assert (VB : forall w', error_variance n (SS' pi be SS) u' V' w' = f * f * error_variance n SS u V (bwd w')).
  { intros w'. rewrite <- fwd_variance. apply variance_ext; auto. intros k K. symmetry. apply fwd_bwd, K. }
  split; [|split; [apply Rmult_le_pos; lra|split; [|split]]].
  - rewrite EV, <- (B v). rewrite <- sumn_plus, <- (@sumn_reindex n pi P1 P2), <- sumn_scal. apply sumn_ext. intros i I. rewrite HY by exact I. unfold fwd. field. apply Rgt_not_eq, BP, I.
  - rewrite fwd_variance, <- Q. ring.
  - intros w' H. rewrite fwd_variance, VB. apply Rmult_le_compat_l; [lra|]. apply M, UB, H.
  - intros w' H LE k K. rewrite fwd_variance, VB in LE. apply Rmult_le_reg_l in LE; [|exact F2]. pose proof (N _ (UB _ H) LE) as E.
    rewrite <- (fwd_bwd w' k K). unfold fwd. rewrite E by (apply P1, K). reflexivity.
Qed.
End Target.

(** least squares *)
Lemma ls_unique Si q q' : spd n Si -> (forall z, (forall i, (i < n)%nat -> sumn m (fun j => L i j * z j) = 0) -> forall j, (j < m)%nat -> z j = 0) ->
  least_squares n m Si L y q -> least_squares n m Si L y q' -> forall j, (j < m)%nat -> q' j = q j.
Proof.
  intros [SY PD] INJ H H'. set (r := residual m L y q). set (r' := residual m L y q'). set (h := fun j => (q j + q' j) / 2).
  assert (E : forall i, residual m L y h i = (r i + r' i) / 2).
  { intros i. unfold r, r', residual, h. rewrite (sumn_ext m (fun j => L i j * ((q j + q' j) / 2)) (fun j => / 2 * (L i j * q j) + / 2 * (L i j * q' j))) by (intros; field).
    rewrite sumn_plus, !sumn_scal. field. }
  assert (C : chi_square n Si (residual m L y h) = (chi_square n Si r + chi_square n Si r') / 2 - chi_square n Si (fun i => r i - r' i) / 4).
  { unfold chi_square. rewrite (sumn_ext n _ (fun i => / 2 * sumn n (fun j => r i * Si i j * r j) + (/ 2 * sumn n (fun j => r' i * Si i j * r' j) + - / 4 * sumn n (fun j => (r i - r' i) * Si i j * (r j - r' j))))).
    - rewrite !sumn_plus, !sumn_scal. field.
    - intros i I. rewrite <- !sumn_scal, <- !sumn_plus. apply sumn_ext. intros j J. rewrite !E. field. }
  pose proof (H h) as H1. pose proof (H' q) as H2. pose proof (H q') as H3. fold r r' in H1, H2, H3. rewrite C in H1.
  assert (Z : chi_square n Si (fun i => r i - r' i) <= 0) by lra.
  assert (ZR : forall i, (i < n)%nat -> r i - r' i = 0).
  { intros i I. destruct (Req_dec (r i - r' i) 0) as [|NZ]; [assumption|]. pose proof (PD (fun i => r i - r' i) (ex_intro _ i (conj I NZ))) as P. change (0 < chi_square n Si (fun i => r i - r' i)) in P. lra. }
  intros j J. assert (D : q' j - q j = 0); [|lra]. apply (INJ (fun j => q' j - q j)); [|exact J]. intros i I. rewrite <- (ZR i I). unfold r, r', residual.
  rewrite (sumn_ext m _ (fun j => L i j * q' j + (-1) * (L i j * q j))) by (intros; ring). rewrite sumn_plus, sumn_scal. ring.
Qed.
Lemma ls_change Si q q' : spd n Si -> (forall z, (forall i, (i < n)%nat -> sumn m (fun j => L i j * z j) = 0) -> forall j, (j < m)%nat -> z j = 0) ->
  least_squares n m Si L y q -> least_squares n m (Si' pi be Si) (L' m pi be L U) y' q' -> forall l, (l < m)%nat -> sumn m (fun k => U l k * q' k) = q l + v l.
Proof.
  intros PD INJ H H' l LL. enough (X : sumn m (fun k => U l k * q' k) - v l = q l) by lra.
  assert (CC : forall x, chi_square n (Si' pi be Si) (residual m (L' m pi be L U) y' x) = chi_square n Si (residual m L y (fun l => sumn m (fun k => U l k * x k) - v l))).
  { intros x. apply chi_change; auto. intros i I. exact (resid_change n m pi be L U y v y' HY x i I). }
  apply (ls_unique Si q (fun l => sumn m (fun k => U l k * q' k) - v l) PD INJ H); [|exact LL].
  intros q0. destruct (HU (fun l => q0 l + v l)) as [x X]. specialize (H' x). rewrite !CC in H'.
  replace (chi_square n Si (residual m L y q0)) with (chi_square n Si (residual m L y (fun l => sumn m (fun k => U l k * x k) - v l))); [exact H'|].
  assert (RE : forall i, residual m L y (fun l => sumn m (fun k => U l k * x k) - v l) i = residual m L y q0 i).
  { intros i. unfold residual. f_equal. apply sumn_ext. intros j J. rewrite X by exact J. ring. }
  unfold chi_square. apply sumn_ext. intros i I. apply sumn_ext. intros j J. rewrite !RE. reflexivity.
Qed.
End Change.

(** ** What is predicted *)
Lemma target_point psi c taud sigma sizes ts t u : target_covariance (PropEnd.curve_of psi c) psi taud sigma sizes ts t u <->
  forall x, (x < list_sum sizes)%nat -> exists d m v, locate sizes x = Some (d, m) /\ u x = sigma * sigma * v /\ point_cov psi taud c d t (ts d m) v.
Proof.
  split; intros H x X; destruct (H x X) as (d & m & v & L & E & P); exists d, m, v; (split; [exact L|split; [exact E|]]); destruct c, d; exact P.
Qed.
Lemma target_unique psi c taud sigma sizes ts t u u' : target_covariance (PropEnd.curve_of psi c) psi taud sigma sizes ts t u ->
  target_covariance (PropEnd.curve_of psi c) psi taud sigma sizes ts t u' -> forall x, (x < list_sum sizes)%nat -> u' x = u x.
Proof.
  rewrite !target_point. intros H H' x X. destruct (H x X) as (d & m & v & L & -> & P), (H' x X) as (d' & m' & v' & L' & -> & P').
  rewrite L in L'. injection L' as <- <-. rewrite (point_cov_unique _ _ _ _ _ _ _ _ P P'). reflexivity.
Qed.
Lemma variance_unique f taud sigma t V V' : target_variance f taud sigma t V -> target_variance f taud sigma t V' -> V' = V.
Proof.
  destruct f as [f|]; cbn; [|congruence]. intros (v & C & ->) (v' & C' & ->). rewrite (cov_ll_unique _ _ _ _ _ _ _ C C'). reflexivity.
Qed.
Section Rows.
Variables (nl : nat) (size : nat -> nat) (ord : nat -> nat -> nat) (b : nat -> R).
Notation nc := (1 + nl)%nat.
Notation sizes := (map size (seq 0 nc)).
Notation n := (total size nc).
Hypothesis O1 : forall c k, (c < nc)%nat -> (k < size c)%nat -> (ord c k < size c)%nat.
Hypothesis B0 : forall c, (c < nc)%nat -> 0 < b c.
Lemma target_change a (o : nat -> R) psi psi' taud sigma ts ts' c t u : 0 < a -> 0 < taud -> (c < nc)%nat ->
  (forall j, (j < nl)%nat -> stretched a (rel b (S j)) (o (S j) - o 0%nat) (psi j) (psi' j)) ->
  (forall c k, (c < nc)%nat -> (k < size c)%nat -> ts' c k = a * ts c (ord c k) + o c) ->
  target_covariance (PropEnd.curve_of psi c) psi taud sigma sizes ts t u ->
  target_covariance (PropEnd.curve_of psi' c) psi' (a * taud) (b 0%nat * sigma) sizes ts' (a * t + o c) (fun x => b c * fac nc size b x * u (row nc size ord x)).
Proof.
  intros A0 T0 C SP HT. rewrite !target_point. intros H x X.
  assert (NN : list_sum sizes = n) by apply EndProofs.total_seq. rewrite NN in X.
  destruct (rows_at nc size x X) as (d & k & D & K & EX).
  assert (RX : row nc size ord x = (total size d + ord d k)%nat) by (rewrite EX; apply row_at; assumption).
  destruct (H (row nc size ord x)) as (d' & k' & v & L1 & EU & PC); [rewrite NN, RX, <- (row_at nc size ord d k D K); apply (row_lt nc size ord O1); rewrite <- EX; exact X|].
  rewrite RX, EndProofs.locate_total in L1 by auto using O1. injection L1 as <- <-.
  exists d, k, (rel b c * rel b d * v). split; [rewrite EX; apply EndProofs.locate_total; assumption|].
  pose proof (B0 0%nat ltac:(lia)) as B00. split.
  - rewrite EU. rewrite EX at 1. rewrite fac_at by assumption. unfold rel. field. lra.
  - rewrite HT by assumption. apply (point_stretch a A0 b o psi psi' nl); auto.
Qed.
Lemma variance_change a (o : nat -> R) psi psi' taud sigma c t V : 0 < a -> 0 < taud -> (c < nc)%nat ->
  (forall j, (j < nl)%nat -> stretched a (rel b (S j)) (o (S j) - o 0%nat) (psi j) (psi' j)) ->
  target_variance (PropEnd.curve_of psi c) taud sigma t V ->
  target_variance (PropEnd.curve_of psi' c) (a * taud) (b 0%nat * sigma) (a * t + o c) (b c * b c * V).
Proof.
  intros A0 T0 C SP. pose proof (B0 0%nat ltac:(lia)) as B00. destruct c as [|j]; cbn [PropEnd.curve_of target_variance].
  - intros ->. ring.
  - intros (v & CV & ->). exists (rel b (S j) * rel b (S j) * v). split; [|unfold rel; field; lra].
    exact (ll_stretch a A0 (rel b (S j)) (o (S j) - o 0%nat) _ _ (rel b (S j)) (o (S j) - o 0%nat) _ _ taud (o 0%nat) (o (S j)) (o (S j)) t t v T0 eq_refl eq_refl (SP j ltac:(lia)) (SP j ltac:(lia)) CV).
Qed.
End Rows.
