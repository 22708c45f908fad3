(** The Gaussian likelihood under a change of units, of time origins and of the order of
    the points. *)
From Coq Require Import Reals List Arith Lia Lra FunctionalExtensionality ClassicalChoice.
From Coquelicot Require Import Coquelicot.
From Verif Require Import CPrelude SemisepModel SemisepProofs SemisepProofs2 MatBridge MatBridge2 SemisepProofs3 PartProofs PartProofs2 KernelCalc KernelSpec KernelModel KernelGauss2 PartModel
  CovModel LikeModel PredModel PropPart PropSemisep GlsAlgebra LikeProofs PropLike PredProofs PropPred.
From Verif Require Import PropCov MixSpec PropKernel MixModel PropMix PsdCore PsdKernel PropPsd UnitMat.
From Verif Require EndProofs LuProofs.
Import ListNotations.
Open Scope R_scope.

(** ** Integrals *)
Lemma wl_stretch f a h v : 0 < a -> whole_line f v -> whole_line (fun x => f ((x - h) / a)) (a * v).
Proof.
  intros A H. apply (wl_ext (fun x => (fun y => f (y / a)) (x + - h))); [reflexivity|]. apply (wl_shift (fun y => f (y / a)) (- h)).
  apply wl_intro. intros e. assert (E : 0 < e / a) by (apply Rdiv_lt_0_compat; [apply cond_pos|exact A]).
  destruct (wl_elim _ _ H (mkposreal _ E)) as [M HM]. exists (a * M). intros x y X Y.
  destruct (HM (x / a) (y / a)) as (w & W & B).
  - apply Rmult_lt_reg_l with a; [exact A|]. replace (a * (x / a)) with x by (field; lra). lra.
  - apply Rmult_lt_reg_l with a; [exact A|]. replace (a * (y / a)) with y by (field; lra). lra.
  - exists (a * w). split.
    + replace (x / a) with (/ a * x + 0) in W by (field; lra). replace (y / a) with (/ a * y + 0) in W by (field; lra).
      apply is_RInt_comp_lin in W. apply (is_RInt_scal _ _ _ a) in W.
      eapply is_RInt_ext; [|exact W]. intros z _. unfold scal; simpl; unfold mult; simpl.
      replace (/ a * z + 0) with (z / a) by (field; lra). field. lra.
    + rewrite <- Rmult_minus_distr_l, Rabs_mult, (Rabs_pos_eq a) by lra. cbn [pos] in B.
      apply Rmult_lt_reg_l with (/ a); [apply Rinv_0_lt_compat, A|]. replace (/ a * (a * Rabs (w - v))) with (Rabs (w - v)) by (field; lra). unfold Rdiv in B. lra.
Qed.

Section Cov.
Variable a : R.
Hypothesis A0 : 0 < a.
(** psi' : the time of a response stretched and moved, its area multiplied *)
Definition stretched (r h : R) (psi psi' : R -> R) : Prop := forall x, psi' x = r / a * psi ((x - h) / a).
Lemma cl_stretch r h psi psi' taud o o' tc tl v : 0 < taud -> h = o' - o -> stretched r h psi psi' ->
  cov_cl psi taud tc tl v -> cov_cl psi' (a * taud) (a * tc + o) (a * tl + o') (r * v).
Proof.
  intros T0 -> E H. unfold cov_cl in *. apply (wl_stretch _ a (o' - o)) in H; [|exact A0].
  apply (wl_scal (r / a)) in H. replace (r / a * (a * v)) with (r * v) in H by (field; lra).
  revert H. apply wl_ext. intros x. rewrite E. rewrite Rmult_assoc. f_equal. f_equal. f_equal.
  replace (a * tc + o - (a * tl + o' - x)) with (a * (tc - (tl - (x - (o' - o)) / a))) by (field; lra).
  rewrite Rabs_mult, (Rabs_pos_eq a) by lra. field. lra.
Qed.
Lemma ll_stretch r1 h1 psi1 psi1' r2 h2 psi2 psi2' taud o o1 o2 t1 t2 v : 0 < taud -> h1 = o1 - o -> h2 = o2 - o -> stretched r1 h1 psi1 psi1' -> stretched r2 h2 psi2 psi2' ->
  cov_ll psi1 psi2 taud t1 t2 v -> cov_ll psi1' psi2' (a * taud) (a * t1 + o1) (a * t2 + o2) (r1 * r2 * v).
Proof.
  intros T0 E1 E2 S1 S2 (inner & I & W). exists (fun x => r2 * inner ((x - h1) / a)). split.
  - intros x. replace (a * t1 + o1 - x) with (a * (t1 - (x - h1) / a) + o) by (subst h1; field; lra).
    apply (cl_stretch r2 h2 psi2); auto.
  - apply (wl_stretch _ a h1) in W; [|exact A0]. apply (wl_scal (r1 / a * r2)) in W.
    replace (r1 / a * r2 * (a * v)) with (r1 * r2 * v) in W by (field; lra).
    revert W. apply wl_ext. intros x. rewrite S1. ring.
Qed.
(** curve 0 is the continuum; r 0 = 1 *)
Definition rel (b : nat -> R) (c : nat) : R := b c / b 0%nat.
Lemma point_stretch b o psi psi' nl taud c d t s v : 0 < taud -> 0 < b 0%nat -> (c < 1 + nl)%nat -> (d < 1 + nl)%nat ->
  (forall j, (j < nl)%nat -> stretched (rel b (S j)) (o (S j) - o 0%nat) (psi j) (psi' j)) ->
  point_cov psi taud c d t s v -> point_cov psi' (a * taud) c d (a * t + o c) (a * s + o d) (rel b c * rel b d * v).
Proof.
  intros T0 B0 C D SP. assert (R0 : rel b 0 = 1) by (unfold rel; field; lra). destruct c as [|c], d as [|d]; cbn [point_cov]; rewrite ?R0.
  - intros ->. rewrite !Rmult_1_l. f_equal. replace (a * t + o 0%nat - (a * s + o 0%nat)) with (a * (t - s)) by ring.
    rewrite Rabs_mult, (Rabs_pos_eq a) by lra. field. lra.
  - rewrite Rmult_1_l. apply cl_stretch with (o' := o (S d)) (o := o 0%nat) (1 := T0) (2 := eq_refl). apply SP. lia.
  - rewrite Rmult_1_r. apply cl_stretch with (o' := o (S c)) (o := o 0%nat) (1 := T0) (2 := eq_refl). apply SP. lia.
  - apply ll_stretch with (o := o 0%nat) (1 := T0) (2 := eq_refl) (3 := eq_refl); apply SP; lia.
Qed.
(** the four shapes *)
Definition stretch_comp (r h : R) (c : comp) : comp := Comp (r * area c) (a * centre c + h) (a * width c).
Lemma le_stretch x y h : a * x + h <= y <-> x <= (y - h) / a.
Proof.
  split; intros H.
  - apply Rmult_le_reg_l with a; [exact A0|]. replace (a * ((y - h) / a)) with (y - h) by (field; lra). lra.
  - apply (Rmult_le_compat_l a) in H; [|lra]. replace (a * ((y - h) / a)) with (y - h) in H by (field; lra). lra.
Qed.
Lemma shape_stretch ty r h c x : 0 < width c -> MixSpec.shape_of ty (stretch_comp r h c) x = r / a * MixSpec.shape_of ty c ((x - h) / a).
Proof.
  intros W. destruct ty as [|[|[|[|ty]]]]; cbn [MixSpec.shape_of]; [| | | |ring].
  - unfold gaussian, stretch_comp. cbn [area centre width]. assert (0 < sqrt (2 * PI)) by (apply sqrt_lt_R0; pose proof PI_RGT_0; lra).
    rewrite <- (Rmult_assoc (r / a)). f_equal; [field; lra|]. f_equal. field. lra.
  - unfold tophat, stretch_comp. cbn [area centre width].
    assert (E : Rabs (x - (a * centre c + h)) = a * Rabs ((x - h) / a - centre c)).
    { rewrite <- (Rabs_pos_eq a) at 2 by lra. rewrite <- Rabs_mult. f_equal. field. lra. }
    rewrite E. destruct (Rle_dec (a * Rabs ((x - h) / a - centre c)) (a * width c)) as [L|L], (Rle_dec (Rabs ((x - h) / a - centre c)) (width c)) as [L'|L'].
    + field. lra.
    + exfalso. apply L'. apply Rmult_le_reg_l with a; assumption.
    + exfalso. apply L. apply Rmult_le_compat_l; lra.
    + ring.
  - unfold gamma2, stretch_comp. cbn [area centre width]. replace (a * centre c + h - 2 * (a * width c)) with (a * (centre c - 2 * width c) + h) by ring.
    destruct (Rle_dec (a * (centre c - 2 * width c) + h) x) as [L|L], (Rle_dec (centre c - 2 * width c) ((x - h) / a)) as [L'|L'].
    + rewrite <- (Rmult_assoc (r / a)). f_equal; [field; lra|]. f_equal. field. lra.
    + exfalso. apply L', le_stretch, L.
    + exfalso. apply L, le_stretch, L'.
    + ring.
  - unfold exponential, stretch_comp. cbn [area centre width]. replace (a * centre c + h - a * width c) with (a * (centre c - width c) + h) by ring.
    destruct (Rle_dec (a * (centre c - width c) + h) x) as [L|L], (Rle_dec (centre c - width c) ((x - h) / a)) as [L'|L'].
    + rewrite <- (Rmult_assoc (r / a)). f_equal; [field; lra|]. f_equal. field. lra.
    + exfalso. apply L', le_stretch, L.
    + exfalso. apply L, le_stretch, L'.
    + ring.
Qed.
Lemma mixed_stretch r h n ty c c' : (forall k, (k < n)%nat -> 0 < width (c k)) -> (forall k, (k < n)%nat -> c' k = stretch_comp r h (c k)) ->
  stretched r h (mixed_response n ty c) (mixed_response n ty c').
Proof.
  intros W E x. unfold mixed_response. rewrite <- sumn_scal. apply sumn_ext. intros k K. rewrite E by exact K. apply shape_stretch, W, K.
Qed.
Lemma response_mixed type_tf n c : response (PropCov.shape_of type_tf) n c = mixed_response n (fun _ => Nat.min type_tf 3) c.
Proof. destruct type_tf as [|[|[|t]]]; [reflexivity..|]. replace (Nat.min (S (S (S t))) 3) with 3%nat by lia. reflexivity. Qed.
Lemma response_stretch type_tf r h n c c' : (forall k, (k < n)%nat -> 0 < width (c k)) -> (forall k, (k < n)%nat -> c' k = stretch_comp r h (c k)) ->
  stretched r h (response (PropCov.shape_of type_tf) n c) (response (PropCov.shape_of type_tf) n c').
Proof. intros W E. rewrite !response_mixed. apply mixed_stretch; assumption. Qed.
End Cov.

(** ** The marginal likelihood *)
Lemma ln_prodn n f : (forall i, (i < n)%nat -> 0 < f i) -> 0 < prodn n f /\ ln (prodn n f) = sumn n (fun i => ln (f i)).
Proof.
  induction n as [|n IH]; intros H; cbn [prodn sumn]; [split; [lra|apply ln_1]|].
  destruct IH as [P E]; [intros; apply H; lia|]. assert (0 < f n) by (apply H; lia). split; [apply Rmult_lt_0_compat; assumption|].
  rewrite ln_mult by assumption. rewrite E. reflexivity.
Qed.
Lemma marginal_unique n m SS Si L y p p' : marginal_loglike n m SS Si L y p -> marginal_loglike n m SS Si L y p' -> p' = p.
Proof.
  intros H H'. symmetry. apply (marginal_shift n m SS Si L y y (fun _ => 0) p p'); [|exact H|exact H'].
  intros i I. rewrite (sumn_ext m _ (fun _ => 0 * 0)) by (intros; ring). rewrite sumn_scal. ring.
Qed.
Section Change.
Variables (n m : nat) (pi : nat -> nat) (be : nat -> R) (SS Si L U : nat -> nat -> R) (y v : nat -> R).
Hypothesis P1 : forall i, (i < n)%nat -> (pi i < n)%nat.
Hypothesis P2 : forall i j, (i < n)%nat -> (j < n)%nat -> pi i = pi j -> i = j.
Hypothesis BP : forall i, (i < n)%nat -> 0 < be i.
Hypothesis IV : is_inverse n SS Si.
Hypothesis DS : 0 < detn n SS.
Hypothesis DN : 0 < detn m (normal_matrix n Si L).
Hypothesis DU : 0 < detn m U.
Definition SS' i j := be i * be j * SS (pi i) (pi j).
Definition Si' i j := Si (pi i) (pi j) / (be i * be j).
Definition L' i k := be i * sumn m (fun l => L (pi i) l * U l k).
Variable y' : nat -> R.
Hypothesis HY : forall i, (i < n)%nat -> y' i = be i * (y (pi i) + sumn m (fun l => L (pi i) l * v l)).
Lemma inverse_change : is_inverse n SS' Si'.
Proof.
  apply inverse_both. intros i j I J. unfold SS', Si', delta.
  rewrite (sumn_ext n _ (fun k => be i / be j * (SS (pi i) (pi k) * Si (pi k) (pi j)))).
  - rewrite sumn_scal. rewrite (@sumn_reindex n pi P1 P2 (fun k => SS (pi i) k * Si k (pi j))). rewrite (proj1 (IV _ _ (P1 i I) (P1 j J))).
    destruct (Nat.eqb_spec i j) as [->|NE].
    + rewrite Nat.eqb_refl. pose proof (BP j J). field. lra.
    + destruct (Nat.eqb_spec (pi i) (pi j)) as [E|_]; [elim NE; apply P2; assumption|ring].
  - intros k K. pose proof (BP j J). pose proof (BP k K). field. lra.
Qed.
Lemma det_change : detn n SS' = prodn n be * prodn n be * detn n SS.
Proof.
  rewrite <- (@det_reindex n pi P1 P2 SS). rewrite <- (@det_diag n be) at 1. rewrite <- (@det_diag n be). rewrite <- det_congr.
  apply detn_ext. intros i j I J.
  rewrite (sumn_single n i); [|exact I|].
  - rewrite (sumn_single n j); [|exact J|].
    + rewrite !Nat.eqb_refl. unfold SS'. ring.
    + intros k K NE. destruct (Nat.eqb_spec k j); [congruence|ring].
  - intros k K NE. destruct (Nat.eqb_spec k i); [congruence|]. rewrite (sumn_ext n _ (fun _ => 0 * 0)) by (intros; ring). rewrite sumn_scal. ring.
Qed.
Lemma resid_change q i : (i < n)%nat -> residual m L' y' q i = be i * residual m L y (fun l => sumn m (fun k => U l k * q k) - v l) (pi i).
Proof.
  intros I. unfold residual. rewrite HY by exact I. unfold L'.
  rewrite (sumn_ext m (fun j => be i * sumn m (fun l => L (pi i) l * U l j) * q j) (fun j => be i * sumn m (fun l => L (pi i) l * (U l j * q j)))).
  2:{ intros j J. rewrite Rmult_assoc. f_equal. rewrite Rmult_comm, <- sumn_scal. apply sumn_ext. intros. ring. }
  rewrite sumn_scal, sumn_swap.
  rewrite (sumn_ext m (fun j => L (pi i) j * (sumn m (fun k => U j k * q k) - v j)) (fun j => L (pi i) j * sumn m (fun k => U j k * q k) + (-1) * (L (pi i) j * v j))) by (intros; ring).
  rewrite sumn_plus, sumn_scal. rewrite (sumn_ext m (fun j => sumn m (fun i0 => L (pi i) j * (U j i0 * q i0))) (fun j => L (pi i) j * sumn m (fun k => U j k * q k))) by (intros; apply sumn_scal). ring.
Qed.
Lemma chi_change r r' : (forall i, (i < n)%nat -> r' i = be i * r (pi i)) -> chi_square n Si' r' = chi_square n Si r.
Proof.
  intros E. unfold chi_square. rewrite <- (@sumn_reindex n pi P1 P2 (fun i => sumn n (fun j => r i * Si i j * r j))). apply sumn_ext. intros i I.
  rewrite <- (@sumn_reindex n pi P1 P2 (fun j => r (pi i) * Si (pi i) j * r j)). apply sumn_ext. intros j J.
  rewrite !E by assumption. unfold Si'. pose proof (BP i I). pose proof (BP j J). field. lra.
Qed.
Lemma normal_change a b : normal_matrix n Si' L' a b = sumn m (fun k => sumn m (fun l => U k a * normal_matrix n Si L k l * U l b)).
Proof.
  unfold normal_matrix.
  transitivity (sumn n (fun i => sumn n (fun j => sumn m (fun k => L i k * U k a) * Si i j * sumn m (fun l => L j l * U l b)))).
  - rewrite <- (@sumn_reindex n pi P1 P2 (fun i => sumn n (fun j => sumn m (fun k => L i k * U k a) * Si i j * sumn m (fun l => L j l * U l b)))). apply sumn_ext. intros i I.
    rewrite <- (@sumn_reindex n pi P1 P2 (fun j => sumn m (fun k => L (pi i) k * U k a) * Si (pi i) j * sumn m (fun l => L j l * U l b))). apply sumn_ext. intros j J.
    unfold L', Si'. pose proof (BP i I). pose proof (BP j J). field. lra.
  - rewrite (sumn_ext n _ (fun i => sumn m (fun k => sumn m (fun l => U k a * sumn n (fun j => L i k * Si i j * L j l) * U l b)))).
    + rewrite sumn_swap. apply sumn_ext. intros k K. rewrite sumn_swap. apply sumn_ext. intros l LL.
      rewrite (sumn_ext n _ (fun i => U k a * U l b * sumn n (fun j => L i k * Si i j * L j l))) by (intros; ring). rewrite sumn_scal. ring.
    + intros i I. rewrite (sumn_ext n _ (fun j => sumn m (fun k => sumn m (fun l => U k a * (L i k * Si i j * L j l) * U l b)))).
      * rewrite sumn_swap. apply sumn_ext. intros k K. rewrite sumn_swap. apply sumn_ext. intros l LL.
        rewrite (sumn_ext n _ (fun j => U k a * U l b * (L i k * Si i j * L j l))) by (intros; ring). rewrite sumn_scal. ring.
      * intros j J. rewrite Rmult_assoc, Rmult_comm, <- sumn_scal. apply sumn_ext. intros k K.
        replace (Si i j * sumn m (fun l => L j l * U l b) * (L i k * U k a)) with ((Si i j * L i k * U k a) * sumn m (fun l => L j l * U l b)) by ring.
        rewrite <- sumn_scal. apply sumn_ext. intros l LL. ring.
Qed.
Lemma marginal_change p : marginal_loglike n m SS Si L y p ->
  marginal_loglike n m SS' Si' L' y' (p - sumn n (fun i => ln (be i)) - ln (detn m U)).
Proof.
  intros (q & Q & ->). destruct (proj1 (det_inv m U)) as [Ui HU]; [lra|].
  exists (fun k => sumn m (fun l => Ui k l * (q l + v l))).
  assert (E : forall z, chi_square n Si' (residual m L' y' z) = chi_square n Si (residual m L y (fun l => sumn m (fun k => U l k * z k) - v l))).
  { intros z. apply chi_change. intros i I. apply resid_change, I. }
  assert (E0 : chi_square n Si' (residual m L' y' (fun k => sumn m (fun l => Ui k l * (q l + v l)))) = chi_square n Si (residual m L y q)).
  { rewrite E. unfold chi_square. apply sumn_ext. intros i I. apply sumn_ext. intros j J.
    assert (R : forall i, residual m L y (fun l => sumn m (fun k => U l k * sumn m (fun l0 => Ui k l0 * (q l0 + v l0))) - v l) i = residual m L y q i).
    { intros i'. unfold residual. f_equal. apply sumn_ext. intros l LL. f_equal. pose proof (mv_id m U Ui (fun l => q l + v l) l HU LL) as M. unfold mv in M. rewrite M. ring. }
    rewrite !R. reflexivity. }
  split.
  - intros q'. rewrite E0, (E q'). apply Q.
  - rewrite E0, det_change. destruct (ln_prodn n be BP) as [PB EB].
    rewrite ln_mult by (try assumption; apply Rmult_lt_0_compat; assumption). rewrite ln_mult by assumption. rewrite EB.
    rewrite (detn_ext (n := m) (f := normal_matrix n Si' L') (g := fun a b => sumn m (fun k => sumn m (fun l => U k a * normal_matrix n Si L k l * U l b)))) by (intros; apply normal_change).
    rewrite det_congr. rewrite ln_mult by (try assumption; apply Rmult_lt_0_compat; assumption). rewrite ln_mult by assumption. lra.
Qed.
End Change.

(** ** Trends in the new time *)
Lemma sumn_blocks nq nc f : sumn (nq * nc) f = sumn nc (fun c => sumn nq (fun i => f (c * nq + i)%nat)).
Proof.
  induction nc as [|nc IH]; [rewrite Nat.mul_0_r; reflexivity|]. rewrite Nat.mul_succ_r, sumn_add, IH. cbn [sumn]. f_equal.
  apply sumn_ext. intros i I. f_equal. lia.
Qed.
Lemma sum_f_sumn f n : sum_f_R0 f n = sumn (S n) f.
Proof. induction n as [|n IH]; cbn [sum_f_R0 sumn] in *; [ring|]. rewrite IH. reflexivity. Qed.
Lemma sumn_pad f n k : (n <= k)%nat -> sumn n f = sumn k (fun i => if (i <? n)%nat then f i else 0).
Proof.
  intros NK. rewrite (sumn_split k n) by exact NK. rewrite (sumn_ext (k - n) _ (fun _ => 0 * 0)), sumn_scal.
  - rewrite Rmult_0_l, Rplus_0_r. apply sumn_ext. intros i I. destruct (Nat.ltb_spec i n); [reflexivity|lia].
  - intros i I. destruct (Nat.ltb_spec (n + i) n); [lia|ring].
Qed.
Lemma div_block nq c i : (i < nq)%nat -> ((c * nq + i) / nq)%nat = c /\ ((c * nq + i) mod nq)%nat = i.
Proof.
  intros I. rewrite Nat.add_comm. split.
  - rewrite Nat.div_add by lia. rewrite Nat.div_small by lia. lia.
  - rewrite Nat.mod_add by lia. apply Nat.mod_small, I.
Qed.
Section Trend.
Variables (nq nc : nat) (a : R) (o b : nat -> R).
Hypothesis NQ : (1 <= nq)%nat.
Hypothesis A0 : 0 < a.
Hypothesis B0 : forall c, (c < nc)%nat -> 0 < b c.
(** coefficient j of the polynomial in the old time made by coefficient i of the one in the new time *)
Definition bin (c j i : nat) : R := if (j <=? i)%nat then Binomial.C i j * a ^ j * o c ^ (i - j) else 0.
Definition newU (m k : nat) : R :=
  if (m / nq =? k / nq)%nat then bin (m / nq) (m mod nq) (k mod nq) / b (k / nq) else 0.
Lemma newU_block c d j i : (j < nq)%nat -> (i < nq)%nat -> newU (c * nq + j) (d * nq + i) = if (c =? d)%nat then bin c j i / b d else 0.
Proof. intros J I. unfold newU. destruct (div_block nq c j J) as [-> ->], (div_block nq d i I) as [-> ->]. reflexivity. Qed.
Lemma bin_pow c t i : (i < nq)%nat -> sumn nq (fun j => bin c j i * t ^ j) = (a * t + o c) ^ i.
Proof.
  intros I. rewrite binomial, sum_f_sumn. rewrite (sumn_pad _ (S i) nq) by lia. apply sumn_ext. intros j J. unfold bin.
  destruct (Nat.leb_spec j i), (Nat.ltb_spec j (S i)); try lia; [rewrite Rpow_mult_distr; ring|ring].
Qed.
Lemma newU_mul w c j : (c < nc)%nat -> (j < nq)%nat -> sumn (nq * nc) (fun k => newU (c * nq + j) k * w k) = sumn nq (fun i => bin c j i / b c * w (c * nq + i)%nat).
Proof.
  intros C J. rewrite sumn_blocks. rewrite (sumn_single nc c); [|exact C|].
  - apply sumn_ext. intros i I. rewrite newU_block by assumption. rewrite Nat.eqb_refl. reflexivity.
  - intros d D NE. rewrite (sumn_ext nq _ (fun _ => 0 * 0)), sumn_scal; [ring|]. intros i I. rewrite newU_block by assumption.
    destruct (Nat.eqb_spec c d); [congruence|ring].
Qed.
Lemma trend_change w c t : (c < nc)%nat -> b c * trend_at nq (fun l => sumn (nq * nc) (fun k => newU l k * w k)) c t = trend_at nq w c (a * t + o c).
Proof.
  intros C. unfold trend_at. rewrite (sumn_ext nq _ (fun j => sumn nq (fun i => bin c j i / b c * w (c * nq + i)%nat * t ^ j))).
  - rewrite sumn_swap, <- sumn_scal. apply sumn_ext. intros i I. rewrite <- bin_pow by exact I. pose proof (B0 c C).
    rewrite (sumn_ext nq _ (fun j => w (c * nq + i)%nat / b c * (bin c j i * t ^ j))) by (intros; field; lra). rewrite sumn_scal. field. lra.
  - intros j J. rewrite newU_mul by assumption. rewrite Rmult_comm, <- sumn_scal. apply sumn_ext. intros. ring.
Qed.
Lemma newU_det : 0 < detn (nq * nc) newU
  /\ ln (detn (nq * nc) newU) = INR nc * (INR nq * (INR nq - 1) / 2) * ln a - INR nq * sumn nc (fun c => ln (b c)).
Proof.
  assert (E : detn (nq * nc) newU = prodn (nq * nc) (fun m => a ^ (m mod nq) / b (m / nq)%nat)).
  { rewrite det_upper.
    - apply LuProofs.prodn_ext. intros m M. unfold newU, bin. rewrite Nat.eqb_refl, Nat.leb_refl, Nat.sub_diag, pascal_step1 by lia.
      rewrite Nat.sub_diag. replace (Binomial.C (m mod nq) 0) with 1; [cbn [pow]; field|].
      + pose proof (B0 (m / nq)%nat). enough (m / nq < nc)%nat by (specialize (H H0); lra). apply Nat.div_lt_upper_bound; lia.
      + unfold Binomial.C. rewrite Nat.sub_0_r. cbn [fact]. change (INR 1) with 1. field. apply INR_fact_neq_0.
    - intros m k KM MN. unfold newU, bin. destruct (Nat.eqb_spec (m / nq) (k / nq)) as [E|]; [|reflexivity].
      destruct (Nat.leb_spec (m mod nq) (k mod nq)); [|unfold Rdiv; ring]. exfalso.
      pose proof (Nat.div_mod m nq ltac:(lia)). pose proof (Nat.div_mod k nq ltac:(lia)). rewrite E in *. lia. }
  assert (P : forall m, (m < nq * nc)%nat -> 0 < a ^ (m mod nq) / b (m / nq)%nat).
  { intros m M. apply Rdiv_lt_0_compat; [apply pow_lt, A0|]. apply B0. apply Nat.div_lt_upper_bound; lia. }
  rewrite E. destruct (ln_prodn _ _ P) as [PP ->]. split; [exact PP|]. rewrite sumn_blocks.
  rewrite (sumn_ext nc _ (fun c => INR nq * (INR nq - 1) / 2 * ln a + (- INR nq) * ln (b c))).
  - rewrite sumn_plus, (sumn_scal nc (- INR nq)). assert (K : forall x, sumn nc (fun _ => x) = INR nc * x).
    { clear. induction nc as [|n IH]; intros x; [cbn; ring|]. cbn [sumn]. rewrite IH, S_INR. ring. }
    rewrite K. ring.
  - intros c C. pose proof (B0 c C) as BC.
    rewrite (sumn_ext nq _ (fun i => ln a * INR i + (-1) * ln (b c))).
    + rewrite sumn_plus, sumn_scal. clear. induction nq as [|n IH]; [cbn; lra|]. cbn [sumn]. rewrite S_INR. nra.
    + intros i I. destruct (div_block nq c i I) as [-> ->]. unfold Rdiv. rewrite ln_mult by (try apply pow_lt; try apply Rinv_0_lt_compat; assumption).
      rewrite ln_Rinv by assumption. rewrite ln_pow by assumption. ring.
Qed.
End Trend.

(** ** Rows of the stacked data *)
Section Rows.
Variables (nc : nat) (size : nat -> nat) (ord : nat -> nat -> nat) (b : nat -> R).
Notation sizes := (map size (seq 0 nc)).
Notation n := (total size nc).
Hypothesis O1 : forall c k, (c < nc)%nat -> (k < size c)%nat -> (ord c k < size c)%nat.
Hypothesis O2 : forall c k l, (c < nc)%nat -> (k < size c)%nat -> (l < size c)%nat -> ord c k = ord c l -> k = l.
Definition row (r : nat) : nat := match locate sizes r with Some (c, k) => (total size c + ord c k)%nat | None => r end.
Definition fac (r : nat) : R := match locate sizes r with Some (c, _) => b c | None => 1 end.
Lemma row_at c k : (c < nc)%nat -> (k < size c)%nat -> row (total size c + k) = (total size c + ord c k)%nat.
Proof. intros C K. unfold row. rewrite EndProofs.locate_total by assumption. reflexivity. Qed.
Lemma fac_at c k : (c < nc)%nat -> (k < size c)%nat -> fac (total size c + k) = b c.
Proof. intros C K. unfold fac. rewrite EndProofs.locate_total by assumption. reflexivity. Qed.
Lemma rows_at r : (r < n)%nat -> exists c k, (c < nc)%nat /\ (k < size c)%nat /\ r = (total size c + k)%nat.
Proof.
  intros R. destruct (curve_at size nc r) as (c & k & C & K & E); [rewrite <- total_psum; exact R|].
  exists c, k. rewrite total_psum. auto.
Qed.
Lemma row_lt r : (r < n)%nat -> (row r < n)%nat.
Proof.
  intros R. destruct (rows_at r R) as (c & k & C & K & ->). rewrite row_at by assumption. pose proof (O1 c k C K).
  pose proof (EndProofs.total_mono size (S c) nc ltac:(lia)) as T. cbn [total] in T. lia.
Qed.
Lemma row_inj r s : (r < n)%nat -> (s < n)%nat -> row r = row s -> r = s.
Proof.
  intros R S E. destruct (rows_at r R) as (c & k & C & K & ->), (rows_at s S) as (d & l & D & M & ->). rewrite !row_at in E by assumption.
  assert (Q : Some (c, ord c k) = Some (d, ord d l)).
  { rewrite <- (EndProofs.locate_total size nc c (ord c k)) by (auto using O1). rewrite E. apply EndProofs.locate_total; auto using O1. }
  injection Q as <- Q. f_equal. apply (O2 c); assumption.
Qed.
Hypothesis B0 : forall c, (c < nc)%nat -> 0 < b c.
Lemma fac_pos r : (r < n)%nat -> 0 < fac r.
Proof. intros R. destruct (rows_at r R) as (c & k & C & K & ->). rewrite fac_at by assumption. apply B0, C. Qed.
Lemma sum_fac : sumn n (fun r => ln (fac r)) = sumn nc (fun c => INR (size c) * ln (b c)).
Proof.
  assert (G : forall m, (m <= nc)%nat -> sumn (total size m) (fun r => ln (fac r)) = sumn m (fun c => INR (size c) * ln (b c))).
  { induction m as [|m IH]; intros M; [reflexivity|]. cbn [total sumn]. rewrite sumn_add, IH by lia. f_equal.
    rewrite (sumn_ext (size m) _ (fun _ => ln (b m))) by (intros k K; rewrite fac_at by lia; reflexivity).
    generalize (size m). intros s. induction s as [|s IHs]; [cbn; ring|]. cbn [sumn]. rewrite IHs, S_INR. ring. }
  apply G. lia.
Qed.
(** the covariance matrix *)
Lemma cov_change a nl (o : nat -> R) psi psi' taud sigma ts ts' e e' SS : nc = (1 + nl)%nat -> 0 < a -> 0 < taud ->
  (forall j, (j < nl)%nat -> stretched a (rel b (S j)) (o (S j) - o 0%nat) (psi j) (psi' j)) ->
  (forall c k, (c < nc)%nat -> (k < size c)%nat -> ts' c k = a * ts c (ord c k) + o c) ->
  (forall c k, (c < nc)%nat -> (k < size c)%nat -> e' c k = b c * b c * e c (ord c k)) ->
  data_covariance psi taud sigma sizes ts e SS -> data_covariance psi' (a * taud) (b 0%nat * sigma) sizes ts' e' (SS' row fac SS).
Proof.
  intros NC A0 T0 SP HT HE D x y X Y.
  assert (NN : list_sum sizes = n) by apply EndProofs.total_seq. rewrite NN in X, Y.
  destruct (rows_at x X) as (c & i & C & I & EX), (rows_at y Y) as (d & m & DD & M & EY).
  destruct (D (row x) (row y)) as (c' & i' & d' & m' & v & L1 & L2 & PC & V); [rewrite NN; apply row_lt, X|rewrite NN; apply row_lt, Y|].
  assert (RX : row x = (total size c + ord c i)%nat) by (rewrite EX; apply row_at; assumption).
  assert (RY : row y = (total size d + ord d m)%nat) by (rewrite EY; apply row_at; assumption).
  rewrite RX, EndProofs.locate_total in L1 by auto using O1. rewrite RY, EndProofs.locate_total in L2 by auto using O1.
  injection L1 as <- <-. injection L2 as <- <-.
  exists c, i, d, m, (rel b c * rel b d * v). split; [rewrite EX; apply EndProofs.locate_total; assumption|]. split; [rewrite EY; apply EndProofs.locate_total; assumption|].
  pose proof (B0 0%nat ltac:(lia)) as B00. split.
  - rewrite !HT by assumption. apply (point_stretch a A0 b o psi psi' nl); auto; lia.
  - unfold SS'. rewrite V. assert (FX : fac x = b c) by (rewrite EX; apply fac_at; assumption). assert (FY : fac y = b d) by (rewrite EY; apply fac_at; assumption).
    rewrite FX, FY. unfold rel. destruct (Nat.eqb_spec x y) as [E|NE].
    + destruct (Nat.eqb_spec (row x) (row y)) as [_|F]; [|elim F; congruence].
      assert (CD : c = d). { assert (Q : Some (c, i) = Some (d, m)) by (rewrite <- (EndProofs.locate_total size nc c i), <- (EndProofs.locate_total size nc d m) by assumption; congruence). congruence. }
      rewrite HE by assumption. subst d. field. lra.
    + destruct (Nat.eqb_spec (row x) (row y)) as [F|_]; [elim NE; apply row_inj; assumption|]. field. lra.
Qed.
(** the trends *)
Lemma design_change nq a o ts ts' L : (1 <= nq)%nat -> 0 < a ->
  (forall c k, (c < nc)%nat -> (k < size c)%nat -> ts' c k = a * ts c (ord c k) + o c) ->
  trend_design nq nc size ts L -> trend_design nq nc size ts' (L' (nq * nc) row fac L (newU nq a o b)).
Proof.
  intros NQ A0 HT H c k w C K. rewrite HT by assumption. rewrite <- (trend_change nq nc a o b NQ B0) by exact C.
  rewrite <- (H c (ord c k)) by auto using O1. unfold L'. rewrite row_at, fac_at by assumption.
  rewrite (sumn_ext (nq * nc) _ (fun m => b c * sumn (nq * nc) (fun l => L (total size c + ord c k)%nat l * (newU nq a o b l m * w m)))).
  - rewrite sumn_scal, sumn_swap. f_equal. apply sumn_ext. intros m M. rewrite sumn_scal. reflexivity.
  - intros m M. rewrite Rmult_assoc. f_equal. rewrite Rmult_comm, <- sumn_scal. apply sumn_ext. intros. ring.
Qed.
Lemma normal_pos nq ts SS Si L : spd n SS -> is_inverse n SS Si -> trend_design nq nc size ts L ->
  (forall c, (c < nc)%nat -> enough_times nq (size c) (ts c)) -> 0 < detn (nq * nc) (normal_matrix n Si L).
Proof.
  intros PD IV TD ET. assert (HI : inv_of n SS Si) by (intros i j I J; destruct (IV i j I J); auto).
  rewrite (detn_ext (n := nq * nc) (f := normal_matrix n Si L) (g := gram n Si L)) by (intros; apply gram_link).
  apply spd_det, gram_spd; [exact (spd_inv _ _ _ PD HI)|].
  intros v. rewrite total_psum. apply (design_inj nq nc size ts); [|exact ET]. intros c k m. rewrite <- total_psum. apply design_entry; auto.
Qed.
(** what is added to the logarithm of the likelihood *)
Definition unit_cost (nq : nat) (a : R) : R := sumn nc (fun c => (INR (size c) - INR nq) * ln (b c)) + INR nc * (INR nq * (INR nq - 1) / 2) * ln a.
Lemma loglike_change nq a o ts SS Si L y y' v p : (1 <= nq)%nat -> 0 < a -> spd n SS -> is_inverse n SS Si -> trend_design nq nc size ts L ->
  (forall c, (c < nc)%nat -> enough_times nq (size c) (ts c)) ->
  (forall c k, (c < nc)%nat -> (k < size c)%nat -> y' (total size c + k)%nat = b c * (y (total size c + ord c k)%nat + trend_at nq v c (ts c (ord c k)))) ->
  marginal_loglike n (nq * nc) SS Si L y p ->
  marginal_loglike n (nq * nc) (SS' row fac SS) (Si' row fac Si) (L' (nq * nc) row fac L (newU nq a o b)) y' (p - unit_cost nq a).
Proof.
  intros NQ A0 PD IV TD ET HY M. destruct (newU_det nq nc a o b NQ A0 B0) as [UP UE].
  replace (p - unit_cost nq a) with (p - sumn n (fun i => ln (fac i)) - ln (detn (nq * nc) (newU nq a o b))).
  - apply (marginal_change n (nq * nc) row fac SS Si L (newU nq a o b) y v); auto using row_lt, row_inj, fac_pos.
    + apply spd_det, PD.
    + apply (normal_pos nq ts SS); assumption.
    + intros r R. destruct (rows_at r R) as (c & k & C & K & ->). rewrite row_at, fac_at, HY by assumption. f_equal. f_equal. symmetry. apply TD; auto using O1.
  - rewrite sum_fac, UE. unfold unit_cost. rewrite (sumn_ext nc (fun c => (INR (size c) - INR nq) * ln (b c)) (fun c => INR (size c) * ln (b c) + (- INR nq) * ln (b c))) by (intros; ring).
    rewrite sumn_plus, (sumn_scal nc (- INR nq)). ring.
Qed.
Lemma enough_change nq a o ts ts' c : (c < nc)%nat -> 0 < a -> (forall k, (k < size c)%nat -> ts' c k = a * ts c (ord c k) + o c) ->
  enough_times nq (size c) (ts c) -> enough_times nq (size c) (ts' c).
Proof.
  intros C A0 HT (pick & K1 & K2).
  assert (IV : forall i, exists j, (i < nq)%nat -> (j < size c)%nat /\ ord c j = pick i).
  { intros i. destruct (Nat.lt_ge_cases i nq) as [I|I]; [|exists 0%nat; lia].
    destruct (@onto_ex (size c) (ord c) (fun k K => O1 c k C K) (fun k l K LL => O2 c k l C K LL) (pick i) (K1 i I)) as (j & J & E). exists j. auto. }
  destruct (ClassicalChoice.choice _ IV) as [f F]. exists f. split; [intros i I; apply F, I|].
  intros i j I J E. destruct (F i I) as [F1 E1], (F j J) as [F2 E2]. rewrite !HT, E1, E2 in E by assumption. apply K2; auto.
  apply Rmult_eq_reg_l with a; lra.
Qed.
End Rows.
