(** Generalised least squares with matrices as functions of two indices. *)
From Coq Require Import Reals List Arith Lia Lra Psatz.
From Verif Require Import SemisepModel SemisepProofs MatBridge MatBridge2 SemisepProofs3 PartProofs.
Open Scope R_scope.

Definition dot (n : nat) (x y : nat -> R) : R := sumn n (fun i => x i * y i).
Definition mv (m : nat) (A : nat -> nat -> R) (x : nat -> R) : nat -> R := fun i => sumn m (fun j => A i j * x j).
Definition tr (A : nat -> nat -> R) (i j : nat) : R := A j i.

Lemma dot_tr : forall n m x A y, dot n x (mv m A y) = dot m (mv n (tr A) x) y.
Proof.
  intros. unfold dot, mv, tr.
  rewrite (sumn_ext n _ (fun i => sumn m (fun j => A i j * x i * y j))).
  2: { intros i _. rewrite <- sumn_scal. apply sumn_ext. intros; ring. }
  rewrite sumn_swap. apply sumn_ext. intros j _. rewrite sumn_opp_ext. reflexivity.
Qed.
Lemma dot_comm : forall n x y, dot n x y = dot n y x.
Proof. intros. apply sumn_ext. intros; ring. Qed.
Lemma dot_ext : forall n x y x' y', (forall i, (i < n)%nat -> x i = x' i) -> (forall i, (i < n)%nat -> y i = y' i) -> dot n x y = dot n x' y'.
Proof. intros n x y x' y' H K. apply sumn_ext. intros i I. rewrite H, K by auto. reflexivity. Qed.
Lemma mv_ext : forall m A A' x x' i, (forall j, (j < m)%nat -> A i j = A' i j) -> (forall j, (j < m)%nat -> x j = x' j) -> mv m A x i = mv m A' x' i.
Proof. intros m A A' x x' i H K. apply sumn_ext. intros j J. rewrite H, K by auto. reflexivity. Qed.
Lemma mv_add : forall m A x y i, mv m A (fun j => x j + y j) i = mv m A x i + mv m A y i.
Proof. intros. unfold mv. rewrite <- sumn_plus. apply sumn_ext. intros; ring. Qed.
Lemma mv_scal : forall m A c x i, mv m A (fun j => c * x j) i = c * mv m A x i.
Proof. intros. unfold mv. rewrite <- sumn_scal. apply sumn_ext. intros; ring. Qed.
Lemma dot_add_l : forall n x y z, dot n (fun i => x i + y i) z = dot n x z + dot n y z.
Proof. intros. unfold dot. rewrite <- sumn_plus. apply sumn_ext. intros; ring. Qed.
Lemma dot_add_r : forall n x y z, dot n z (fun i => x i + y i) = dot n z x + dot n z y.
Proof. intros. unfold dot. rewrite <- sumn_plus. apply sumn_ext. intros; ring. Qed.
Lemma mv_mv : forall n m A B x i, mv n A (mv m B x) i = mv m (fun a c => sumn n (fun b => A a b * B b c)) x i.
Proof.
  intros. unfold mv.
  rewrite (sumn_ext n _ (fun b => sumn m (fun c => A i b * B b c * x c))).
  2: { intros b _. rewrite <- sumn_scal. apply sumn_ext. intros; ring. }
  rewrite sumn_swap. apply sumn_ext. intros c _. rewrite sumn_opp_ext. reflexivity.
Qed.
Lemma mv_id : forall n A B x i, inv_of n A B -> (i < n)%nat -> mv n A (mv n B x) i = x i.
Proof.
  intros n A B x i H I. rewrite mv_mv. unfold mv.
  rewrite (sumn_single n i); auto.
  - rewrite (H i i I I). unfold delta. rewrite Nat.eqb_refl. ring.
  - intros j J NE. rewrite (H i j I J). unfold delta. destruct (Nat.eqb_spec i j); [congruence|ring].
Qed.
Lemma quad_dot : forall n f x, quad n f x = dot n x (mv n f x).
Proof. intros. apply quad_mul. Qed.

Lemma inv_swap : forall n A B, inv_of n A B -> inv_of n B A.
Proof. intros n A B H i j I J. exact (right_left H I J). Qed.

Lemma spd_inv : forall n C B, spd n C -> inv_of n C B -> spd n B.
Proof.
  intros n C B [S P] H. split; [exact (inv_sym S H)|].
  intros x (i & I & X).
  assert (Y : exists k, (k < n)%nat /\ mv n B x k <> 0).
  { apply Classical_Pred_Type.not_all_not_ex. intros N. apply X. rewrite <- (mv_id n C B x i H I). unfold mv at 1.
    rewrite (sumn_ext n _ (fun _ => 0)); [apply sumn_zero|]. intros k K.
    destruct (Req_dec (mv n B x k) 0) as [Z|Z]; [rewrite Z; ring|]. exfalso. apply (N k). auto. }
  specialize (P _ Y). rewrite quad_dot in *.
  rewrite (dot_ext n (mv n B x) (mv n C (mv n B x)) (mv n B x) x) in P; auto.
  - rewrite dot_comm. exact P.
  - intros k K. apply mv_id; auto.
Qed.

Section Gls.
  Variables (n m : nat) (Ci L : nat -> nat -> R) (f : nat -> R).
  Hypothesis Cpd : spd n Ci.
  (** full column rank *)
  Hypothesis inj : forall v, (forall i, (i < n)%nat -> mv m L v i = 0) -> forall j, (j < m)%nat -> v j = 0.

  Definition gram (i j : nat) : R := sumn n (fun l => L l i * sumn n (fun k => Ci l k * L k j)).
  Definition chi2 (r : nat -> R) : R := dot n r (mv n Ci r).
  Definition resid (q : nat -> R) : nat -> R := fun i => f i + -1 * mv m L q i.

  Lemma mv_gram : forall x j, mv m gram x j = mv n (tr L) (mv n Ci (mv m L x)) j.
  Proof.
    intros x j. rewrite (mv_ext n (tr L) (tr L) (mv n Ci (mv m L x)) (mv m (fun a c => sumn n (fun b => Ci a b * L b c)) x)); auto.
    - rewrite mv_mv. apply mv_ext; auto.
    - intros i I. apply mv_mv.
  Qed.
  Lemma gram_quad : forall x, quad m gram x = quad n Ci (mv m L x).
  Proof.
    intros x. rewrite !quad_dot.
    rewrite (dot_ext m x (mv m gram x) x (mv n (tr L) (mv n Ci (mv m L x)))); auto.
    - rewrite dot_tr. apply dot_ext; auto.
    - intros; apply mv_gram.
  Qed.
  Lemma gram_sym : symm m gram.
  Proof.
    intros i j I J. unfold gram.
    rewrite (sumn_ext n _ (fun l => sumn n (fun k => L l i * Ci l k * L k j))).
    2: { intros. rewrite <- sumn_scal. apply sumn_ext. intros; ring. }
    rewrite (sumn_ext n (fun l => L l j * _) (fun l => sumn n (fun k => L l j * Ci l k * L k i))).
    2: { intros. rewrite <- sumn_scal. apply sumn_ext. intros; ring. }
    rewrite sumn_swap. apply sumn_ext. intros a Ha. apply sumn_ext. intros b Hb.
    rewrite (proj1 Cpd b a Hb Ha). ring.
  Qed.
  Lemma gram_spd : spd m gram.
  Proof.
    split; [exact gram_sym|]. intros x (j & J & X). rewrite gram_quad. apply (proj2 Cpd).
    apply Classical_Pred_Type.not_all_not_ex. intros N. apply X. apply inj; auto.
    intros i I. destruct (Req_dec (mv m L x i) 0); auto. exfalso. apply (N i). auto.
  Qed.

  (** q solves the normal equations *)
  Definition normal (q : nat -> R) : Prop := forall j, (j < m)%nat -> mv n (tr L) (mv n Ci (resid q)) j = 0.

  Lemma normal_gram : forall Gi q, inv_of m gram Gi ->
    (forall j, (j < m)%nat -> q j = mv m Gi (mv n (tr L) (mv n Ci f)) j) -> normal q.
  Proof.
    intros Gi q HG Q j J. unfold resid.
    rewrite (mv_ext n (tr L) (tr L) _ (fun i => mv n Ci f i + -1 * mv n Ci (mv m L q) i)); auto.
    - rewrite mv_add. rewrite mv_scal. rewrite <- mv_gram.
      rewrite (mv_ext m gram gram q (mv m Gi (mv n (tr L) (mv n Ci f)))); auto.
      rewrite (mv_id m gram Gi) by auto. ring.
    - intros i I. rewrite mv_add, mv_scal. reflexivity.
  Qed.

  Lemma chi2_shift : forall q q', normal q ->
    chi2 (resid q') = chi2 (resid q) + quad m gram (fun j => q j - q' j).
  Proof.
    intros q q' NQ. set (d := fun j => q j - q' j). rewrite gram_quad, quad_dot. unfold chi2.
    assert (E : forall i, resid q' i = resid q i + mv m L d i).
    { intros i. unfold resid, d. unfold mv.
      rewrite (sumn_ext m (fun j => L i j * (q j - q' j)) (fun j => L i j * q j + -1 * (L i j * q' j))) by (intros; ring).
      rewrite sumn_plus, sumn_scal. ring. }
    rewrite (dot_ext n (resid q') (mv n Ci (resid q')) (fun i => resid q i + mv m L d i) (fun i => mv n Ci (resid q) i + mv n Ci (mv m L d) i)); auto.
    2: { intros i I. rewrite <- mv_add. apply mv_ext; auto. }
    rewrite dot_add_l, !dot_add_r.
    assert (Z : dot n (mv m L d) (mv n Ci (resid q)) = 0).
    { rewrite dot_comm, dot_tr. unfold dot. rewrite (sumn_ext m _ (fun _ => 0)); [apply sumn_zero|]. intros j J. rewrite (NQ j J). ring. }
    assert (Z2 : dot n (resid q) (mv n Ci (mv m L d)) = 0).
    { rewrite dot_tr, dot_comm. rewrite <- Z. apply dot_ext; auto. intros i I. apply mv_ext; auto.
      intros j J. unfold tr. apply (proj1 Cpd); auto. }
    rewrite Z, Z2. ring.
  Qed.
  Lemma normal_min : forall q q', normal q -> chi2 (resid q) <= chi2 (resid q').
  Proof.
    intros q q' NQ. rewrite (chi2_shift q q' NQ).
    assert (0 <= quad m gram (fun j => q j - q' j)); [|lra].
    destruct (Classical_Prop.classic (exists j, (j < m)%nat /\ q j - q' j <> 0)) as [X|X].
    - left. apply (proj2 gram_spd). exact X.
    - right. unfold quad. rewrite (sumn_ext m _ (fun _ => 0)); [rewrite sumn_zero; reflexivity|].
      intros i I. rewrite (sumn_ext m _ (fun _ => 0)); [apply sumn_zero|]. intros j J.
      destruct (Req_dec (q i - q' i) 0) as [Z|Z]; [rewrite Z; ring|]. exfalso. apply X. eauto.
  Qed.
  Lemma chi2_nonneg : forall r, 0 <= chi2 r.
  Proof.
    intros r. unfold chi2. destruct (Classical_Prop.classic (exists j, (j < n)%nat /\ r j <> 0)) as [X|X].
    - left. rewrite <- quad_dot. apply (proj2 Cpd). exact X.
    - right. unfold dot. rewrite (sumn_ext n _ (fun _ => 0)); [rewrite sumn_zero; reflexivity|].
      intros i I. destruct (Req_dec (r i) 0) as [Z|Z]; [rewrite Z; ring|]. exfalso. apply X. eauto.
  Qed.
End Gls.
