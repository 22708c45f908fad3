(** Matrices given by functions of two indices, and mathcomp's matrices. *)
From Coq Require Import Reals.
From mathcomp Require Import ssreflect ssrfun ssrbool eqtype ssrnat seq choice fintype finfun bigop ssralg matrix.
From Verif Require Import RStruct SemisepModel SemisepProofs.
Set Implicit Arguments.
Unset Strict Implicit.
Local Open Scope ring_scope.

Definition mx (n m : nat) (f : nat -> nat -> R) : 'M[R]_(n, m) := \matrix_(i < n, j < m) f i j.
Definition cmx (n : nat) (f : nat -> R) : 'cV[R]_n := \col_(i < n) f i.

Lemma sumn_big n (f : nat -> R) : \sum_(i < n) f i = sumn n f.
Proof. by elim: n => [|n IH] /=; rewrite ?big_ord0 // big_ord_recr /= IH. Qed.

Lemma mx_eq n m f g : (forall i j, lt i n -> lt j m -> f i j = g i j) -> mx n m f = mx n m g.
Proof. by move=> H; apply/matrixP => i j; rewrite !mxE; apply: H; apply/ltP; apply: ltn_ord. Qed.
Lemma mx_inj n m f g : mx n m f = mx n m g -> forall i j, lt i n -> lt j m -> f i j = g i j.
Proof.
move=> /matrixP H i j /ltP I /ltP J.
by have := H (Ordinal I) (Ordinal J); rewrite !mxE.
Qed.

Lemma mx_mul n k m f g : mx n k f *m mx k m g = mx n m (fun i j => sumn k (fun l => Rmult (f i l) (g l j))).
Proof.
apply/matrixP => i j; rewrite !mxE -sumn_big; apply: eq_bigr => l _; by rewrite !mxE.
Qed.
Lemma mx_tr n m f : (mx n m f)^T = mx m n (fun i j => f j i).
Proof. by apply/matrixP => i j; rewrite !mxE. Qed.
Lemma mx_id n : 1%:M = mx n n (fun i j => if Nat.eqb i j then R1 else R0).
Proof.
apply/matrixP => i j; rewrite !mxE.
case: Nat.eqb_spec => [/ord_inj ->|/eqP H]; first by rewrite eqxx.
by have /negbTE -> : i != j by apply: contra H => /eqP ->.
Qed.
Lemma mx_add n m f g : mx n m f + mx n m g = mx n m (fun i j => Rplus (f i j) (g i j)).
Proof. by apply/matrixP => i j; rewrite !mxE. Qed.
Lemma mx_opp n m f : - mx n m f = mx n m (fun i j => Ropp (f i j)).
Proof. by apply/matrixP => i j; rewrite !mxE. Qed.

Fixpoint prodn (n : nat) (f : nat -> R) : R := match n with O => R1 | S k => Rmult (prodn k f) (f k) end.
Lemma prodn_big n (f : nat -> R) : \prod_(i < n) f i = prodn n f.
Proof. by elim: n => [|n IH] /=; rewrite ?big_ord0 // big_ord_recr /= IH. Qed.

Lemma det_lower n f : (forall i j, lt i j -> lt j n -> f i j = R0) -> \det (mx n n f) = prodn n (fun i => f i i).
Proof.
move=> H; rewrite det_trig.
  by rewrite -prodn_big; apply: eq_bigr => i _; rewrite mxE.
apply/is_trig_mxP => i j ij; rewrite mxE; apply: H; apply/ltP => //; exact: ltn_ord.
Qed.

(** Determinant of the leading n x n part of a function of two indices. *)
Definition detn (n : nat) (f : nat -> nat -> R) : R := \det (mx n n f).
Lemma detn_ext n f g : (forall i j, lt i n -> lt j n -> f i j = g i j) -> detn n f = detn n g.
Proof. by move=> H; rewrite /detn (mx_eq H). Qed.

(** A right inverse of a square matrix is a left inverse. *)
Definition delta (i j : nat) : R := if Nat.eqb i j then R1 else R0.
Lemma right_left n f g :
  (forall i j, lt i n -> lt j n -> sumn n (fun l => Rmult (f i l) (g l j)) = delta i j) ->
  forall i j, lt i n -> lt j n -> sumn n (fun l => Rmult (g i l) (f l j)) = delta i j.
Proof.
move=> H; apply: mx_inj; rewrite -mx_mul -/(delta) -mx_id; apply: mulmx1C.
by rewrite mx_mul mx_id; apply: mx_eq.
Qed.

(** L D L^T with unit lower triangular L has the determinant of D. *)
Lemma det_LDL n L D :
  (forall i j, lt i j -> lt j n -> L i j = R0) -> (forall i, lt i n -> L i i = R1) ->
  detn n (fun i j => sumn n (fun k => Rmult (Rmult (L i k) (D k)) (L j k))) = prodn n D.
Proof.
move=> L0 L1; rewrite /detn.
have -> : mx n n (fun i j => sumn n (fun k => Rmult (Rmult (L i k) (D k)) (L j k))) =
   mx n n L *m mx n n (fun i j => if Nat.eqb i j then D j else R0) *m (mx n n L)^T.
  rewrite mx_tr !mx_mul; apply: mx_eq => i j I J; apply: sumn_ext => k K; congr Rmult.
  rewrite (@sumn_single n k (fun l => Rmult (L i l) (if Nat.eqb l k then D k else R0))) ?Nat.eqb_refl //.
  by move=> l _ NE; case: Nat.eqb_spec => // E; rewrite Rmult_0_r.
rewrite !det_mulmx det_tr !det_lower //.
  have -> : prodn n (fun i => L i i) = R1.
    elim: n L0 L1 => //= n IH L0 L1; rewrite IH; first by rewrite L1 ?Rmult_1_r //; exact: PeanoNat.Nat.lt_succ_diag_r.
      by move=> i j ij jn; apply: L0 => //; exact: PeanoNat.Nat.lt_lt_succ_r.
    by move=> i H; apply: L1; exact: PeanoNat.Nat.lt_lt_succ_r.
  rewrite GRing.mul1r GRing.mulr1; elim: n {L0 L1} => //= n ->; by rewrite Nat.eqb_refl.
move=> i j ij _; case: Nat.eqb_spec => // E; subst; by case: (Nat.lt_irrefl j).
Qed.
