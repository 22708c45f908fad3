(** Determinants and sums under a change of basis. *)
From Coq Require Import Reals Lra.
From mathcomp Require Import ssreflect ssrfun ssrbool eqtype ssrnat seq choice fintype finfun bigop fingroup perm ssralg matrix mxalgebra.
From Verif Require Import RStruct SemisepModel SemisepProofs MatBridge MatBridge2 BkModel BkMat.
Set Implicit Arguments.
Unset Strict Implicit.
Local Open Scope ring_scope.

Lemma det_upper n f : (forall i j, lt j i -> lt i n -> f i j = R0) -> detn n f = prodn n (fun i => f i i).
Proof. move=> H; rewrite -det_trans /detn det_lower // => i j ij jn; exact: H. Qed.
(** U^T G U *)
Lemma det_congr n U G :
  detn n (fun a b => sumn n (fun i => sumn n (fun j => Rmult (Rmult (U i a) (G i j)) (U j b)))) = Rmult (Rmult (detn n U) (detn n U)) (detn n G).
Proof.
rewrite /detn.
have -> : mx n n (fun a b => sumn n (fun i => sumn n (fun j => Rmult (Rmult (U i a) (G i j)) (U j b)))) = (mx n n U)^T *m mx n n G *m mx n n U.
  rewrite mx_tr !mx_mul; apply: mx_eq => a b _ _; rewrite sumn_swap; apply: sumn_ext => j _.
  rewrite [RHS]Rmult_comm -sumn_scal; apply: sumn_ext => i _; exact: Rmult_comm.
rewrite !det_mulmx det_tr. change (Rmult (Rmult (\det (mx n n U)) (\det (mx n n G))) (\det (mx n n U)) = Rmult (Rmult (\det (mx n n U)) (\det (mx n n U))) (\det (mx n n G))). ring.
Qed.
Lemma det_diag n b : detn n (fun i j => if Nat.eqb i j then b i else R0) = prodn n b.
Proof.
rewrite det_upper; last by move=> i j ji _; case: Nat.eqb_spec => // E; move: ji; rewrite E => /ltP; rewrite ltnn.
by elim: n => //= n ->; rewrite Nat.eqb_refl.
Qed.
Section Reindex.
Variables (n : nat) (p : nat -> nat).
Hypothesis P1 : forall i, lt i n -> lt (p i) n.
Hypothesis P2 : forall i j, lt i n -> lt j n -> p i = p j -> i = j.
Definition op (i : 'I_n) : 'I_n := Ordinal (introT ltP (P1 (elimT ltP (ltn_ord i)))).
Lemma op_inj : injective op.
Proof. move=> i j [E]; apply/val_inj/P2 => //; exact/ltP/ltn_ord. Qed.
Lemma sumn_reindex (f : nat -> R) : sumn n (fun i => f (p i)) = sumn n f.
Proof. by rewrite -!sumn_big [RHS](reindex_inj op_inj) /=. Qed.
Lemma prodn_reindex (f : nat -> R) : prodn n (fun i => f (p i)) = prodn n f.
Proof. by rewrite -!prodn_big [RHS](reindex_inj op_inj) /=. Qed.
Lemma det_reindex f : detn n (fun i j => f (p i) (p j)) = detn n f.
Proof.
rewrite /detn.
have -> : mx n n (fun i j => f (p i) (p j)) = row_perm (perm op_inj) (col_perm (perm op_inj) (mx n n f)).
  by apply/matrixP => i j; rewrite !mxE !permE.
rewrite row_permE col_permE !det_mulmx det_perm.
rewrite [\det (perm_mx _)]det_perm odd_permV GRing.mulrCA -GRing.expr2 GRing.sqrr_sign GRing.mulr1 //.
Qed.
Lemma onto_ex j : lt j n -> exists i, lt i n /\ p i = j.
Proof.
move=> /ltP J; have [q _ Q] := injF_bij op_inj.
exists (q (Ordinal J)); split; first exact/ltP.
by have := congr1 val (Q (Ordinal J)).
Qed.
End Reindex.
