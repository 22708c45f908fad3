(** Inverse, determinant and positive definiteness of partitioned matrices
    (matrices as functions of two indices). *)
From Coq Require Import Reals Lra.
From mathcomp Require Import ssreflect ssrfun ssrbool eqtype ssrnat seq choice fintype finfun bigop ssralg matrix mxalgebra.
From Verif Require Import RStruct SemisepModel SemisepProofs MatBridge.
Set Implicit Arguments.
Unset Strict Implicit.
Local Open Scope ring_scope.

(** g is a (right, hence two-sided) inverse of the n x n matrix f. *)
Definition inv_of (n : nat) (f g : nat -> nat -> R) : Prop :=
  forall i j, lt i n -> lt j n -> sumn n (fun l => Rmult (f i l) (g l j)) = delta i j.
Definition symm (n : nat) (f : nat -> nat -> R) : Prop := forall i j, lt i n -> lt j n -> f i j = f j i.

Lemma inv_ofE n f g : inv_of n f g <-> mx n n f *m mx n n g = 1%:M.
Proof.
rewrite mx_mul mx_id; split; first by move=> H; apply: mx_eq.
by move=> H; apply: mx_inj.
Qed.
Lemma symmE n f : symm n f <-> (mx n n f)^T = mx n n f.
Proof.
rewrite mx_tr; split; first by move=> H; apply: mx_eq => i j I J; rewrite H.
by move=> H i j I J; rewrite -(mx_inj H).
Qed.

(** Entries of a 2 x 2 block matrix, first block of size n1. *)
Definition blockf (n1 : nat) (a b c d : nat -> nat -> R) (i j : nat) : R :=
  if Nat.ltb i n1 then (if Nat.ltb j n1 then a i j else b i (Nat.sub j n1))
  else (if Nat.ltb j n1 then c (Nat.sub i n1) j else d (Nat.sub i n1) (Nat.sub j n1)).

Lemma mx_block n1 n2 f : mx (n1 + n2) (n1 + n2) f =
  block_mx (mx n1 n1 f) (mx n1 n2 (fun i j => f i (Nat.add n1 j)))
           (mx n2 n1 (fun i j => f (Nat.add n1 i) j)) (mx n2 n2 (fun i j => f (Nat.add n1 i) (Nat.add n1 j))).
Proof.
by apply/matrixP => i j; rewrite !mxE; case: splitP => i' ->; rewrite !mxE; case: splitP => j' ->; rewrite !mxE.
Qed.

Lemma ord_ltb n (i : 'I_n) : Nat.ltb i n.
Proof. by apply/Nat.ltb_lt/ltP; exact: ltn_ord. Qed.
Lemma add_ltb n k : Nat.ltb (Nat.add n k) n = false.
Proof. by apply/Nat.ltb_ge; exact: Nat.le_add_r. Qed.
Lemma mx_blockf n1 n2 a b c d : mx (n1 + n2) (n1 + n2) (blockf n1 a b c d) =
  block_mx (mx n1 n1 a) (mx n1 n2 b) (mx n2 n1 c) (mx n2 n2 d).
Proof.
rewrite mx_block; congr block_mx; apply/matrixP => i j; rewrite !mxE /blockf ?add_ltb ?ord_ltb //;
by rewrite ?(Nat.add_comm n1) ?Nat.add_sub.
Qed.

Section Schur.
Variables (n1 n2 : nat) (f Pi Si : nat -> nat -> R).
Hypothesis fsym : symm (n1 + n2) f.
Hypothesis HP : inv_of n1 f Pi.
Definition PQ (i j : nat) : R := sumn n1 (fun l => Rmult (Pi i l) (f l (Nat.add n1 j))).
Definition Sch (i j : nat) : R := Rminus (f (Nat.add n1 i) (Nat.add n1 j)) (sumn n1 (fun l => Rmult (f l (Nat.add n1 i)) (PQ l j))).

Let P := mx n1 n1 f.
Let Pm := mx n1 n1 Pi.
Let Q := mx n1 n2 (fun i j => f i (Nat.add n1 j)).
Let X := mx n1 n2 PQ.
Let Sm := mx n2 n2 Sch.

Lemma fsym1 : symm n1 f.
Proof. move=> i j I J; apply: fsym; apply: Nat.lt_lt_add_r; done. Qed.
Lemma PP : P *m Pm = 1%:M. Proof. exact/inv_ofE. Qed.
Lemma PP' : Pm *m P = 1%:M. Proof. exact: mulmx1C PP. Qed.
Lemma Psym : P^T = P. Proof. exact/symmE/fsym1. Qed.
Lemma Pmsym : Pm^T = Pm.
Proof.
have := congr1 trmx PP; rewrite trmx_mul Psym trmx1 => H.
by rewrite -[Pm^T]mulmx1 -PP mulmxA H mul1mx.
Qed.
Lemma XE : X = Pm *m Q. Proof. by rewrite /X /PQ /Pm /Q mx_mul. Qed.
Lemma SmE : Sm = mx n2 n2 (fun i j => f (Nat.add n1 i) (Nat.add n1 j)) - Q^T *m X.
Proof. by rewrite /Q mx_tr mx_mul mx_opp mx_add; apply: mx_eq. Qed.
Lemma fblock : mx (n1 + n2) (n1 + n2) f = block_mx P Q Q^T (Sm + Q^T *m X).
Proof.
rewrite mx_block SmE GRing.subrK; congr block_mx; rewrite /Q mx_tr; apply: mx_eq => i j I J; apply: fsym.
  by apply: (proj1 (Nat.add_lt_mono_l _ _ _)).
exact: Nat.lt_lt_add_r.
Qed.
Lemma Sm_sym : Sm^T = Sm.
Proof.
have H := fblock; have S0 := fsym; move/symmE in S0; rewrite H in S0.
move: S0; rewrite tr_block_mx => /eq_block_mx [_ _ _].
rewrite !GRing.linearD /= trmx_mul trmxK XE trmx_mul Pmsym -mulmxA => /GRing.addIr; exact.
Qed.
Lemma Sch_symm : symm n2 Sch. Proof. exact/symmE/Sm_sym. Qed.

Lemma schur_det : detn (n1 + n2) f = Rmult (detn n1 f) (detn n2 Sch).
Proof.
have -> : detn (n1 + n2) f = \det (block_mx P Q Q^T (Sm + Q^T *m X)) by rewrite /detn fblock.
have -> : block_mx P Q Q^T (Sm + Q^T *m X) = block_mx 1%:M 0 (Q^T *m Pm) 1%:M *m block_mx P Q 0 Sm.
  rewrite mulmx_block !mul1mx !mul0mx !GRing.addr0 -mulmxA PP' mulmx1 XE mulmxA.
  by rewrite GRing.addrC.
by rewrite det_mulmx det_lblock det_ublock !det1 !GRing.mul1r.
Qed.

Definition newP (i j : nat) : R :=
  Rplus (Pi i j) (sumn n2 (fun k => Rmult (sumn n2 (fun l => Rmult (PQ i l) (Si l k))) (PQ j k))).
Definition newQ (i j : nat) : R := Ropp (sumn n2 (fun l => Rmult (PQ i l) (Si l j))).
Definition newA : nat -> nat -> R := blockf n1 newP newQ (fun i j => newQ j i) Si.

Lemma schur_inv : inv_of n2 Sch Si -> inv_of (n1 + n2) f newA.
Proof.
move=> /inv_ofE HS; apply/inv_ofE.
have Sisym : (mx n2 n2 Si)^T = mx n2 n2 Si.
  have := congr1 trmx HS; rewrite trmx_mul -/Sm Sm_sym trmx1 => H.
  by rewrite -[_^T]mulmx1 -HS mulmxA H mul1mx.
set Sv := mx n2 n2 Si in HS Sisym *.
have E1 : mx n1 n1 newP = Pm + X *m Sv *m X^T by rewrite /X mx_tr !mx_mul mx_add.
have E2 : mx n1 n2 newQ = - (X *m Sv) by rewrite /X mx_mul mx_opp.
rewrite /newA mx_blockf.
have -> : mx n2 n1 (fun i j => newQ j i) = (mx n1 n2 newQ)^T by rewrite mx_tr.
rewrite E1 E2 fblock mulmx_block -/Sv.
have PX : P *m X = Q by rewrite XE mulmxA PP mul1mx.
have QP : Q^T *m Pm = X^T by rewrite XE trmx_mul Pmsym.
have -> : 1%:M = block_mx 1%:M 0 0 1%:M :> 'M[R]_(n1 + n2) by rewrite -scalar_mx_block.
congr block_mx.
- rewrite mulmxDr PP GRing.linearN /= trmx_mul Sisym !mulmxN !mulmxA PX.
  by rewrite -GRing.addrA GRing.subrr GRing.addr0.
- by rewrite mulmxN mulmxA PX GRing.addNr.
- rewrite mulmxDr QP GRing.linearN /= trmx_mul Sisym mulmxN mulmxDl !mulmxA HS mul1mx.
  by rewrite GRing.opprD GRing.addrACA GRing.subrr GRing.add0r GRing.subrr.
- by rewrite mulmxN mulmxDl HS mulmxA GRing.addrCA GRing.addNr GRing.addr0.
Qed.

(** If the whole matrix and the leading block are invertible, so is the Schur complement. *)
Lemma det_inv n g : detn n g <> R0 <-> exists h, inv_of n g h.
Proof.
split.
  move=> H; exists (fun i j => match insub i, insub j with Some i', Some j' => (invmx (mx n n g)) i' j' | _, _ => R0 end).
  apply/inv_ofE.
  have -> : mx n n (fun i j => match insub i, insub j with Some i', Some j' => (invmx (mx n n g)) i' j' | _, _ => R0 end) = invmx (mx n n g).
    by apply/matrixP => i j; rewrite mxE !valK.
  apply: mulmxV; rewrite unitmxE GRing.unitfE; exact/eqP.
move=> [h /inv_ofE /(congr1 determinant)]; rewrite det_mulmx det1 -/(detn n g) => H Z.
move: H; rewrite Z GRing.mul0r => /eqP; rewrite eq_sym GRing.oner_eq0; done.
Qed.
End Schur.

Lemma inv_unique n f g h : inv_of n f g -> inv_of n f h -> forall i j, lt i n -> lt j n -> g i j = h i j.
Proof.
move=> /inv_ofE G /inv_ofE H; apply: mx_inj.
by rewrite -[mx n n g]mul1mx -(mulmx1C H) -mulmxA G mulmx1.
Qed.
Lemma inv_sym n f g : symm n f -> inv_of n f g -> symm n g.
Proof.
move=> /symmE Fs /inv_ofE H; apply/symmE.
have := congr1 trmx H; rewrite trmx_mul Fs trmx1 => K.
by rewrite -[_^T]mulmx1 -H mulmxA K mul1mx.
Qed.
Lemma detn0 f : detn 0 f = R1. Proof. by rewrite /detn det_mx00. Qed.
Lemma detn1 f : detn 1 f = f 0%N 0%N. Proof. by rewrite /detn [mx _ _ _]mx11_scalar det_scalar1 mxE. Qed.

(** The inverse as a function of two indices. *)
Definition invn (n : nat) (g : nat -> nat -> R) (i j : nat) : R :=
  match insub i, insub j with Some i', Some j' => (invmx (mx n n g)) i' j' | _, _ => R0 end.
Lemma invn_ok n g : detn n g <> R0 -> inv_of n g (invn n g).
Proof.
move=> H; apply/inv_ofE.
have -> : mx n n (invn n g) = invmx (mx n n g) by apply/matrixP => i j; rewrite mxE /invn !valK.
apply: mulmxV; rewrite unitmxE GRing.unitfE; exact/eqP.
Qed.
