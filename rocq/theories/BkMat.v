(** A matrix with a trailing block taken out: [f] = [[S + U D U^T, U D], [D U^T, D]]. *)
From Coq Require Import Reals Lra.
From mathcomp Require Import ssreflect ssrfun ssrbool eqtype ssrnat seq choice fintype finfun bigop fingroup perm ssralg matrix mxalgebra.
From Verif Require Import RStruct SemisepModel SemisepProofs MatBridge MatBridge2 BkModel.
Set Implicit Arguments.
Unset Strict Implicit.
Local Open Scope ring_scope.

Section Cong.
Variables (k q : nat) (f S U D : nat -> nat -> R).
Hypothesis f11 : forall i j, lt i k -> lt j k ->
  f i j = Rplus (S i j) (sumn q (fun b => Rmult (sumn q (fun a => Rmult (U i a) (D a b))) (U j b))).
Hypothesis f12 : forall i b, lt i k -> lt b q -> f i (Nat.add k b) = sumn q (fun a => Rmult (U i a) (D a b)).
Hypothesis f21 : forall a j, lt a q -> lt j k -> f (Nat.add k a) j = sumn q (fun b => Rmult (D a b) (U j b)).
Hypothesis f22 : forall a b, lt a q -> lt b q -> f (Nat.add k a) (Nat.add k b) = D a b.

Let Sm := mx k k S.
Let Um := mx k q U.
Let Dm := mx q q D.
Lemma cong_block : mx (k + q) (k + q) f = block_mx (Sm + Um *m Dm *m Um^T) (Um *m Dm) (Dm *m Um^T) Dm.
Proof. by rewrite mx_block /Sm /Um /Dm mx_tr !mx_mul mx_add; congr block_mx; apply: mx_eq. Qed.

Lemma cong_det : detn (k + q) f = Rmult (detn k S) (detn q D).
Proof.
rewrite /detn cong_block -/Sm -/Dm.
have -> : block_mx (Sm + Um *m Dm *m Um^T) (Um *m Dm) (Dm *m Um^T) Dm =
          block_mx 1%:M Um 0 1%:M *m block_mx Sm 0 (Dm *m Um^T) Dm.
  by rewrite mulmx_block !mul1mx !mul0mx !GRing.add0r mulmxA.
by rewrite det_mulmx det_ublock det_lblock !det1 !GRing.mul1r.
Qed.

Variables (X E g : nat -> nat -> R).
Hypothesis g11 : forall i j, lt i k -> lt j k -> g i j = X i j.
Hypothesis g12 : forall i b, lt i k -> lt b q -> g i (Nat.add k b) = Ropp (sumn k (fun l => Rmult (X i l) (U l b))).
Hypothesis g21 : forall a j, lt a q -> lt j k -> g (Nat.add k a) j = Ropp (sumn k (fun l => Rmult (U l a) (X l j))).
Hypothesis g22 : forall a b, lt a q -> lt b q ->
  g (Nat.add k a) (Nat.add k b) = Rplus (E a b) (sumn k (fun l => Rmult (U l a) (sumn k (fun m => Rmult (X l m) (U m b))))).
Lemma cong_inv : inv_of k S X -> inv_of q D E -> inv_of (k + q) f g.
Proof.
move=> /inv_ofE HX /inv_ofE HE; apply/inv_ofE; rewrite cong_block.
set Xm := mx k k X in HX; set Em := mx q q E in HE.
have -> : mx (k + q) (k + q) g = block_mx Xm (- (Xm *m Um)) (- (Um^T *m Xm)) (Em + Um^T *m (Xm *m Um)).
  by rewrite mx_block /Xm /Um /Em !mx_tr !mx_mul !mx_opp mx_add; congr block_mx; apply: mx_eq.
have -> : 1%:M = block_mx 1%:M 0 0 1%:M :> 'M[R]_(k + q) by rewrite -scalar_mx_block.
rewrite mulmx_block -/Sm -/Dm in HX HE *; congr block_mx.
- by rewrite mulmxDl HX mulmxN !mulmxA GRing.addrK.
- rewrite mulmxN mulmxDl mulmxDr !mulmxA HX mul1mx -[Um *m Dm *m Em]mulmxA HE mulmx1.
  by rewrite GRing.opprD GRing.addrACA GRing.addNr GRing.add0r GRing.addNr.
- by rewrite mulmxN -!mulmxA GRing.subrr.
- by rewrite mulmxN mulmxDr HE !mulmxA GRing.addrCA GRing.addNr GRing.addr0.
Qed.
End Cong.

Lemma sumn_exch n p q (f : nat -> R) : lt p n -> lt q n -> sumn n (fun i => f (exch p q i)) = sumn n f.
Proof.
move=> /ltP P /ltP Q; rewrite -!sumn_big [RHS](reindex_inj (@perm_inj _ (tperm (Ordinal P) (Ordinal Q)))) /=.
apply: eq_bigr => i _; congr (f _); rewrite permE /= /exch.
case: Nat.eqb_spec => [E|/eqP NE].
  by have -> : i == Ordinal P by apply/eqP/val_inj.
have /negbTE -> : i != Ordinal P by apply: contra NE => /eqP ->.
case: Nat.eqb_spec => [E|/eqP NQ].
  by have -> : i == Ordinal Q by apply/eqP/val_inj.
by have /negbTE -> : i != Ordinal Q by apply: contra NQ => /eqP ->.
Qed.
Lemma det_trans n f : detn n (fun i j => f j i) = detn n f.
Proof. by rewrite /detn -mx_tr det_tr. Qed.
