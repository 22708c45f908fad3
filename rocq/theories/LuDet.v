(** The determinant from the factors of dgetrf. *)
From Coq Require Import Reals.
From mathcomp Require Import ssreflect ssrfun ssrbool eqtype ssrnat seq choice fintype finfun bigop fingroup perm ssralg matrix.
From Verif Require Import RStruct SemisepModel SemisepProofs MatBridge LuSpec.
Set Implicit Arguments.
Unset Strict Implicit.
Local Open Scope ring_scope.

Definition flip (i p : nat) : R := if Nat.eqb i p then R1 else Ropp R1.
Lemma det_swap n A i p : lt i n -> lt p n -> detn n (swap_rows A i p) = Rmult (flip i p) (detn n A).
Proof.
move=> /ltP I /ltP P; rewrite /detn.
have -> : mx n n (swap_rows A i p) = xrow (Ordinal I) (Ordinal P) (mx n n A).
  apply/matrixP => r c; rewrite !mxE /swap_rows permE /=; congr (A _ _).
  case: Nat.eqb_spec => [E|/eqP NE].
    by have -> : r == Ordinal I by apply/eqP/val_inj.
  have /negbTE -> : r != Ordinal I by apply: contra NE => /eqP ->.
  case: Nat.eqb_spec => [E|/eqP NP].
    by have -> : r == Ordinal P by apply/eqP/val_inj.
  by have /negbTE -> : r != Ordinal P by apply: contra NP => /eqP ->.
rewrite xrowE det_mulmx det_perm odd_tperm /flip.
case: Nat.eqb_spec => [E|/eqP NE].
  have -> : Ordinal I == Ordinal P by apply/eqP/val_inj.
  by rewrite GRing.expr0.
have -> : (Ordinal I != Ordinal P).
  by apply/negP => /eqP E; case/negP: NE; apply/eqP; exact: (congr1 val E).
by rewrite GRing.expr1.
Qed.
Lemma det_upper n f : (forall i j, lt j i -> lt i n -> f i j = R0) -> detn n f = prodn n (fun i => f i i).
Proof. move=> H; rewrite /detn -det_tr mx_tr det_lower // => i j ij jn; exact: H. Qed.
Lemma det_prod n f g : detn n (fun i j => sumn n (fun k => Rmult (f i k) (g k j))) = Rmult (detn n f) (detn n g).
Proof. by rewrite /detn -mx_mul det_mulmx. Qed.
Lemma det_low n f : (forall i j, lt i j -> lt j n -> f i j = R0) -> detn n f = prodn n (fun i => f i i).
Proof. exact: det_lower. Qed.
Lemma detn2 f : detn 2 f = Rminus (Rmult (f 0%N 0%N) (f 1%N 1%N)) (Rmult (f 0%N 1%N) (f 1%N 0%N)).
Proof.
  rewrite /detn (expand_det_row _ ord0) !big_ord_recl big_ord0 /cofactor !det_mx11 !mxE /=.
  by rewrite GRing.expr0 GRing.expr1 GRing.mul1r GRing.mulN1r GRing.addr0 GRing.mulrN.
Qed.
