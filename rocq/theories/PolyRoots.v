(** A polynomial of degree below n that vanishes at n distinct points is zero. *)
From Coq Require Import Reals.
From mathcomp Require Import ssreflect ssrfun ssrbool eqtype ssrnat seq choice fintype finfun bigop ssralg poly matrix.
From Verif Require Import RStruct SemisepModel SemisepProofs MatBridge.
Set Implicit Arguments.
Unset Strict Implicit.
Local Open Scope ring_scope.

Lemma powE (x : R) n : x ^+ n = (x ^ n)%Re.
Proof. by elim: n => [|n IH] //=; rewrite GRing.exprS IH. Qed.

Lemma poly_zero n (v t : nat -> R) :
  (forall i j, lt i n -> lt j n -> t i = t j -> i = j) ->
  (forall i, lt i n -> sumn n (fun k => Rmult (v k) (t i ^ k)%Re) = R0) ->
  forall k, lt k n -> v k = R0.
Proof.
move=> D Z k /ltP K.
have [P0|PN] := eqVneq (\poly_(i < n) v i) 0.
  by have := congr1 (fun p : {poly R} => p`_k) P0; rewrite coef_poly K coef0.
have := max_poly_roots PN (rs := [seq t i | i <- iota 0 n]).
rewrite size_map size_iota ltnNge size_poly /= => H.
suff : false by []. apply: H.
  apply/allP => x /mapP [i]; rewrite mem_iota /= add0n => I ->.
  rewrite rootE horner_poly; apply/eqP.
  rewrite -[RHS](Z i); last exact/ltP.
  rewrite -sumn_big; apply: eq_bigr => j _; by rewrite powE.
rewrite map_inj_in_uniq ?iota_uniq // => i j; rewrite !mem_iota /= !add0n => I J.
by apply: D; apply/ltP.
Qed.

Lemma detn_scal n (c : R) f : detn n (fun i j => Rmult c (f i j)) = Rmult (c ^ n)%Re (detn n f).
Proof.
rewrite /detn; have -> : mx n n (fun i j => Rmult c (f i j)) = c *: mx n n f by apply/matrixP => i j; rewrite !mxE.
by rewrite detZ powE.
Qed.
