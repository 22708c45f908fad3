(** The single-step partition routines. *)
From Coq Require Import Reals List Arith Lia Lra Psatz Bool Classical.
From Verif Require Import SemisepModel SemisepProofs SemisepProofs2 MatBridge MatBridge2 SemisepProofs3 PartModel PartProofs PartProofs2.
Import ListNotations.
Open Scope R_scope.

(** Writing loop whose i-th value may depend on the old i-th entry. *)
Lemma loop1 : forall n d (v : nat -> arr -> R) mem,
  (forall i mem', (i < n)%nat -> (forall x, outside d n x \/ x = (d + i)%nat -> mem' x = mem x) -> v i mem' = v i mem) ->
  let mem' := for_ 0 n (fun i mem => upd mem (d + i) (v i mem)) mem in
  (forall i, (i < n)%nat -> mem' (d + i)%nat = v i mem) /\ (forall x, outside d n x -> mem' x = mem x).
Proof.
  intros n d v mem H mem'.
  pose proof (for_inv arr (fun k m => (forall i, (i < k)%nat -> m (d + i)%nat = v i mem) /\
     (forall x, outside d n x \/ (d + k <= x)%nat -> m x = mem x)) 0 n (fun i mem => upd mem (d + i) (v i mem)) mem) as G.
  cbv beta in G. simpl (0 + n)%nat in G.
  assert (G' : (forall i, (i < n)%nat -> mem' (d + i)%nat = v i mem) /\ (forall x, outside d n x \/ (d + n <= x)%nat -> mem' x = mem x)).
  { apply G.
    - split; [intros; lia|auto].
    - intros k m K [H1 H2]. split.
      + intros i I. destruct (Nat.eq_dec i k) as [->|NE].
        * rewrite upd_same. apply H; [lia|]. intros x [X| ->]; apply H2; [auto|right; lia].
        * rewrite upd_other by lia. apply H1. lia.
      + intros x X. rewrite upd_other by (unfold outside in X; lia). apply H2. destruct X; [auto|right; lia]. }
  destruct G' as [G1 G2]. split; auto.
Qed.

Lemma sub_upper_ok : forall mem S0 SN n, disjoint S0 (n * n) SN (n * n) ->
  let mem' := sub_upper mem S0 SN n in
  (forall i j, (i <= j < n)%nat -> mem' (SN + i * n + j)%nat = mem (S0 + i * n + j)%nat - mem (SN + i * n + j)%nat) /\
  (forall x, outside SN (n * n) x -> mem' x = mem x).
Proof.
  intros mem S0 SN n D mem'.
  (* row by row *)
  pose proof (for_inv arr (fun k m => (forall i j, (i <= j < n)%nat -> (i < k)%nat -> m (SN + i * n + j)%nat = mem (S0 + i * n + j)%nat - mem (SN + i * n + j)%nat) /\
     (forall x, outside SN (n * n) x \/ (SN + k * n <= x)%nat -> m x = mem x)) 0 n
     (fun i mem => for_ i (n - i) (fun j mem => upd mem (SN + i * n + j) (mem (S0 + i * n + j)%nat - mem (SN + i * n + j)%nat)) mem) mem) as G.
  cbv beta in G. simpl (0 + n)%nat in G.
  match type of G with ?a -> ?b -> ?c => assert (G' : c) end.
  { apply G.
    - split; [intros; lia|auto].
    - intros k m K [H1 H2].
      pose proof (for_inv arr (fun q m' => (forall j, (k <= j < q)%nat -> m' (SN + k * n + j)%nat = mem (S0 + k * n + j)%nat - mem (SN + k * n + j)%nat) /\
         (forall x, (x < SN + k * n \/ SN + k * n + q <= x)%nat -> m' x = m x)) k (n - k)
         (fun j mem => upd mem (SN + k * n + j) (mem (S0 + k * n + j)%nat - mem (SN + k * n + j)%nat)) m) as J.
      cbv beta in J. replace (k + (n - k))%nat with n in J by lia.
      match type of J with ?a -> ?b -> ?c => assert (J' : c) end.
      { apply J.
        - split; [intros; lia|auto].
        - intros q m' Q [Q1 Q2].
          assert (KN : (k * n + n <= n * n)%nat) by nia.
          split.
          + intros j Hj. destruct (Nat.eq_dec j q) as [->|NE].
            * rewrite upd_same.
              assert (E1 : m' (SN + k * n + q)%nat = mem (SN + k * n + q)%nat) by (rewrite Q2 by lia; apply H2; right; lia).
              assert (E2 : m' (S0 + k * n + q)%nat = mem (S0 + k * n + q)%nat).
              { pose proof (flat_lt n n k q ltac:(lia) ltac:(lia)). unfold disjoint in D.
                rewrite Q2 by lia. apply H2. left. unfold outside. lia. }
              rewrite E1, E2. reflexivity.
            * rewrite upd_other by lia. apply Q1. lia.
          + intros x X. rewrite upd_other by lia. apply Q2. lia. }
      destruct J' as [J1 J2]. assert (KN : (k * n + n <= n * n)%nat) by nia. split.
      + intros i j H I. destruct (Nat.eq_dec i k) as [->|NE]; [apply J1; lia|].
        assert (IK : (i * n + n <= k * n)%nat) by nia.
        rewrite J2 by lia. apply H1; lia.
      + intros x X. rewrite J2.
        * apply H2. destruct X; [auto|right; simpl in *; lia].
        * unfold outside in X. simpl in X. lia. }
  destruct G' as [G1 G2]. split; [intros; apply G1; lia|]. intros x X. apply G2. auto.
Qed.

Lemma od1 : forall p l q l' x, disjoint p l q l' -> (q <= x < q + l')%nat -> outside p l x.
Proof. unfold disjoint, outside. lia. Qed.
Lemma od2 : forall p l q l' x, disjoint q l' p l -> (q <= x < q + l')%nat -> outside p l x.
Proof. unfold disjoint, outside. lia. Qed.
Lemma dj_sub : forall p l q l' p' len, disjoint p l q l' -> (p <= p')%nat -> (p' + len <= p + l)%nat -> disjoint p' len q l'.
Proof. unfold disjoint. lia. Qed.
Lemma dj_sym : forall p l q l', disjoint p l q l' -> disjoint q l' p l.
Proof. unfold disjoint. lia. Qed.

Section One.
  Context {IP : Type}.
  Variable dsytrf : nat -> (nat -> nat -> R) -> (nat -> nat -> R) * IP.
  Variable dsytri : nat -> (nat -> nat -> R) -> IP -> nat -> nat -> R.
  Hypothesis lapack : dsytr_spec dsytrf dsytri.
  Variables (n1 n2 : nat) (f Pi Si : nat -> nat -> R).
  Hypothesis fsym : symm (n1 + n2) f.
  Hypothesis HP : inv_of n1 f Pi.
  Hypothesis HS : inv_of n2 (Sch n1 f Pi) Si.
  Variables (Pinv S0 Q PN SN QN wk : nat).
  Notation a := (n1 * n1)%nat.
  Notation b := (n1 * n2)%nat.
  Notation c := (n2 * n2)%nat.
  (** The results PN, SN, QN and the work array (n1*n2 + n1*n1) do not overlap
      each other or the inputs, except that PN may be Pinv. *)
  Hypothesis out_disj : disjoint PN a SN c /\ disjoint PN a QN b /\ disjoint SN c QN b /\
    disjoint wk (b + a) PN a /\ disjoint wk (b + a) SN c /\ disjoint wk (b + a) QN b.
  Hypothesis in_disj : disjoint wk (b + a) S0 c /\ disjoint wk (b + a) Q b /\ disjoint wk (b + a) Pinv a /\
    disjoint SN c S0 c /\ disjoint SN c Q b /\ disjoint SN c Pinv a /\ disjoint QN b Pinv a /\
    (PN = Pinv \/ disjoint PN a Pinv a).

  Lemma part_end_ok : forall mem,
    holds mem Pinv n1 n1 n1 Pi -> holds mem SN n2 n2 n2 Si -> holds mem wk n2 n1 n2 (PQ n1 f Pi) ->
    let mem' := part_end mem Pinv n1 n2 PN SN QN wk in
    holds mem' PN n1 n1 n1 (newP n1 n2 f Pi Si) /\ holds mem' QN n2 n1 n2 (newQ n1 n2 f Pi Si) /\ holds mem' SN n2 n2 n2 Si.
  Proof.
    intros mem H1 H2 H3. unfold part_end. cbv zeta.
    destruct out_disj as (o1 & o2 & o3 & o4 & o5 & o6). destruct in_disj as (i1 & i2 & i3 & i4 & i5 & i6 & i7 & i8).
    assert (WB : forall q l, disjoint wk (b + a) q l -> disjoint wk b q l) by (intros q l X; apply (dj_sub _ _ _ _ wk b X); lia).
    assert (WA : forall q l, disjoint wk (b + a) q l -> disjoint (wk + b) a q l) by (intros q l X; apply (dj_sub _ _ _ _ (wk + b) a X); lia).
    set (m1 := multiply_mat_MN mem wk SN QN n1 n2 n2).
    assert (O1 : forall x, outside QN b x -> m1 x = mem x) by (intros; apply gemm_out; auto).
    assert (E1 : holds m1 QN n2 n1 n2 (fun i j => sumn n2 (fun l => PQ n1 f Pi i l * Si l j))).
    { intros i j I J. unfold m1, multiply_mat_MN. rewrite gemm_in by auto.
      rewrite (sumn_ext n2 _ (fun l => PQ n1 f Pi i l * Si l j)); [ring|]. intros l L. rewrite H2, H3 by auto. reflexivity. }
    set (m2 := multiply_mat_MN_transposeB m1 QN wk (wk + b) n1 n1 n2).
    assert (O2 : forall x, outside (wk + b) a x -> m2 x = m1 x) by (intros; apply gemm_out; auto).
    assert (W1 : holds m1 wk n2 n1 n2 (PQ n1 f Pi)).
    { apply (holds_out mem m1 wk n1 n2 _ QN b); auto. }
    assert (E2 : holds m2 (wk + b) n1 n1 n1 (fun i j => sumn n2 (fun k => sumn n2 (fun l => PQ n1 f Pi i l * Si l k) * PQ n1 f Pi j k))).
    { intros i j I J. unfold m2, multiply_mat_MN_transposeB. rewrite gemm_in by auto.
      rewrite (sumn_ext n2 _ (fun k => sumn n2 (fun l => PQ n1 f Pi i l * Si l k) * PQ n1 f Pi j k)); [ring|]. intros l L. rewrite E1, W1 by auto. reflexivity. }
    destruct (loop1 b QN (fun i mem => - mem (QN + i)%nat) m2) as [L1 L2].
    { intros i m' I H. rewrite H by auto. reflexivity. }
    set (m3 := for_ 0 b (fun i mem => upd mem (QN + i) (- mem (QN + i)%nat)) m2) in *.
    destruct (loop1 a PN (fun i mem => mem (Pinv + i)%nat + mem (wk + b + i)%nat) m3) as [L3 L4].
    { intros i m' I H. rewrite (H (wk + b + i)%nat) by (left; apply (od2 _ _ _ _ _ (WA _ _ o4)); clear - I; lia). f_equal.
      apply H. destruct i8 as [->|i8]; [auto|]. left. apply (od1 _ _ _ _ _ i8). clear - I; lia. }
    set (m4 := for_ 0 a (fun i mem => upd mem (PN + i) (mem (Pinv + i)%nat + mem (wk + b + i)%nat)) m3) in *.
    split; [|split].
    - intros i j I J. pose proof (flat_lt n1 n1 i j I J) as FL.
      rewrite <- Nat.add_assoc. rewrite L3 by auto. unfold newP. f_equal.
      + rewrite L2 by (apply (od1 _ _ _ _ _ i7); clear - FL; lia). rewrite O2 by (apply (od1 _ _ _ _ _ (WA _ _ i3)); clear - FL; lia).
        rewrite O1 by (apply (od1 _ _ _ _ _ i7); clear - FL; lia). rewrite Nat.add_assoc. apply H1; auto.
      + rewrite L2 by (apply (od2 _ _ _ _ _ (WA _ _ o6)); clear - FL; lia). rewrite Nat.add_assoc. apply E2; auto.
    - intros i j I J. pose proof (flat_lt n1 n2 i j I J) as FL.
      rewrite L4 by (apply (od1 _ _ _ _ _ o2); clear - FL; lia). rewrite <- Nat.add_assoc. rewrite L1 by auto.
      rewrite O2 by (apply (od1 _ _ _ _ _ (WA _ _ o6)); clear - FL; lia). rewrite Nat.add_assoc. rewrite E1 by auto. reflexivity.
    - intros i j I J. pose proof (flat_lt n2 n2 i j I J) as FL.
      rewrite L4 by (apply (od1 _ _ _ _ _ o1); clear - FL; lia). rewrite L2 by (apply (od2 _ _ _ _ _ o3); clear - FL; lia).
      rewrite O2 by (apply (od1 _ _ _ _ _ (WA _ _ o5)); clear - FL; lia). rewrite O1 by (apply (od2 _ _ _ _ _ o3); clear - FL; lia). apply H2; auto.
  Qed.

  Lemma part_lndet_ok : forall mem,
    holds mem Pinv n1 n1 n1 Pi -> holds mem Q n2 n1 n2 (fun i j => f i (n1 + j)%nat) ->
    holds mem S0 n2 n2 n2 (fun i j => f (n1 + i)%nat (n1 + j)%nat) ->
    (let '(mem', ld) := inverse_symat_lndet_partition_inv dsytrf dsytri mem Pinv S0 Q n1 n2 PN SN QN wk in
     holds mem' PN n1 n1 n1 (newP n1 n2 f Pi Si) /\ holds mem' QN n2 n1 n2 (newQ n1 n2 f Pi Si) /\ holds mem' SN n2 n2 n2 Si /\
     (spd (n1 + n2) f -> ld = ln (detn n2 (Sch n1 f Pi)))) /\
    (let mem' := inverse_symat_partition_inv dsytrf dsytri mem Pinv S0 Q n1 n2 PN SN QN wk in
     holds mem' PN n1 n1 n1 (newP n1 n2 f Pi Si) /\ holds mem' QN n2 n1 n2 (newQ n1 n2 f Pi Si) /\ holds mem' SN n2 n2 n2 Si).
  Proof.
    intros mem H1 H2 H3. unfold inverse_symat_lndet_partition_inv, inverse_symat_partition_inv.
    destruct out_disj as (o1 & o2 & o3 & o4 & o5 & o6). destruct in_disj as (i1 & i2 & i3 & i4 & i5 & i6 & i7 & i8).
    assert (WB : forall q l, disjoint wk (b + a) q l -> disjoint wk b q l) by (intros q l X; apply (dj_sub _ _ _ _ wk b X); lia).
    assert (WA : forall q l, disjoint wk (b + a) q l -> disjoint (wk + b) a q l) by (intros q l X; apply (dj_sub _ _ _ _ (wk + b) a X); lia).
    cbv zeta.
    set (m1 := multiply_mat_MN mem Pinv Q wk n1 n2 n1).
    assert (O1 : forall x, outside wk b x -> m1 x = mem x) by (intros; apply gemm_out; auto).
    assert (W1 : holds m1 wk n2 n1 n2 (PQ n1 f Pi)).
    { intros i j I J. unfold m1, multiply_mat_MN. rewrite gemm_in by auto. unfold PQ.
      rewrite (sumn_ext n1 _ (fun l => Pi i l * f l (n1 + j)%nat)); [ring|]. intros l L. rewrite H1, H2 by auto. reflexivity. }
    set (m2 := multiply_mat_MN_transposeA m1 Q wk SN n2 n2 n1).
    assert (O2 : forall x, outside SN c x -> m2 x = m1 x) by (intros; apply gemm_out; auto).
    assert (E2 : holds m2 SN n2 n2 n2 (fun i j => sumn n1 (fun l => f l (n1 + i)%nat * PQ n1 f Pi l j))).
    { intros i j I J. unfold m2, multiply_mat_MN_transposeA. rewrite gemm_in by auto.
      rewrite (sumn_ext n1 _ (fun l => f l (n1 + i)%nat * PQ n1 f Pi l j)); [ring|]. intros l L.
      rewrite W1 by auto. f_equal. pose proof (flat_lt n1 n2 l i L I) as FL. rewrite O1 by (apply (od1 _ _ _ _ _ (WB _ _ i2)); clear - FL; lia). apply H2; auto. }
    destruct (sub_upper_ok m2 S0 SN n2) as [S1 S2]; [exact (dj_sym _ _ _ _ i4)|].
    set (m3 := sub_upper m2 S0 SN n2) in *.
    assert (E3 : forall i j, (i <= j < n2)%nat -> m3 (SN + i * n2 + j)%nat = Sch n1 f Pi i j).
    { intros i j H. rewrite S1 by auto. unfold Sch. f_equal.
      - assert (FL : (i * n2 + j < n2 * n2)%nat) by (apply flat_lt; clear - H; lia). rewrite O2 by (apply (od1 _ _ _ _ _ i4); clear - FL; lia).
        rewrite O1 by (apply (od1 _ _ _ _ _ (WB _ _ i1)); clear - FL; lia). apply H3; clear - H; lia.
      - apply E2; clear - H; lia. }
    assert (KEEP : forall m4, (forall x, outside SN c x -> m4 x = m3 x) -> holds m4 SN n2 n2 n2 Si ->
      holds m4 Pinv n1 n1 n1 Pi /\ holds m4 wk n2 n1 n2 (PQ n1 f Pi)).
    { intros m4 K _. split.
      - intros i j I J. pose proof (flat_lt n1 n1 i j I J) as FL.
        assert (X : outside SN c (Pinv + i * n1 + j)%nat) by (apply (od1 _ _ _ _ _ i6); clear - FL; lia).
        rewrite K, S2, O2 by exact X. rewrite O1 by (apply (od1 _ _ _ _ _ (WB _ _ i3)); clear - FL; lia). apply H1; auto.
      - intros i j I J. pose proof (flat_lt n1 n2 i j I J) as FL.
        assert (X : outside SN c (wk + i * n2 + j)%nat) by (apply (od2 _ _ _ _ _ (WB _ _ o5)); clear - FL; lia).
        rewrite K, S2, O2 by exact X. apply W1; auto. }
    split.
    - pose proof (inverse_symat_lndet_ok dsytrf dsytri lapack m3 SN n2 (Sch n1 f Pi) Si E3 (Sch_symm fsym HP) HS) as IV.
      destruct (inverse_symat_lndet dsytrf dsytri m3 SN n2) as [m4 ld]. destruct IV as (V1 & V2 & V3).
      destruct (KEEP m4 V2 V1) as [K1 K2].
      destruct (part_end_ok m4 K1 V1 K2) as (F1 & F2 & F3). repeat split; auto.
      intros PD. apply V3. apply spd_schur with (1 := PD). exact HP.
    - destruct (inverse_symat_ok dsytrf dsytri lapack m3 SN n2 (Sch n1 f Pi) Si E3 (Sch_symm fsym HP) HS) as [V1 V2].
      destruct (KEEP _ V2 V1) as [K1 K2]. apply (part_end_ok _ K1 V1 K2).
  Qed.
End One.
