(** C29: inversion by partitioning.  Real arithmetic, no rounding. *)
From Coq Require Import Reals List Arith Lia Lra Psatz.
From Verif Require Import SemisepModel SemisepProofs SemisepProofs2 MatBridge MatBridge2 SemisepProofs3 PropSemisep
  PartModel PartProofs PartProofs2 PartProofs3.
Import ListNotations.
Open Scope R_scope.

(** ** What the statements are about *)

(** B is the inverse of the n x n matrix C: C B = B C = 1. *)
Definition is_inverse (n : nat) (C B : nat -> nat -> R) : Prop :=
  forall i j, (i < n)%nat -> (j < n)%nat ->
    sumn n (fun k => C i k * B k j) = (if Nat.eqb i j then 1 else 0) /\
    sumn n (fun k => B i k * C k j) = (if Nat.eqb i j then 1 else 0).
Definition symmetric (n : nat) (C : nat -> nat -> R) : Prop := forall i j, (i < n)%nat -> (j < n)%nat -> C i j = C j i.
Definition positive_definite (n : nat) (C : nat -> nat -> R) : Prop :=
  forall x, (exists i, (i < n)%nat /\ x i <> 0) -> 0 < sumn n (fun i => sumn n (fun j => x i * C i j * x j)).
(** The n x n matrix stored row by row at address p. *)
Definition stored (mem : nat -> R) (p n : nat) (C : nat -> nat -> R) : Prop :=
  forall i j, (i < n)%nat -> (j < n)%nat -> mem (p + i * n + j)%nat = C i j.
Definition stored_block (mem : nat -> R) (p n m : nat) (C : nat -> nat -> R) : Prop :=
  forall i j, (i < n)%nat -> (j < m)%nat -> mem (p + i * m + j)%nat = C i j.
(** Two memory areas do not overlap. *)
Definition apart (p len q len' : nat) : Prop := (p + len <= q \/ q + len' <= p)%nat.
(** Total size of the first k light curves. *)
Fixpoint total (size : nat -> nat) (k : nat) : nat := match k with O => 0%nat | S q => (total size q + size q)%nat end.

Lemma inverse_both : forall n C B, inv_of n C B -> is_inverse n C B.
Proof. intros n C B H i j I J. split; [apply H; auto|exact (right_left H I J)]. Qed.
Lemma total_psum : forall s k, total s k = psum s k.
Proof. induction k; simpl; congruence. Qed.
Lemma spd_of : forall n C, symmetric n C -> positive_definite n C -> spd n C.
Proof. intros n C S P. split; auto. Qed.

(** ** The iterated partition *)

Theorem C29_iter : forall IP (dsytrf : nat -> (nat -> nat -> R) -> (nat -> nat -> R) * IP) dsytri mem A wk nt narr np C,
  dsytr_spec dsytrf dsytri ->
  (1 <= np)%nat -> total narr (S np) = nt -> apart A (nt * nt) wk (2 * (nt * nt)) ->
  symmetric nt C -> (forall k, (1 <= k <= S np)%nat -> detn (total narr k) C <> 0) ->
  stored mem A nt C ->
  let '(mem', lndet) := inverse_symat_partition_iter dsytrf dsytri mem A nt narr np wk in
  is_inverse nt C (fun i j => mem' (A + i * nt + j)%nat) /\
  (positive_definite nt C -> lndet = ln (detn nt C)).
Proof.
  intros IP trf tri mem A wk nt narr np C L NP SZ D SY LD ST.
  pose proof (partition_iter_ok trf tri L nt A wk C narr np mem SY D) as G.
  rewrite <- total_psum in G. specialize (G SZ NP). 
  assert (LD' : forall k, (1 <= k <= S np)%nat -> detn (psum narr k) C <> 0) by (intros k K; rewrite <- total_psum; auto).
  specialize (G LD' ST).
  destruct (inverse_symat_partition_iter trf tri mem A nt narr np wk) as [mem' ld]. destruct G as [(B & B1 & B2) G2].
  split.
  - apply inverse_both. intros i j I J. rewrite <- (B1 i j I J). apply sumn_ext. intros k K. rewrite B2 by auto. reflexivity.
  - intros PD. apply G2. apply spd_of; auto.
Qed.
Print Assumptions C29_iter.

(** The variant used for the likelihood: the leading block is the covariance of
    the continuum and is never read from the matrix. *)
Theorem C29_semiseparable_iter : forall IP (dsytrf : nat -> (nat -> nat -> R) -> (nat -> nat -> R) * IP) dsytri dtrtri dlauum
    mem A wk nt narr np C s2 tau syserr t err W0 D0 phi0,
  dsytr_spec dsytrf dsytri -> dtrtri_spec dtrtri -> dlauum_spec dlauum ->
  (1 <= narr 0)%nat -> 0 < s2 -> 0 < tau -> proper_times (narr 0%nat) syserr t err ->
  (1 <= np)%nat -> total narr (S np) = nt -> apart A (nt * nt) wk (2 * (nt * nt)) ->
  symmetric nt C -> (forall k, (1 <= k <= S np)%nat -> detn (total narr k) C <> 0) ->
  (forall i j, (i < narr 0)%nat -> (j < narr 0)%nat -> C i j = covariance s2 tau syserr t err i j) ->
  stored mem A nt C ->
  let '(mem', lndet) := inverse_semiseparable_iter dsytrf dsytri dtrtri dlauum t s2 (1 / tau) err syserr W0 D0 phi0 mem A nt narr np wk in
  is_inverse nt C (fun i j => mem' (A + i * nt + j)%nat) /\
  (positive_definite nt C -> lndet = ln (detn nt C)).
Proof.
  intros IP trf tri tr la mem A wk nt narr np C s2 tau syserr t err W0 D0 phi0 L LT LL N1 S2 TP PT NP SZ D SY LD CC ST.
  pose proof (semiseparable_iter_ok trf tri L tr la t s2 (1 / tau) err syserr W0 D0 phi0 nt A wk C narr np mem
    LT LL N1 S2 (c1_pos' tau TP) (pt_sorted _ syserr t err PT) (pt_noisy _ syserr t err PT)) as G.
  assert (CC' : forall i j, (i < narr 0)%nat -> (j < narr 0)%nat -> C i j = Cq t err s2 (1 / tau) syserr i j).
  { intros i j I J. rewrite CC by auto. apply cov_Cq. }
  assert (LD' : forall k, (1 <= k <= S np)%nat -> detn (psum narr k) C <> 0) by (intros k K; rewrite <- total_psum; auto).
  rewrite <- total_psum in G. specialize (G CC' SY D SZ NP LD' ST).
  destruct (inverse_semiseparable_iter trf tri tr la t s2 (1 / tau) err syserr W0 D0 phi0 mem A nt narr np wk) as [mem' ld].
  destruct G as [(B & B1 & B2) G2]. split.
  - apply inverse_both. intros i j I J. rewrite <- (B1 i j I J). apply sumn_ext. intros k K. rewrite B2 by auto. reflexivity.
  - intros PD. apply G2. apply spd_of; auto.
Qed.
Print Assumptions C29_semiseparable_iter.

(** A positive definite matrix meets the hypotheses on the leading blocks. *)
Theorem C29_positive_definite_leading : forall n m C, symmetric (n + m) C -> positive_definite (n + m) C -> detn n C <> 0.
Proof.
  intros n m C S P. pose proof (spd_det n C (spd_lead n m C (spd_of _ _ S P))). lra.
Qed.
Print Assumptions C29_positive_definite_leading.

(** Without a line the matrix is left as it was. *)
Theorem C29_no_line_refuted : forall IP (dsytrf : nat -> (nat -> nat -> R) -> (nat -> nat -> R) * IP) dsytri, exists mem A wk nt narr C,
  total narr 1 = nt /\ apart A (nt * nt) wk (2 * (nt * nt)) /\ symmetric nt C /\ positive_definite nt C /\ stored mem A nt C /\
  let '(mem', lndet) := inverse_symat_partition_iter dsytrf dsytri mem A nt narr 0 wk in
  ~ is_inverse nt C (fun i j => mem' (A + i * nt + j)%nat).
Proof.
  intros IP trf tri. exists (fun x => 2), 0%nat, 1%nat, 1%nat, (fun _ => 1%nat), (fun _ _ => 2).
  split; [reflexivity|]. split; [left; reflexivity|]. split; [intros i j _ _; reflexivity|]. split; [|split].
  - intros x (i & I & X). assert (i = 0)%nat by lia. subst. simpl. nra.
  - intros i j _ _. reflexivity.
  - unfold inverse_symat_partition_iter.
    pose proof (copy_upper_ok (fun _ => 2) 0 1 1 1) as CU.
    cbv zeta beta in CU. cbv zeta beta.
    match type of CU with _ -> _ /\ (forall x, _ -> ?m x = _) => set (m1 := m) in * end.
    assert (M1 : m1 0%nat = 2). { apply CU; [intros i j H; left; lia|left; lia]. }
    unfold inverse_symat_lndet. destruct (trf 1%nat (upper m1 1 1)) as [F ip]. simpl for_ at 2. cbv zeta.
    set (m3 := store_upper _ 1 1 (tri _ _ _)).
    destruct (fill_lower_ok m3 1 1) as [_ FL].
    assert (M4 : fill_lower m3 1 1 0%nat = 2).
    { rewrite FL by (left; lia). unfold m3. rewrite !store_upper_out by (left; lia). exact M1. }
    intros H. destruct (H 0%nat 0%nat) as [H1 _]; [lia|lia|]. unfold sumn in H1. simpl in H1.
    change (fill_lower m3 1 1 0%nat) with (fill_lower m3 1 1 0%nat) in H1. rewrite M4 in H1. lra.
Qed.
Print Assumptions C29_no_line_refuted.

(** ** One step *)

(** All areas involved in one step; PN may be the place of P^-1. *)
Definition step_areas (n1 n2 Pinv S Q PN SN QN wk : nat) : Prop :=
  let a := (n1 * n1)%nat in let b := (n1 * n2)%nat in let c := (n2 * n2)%nat in
  (apart PN a SN c /\ apart PN a QN b /\ apart SN c QN b /\
   apart wk (b + a) PN a /\ apart wk (b + a) SN c /\ apart wk (b + a) QN b) /\
  (apart wk (b + a) S c /\ apart wk (b + a) Q b /\ apart wk (b + a) Pinv a /\
   apart SN c S c /\ apart SN c Q b /\ apart SN c Pinv a /\ apart QN b Pinv a /\
   (PN = Pinv \/ apart PN a Pinv a)).
(** The matrix with the stored blocks PN, QN, QN^T, SN. *)
Definition assembled (mem : nat -> R) (n1 n2 PN SN QN : nat) (i j : nat) : R :=
  if Nat.ltb i n1 then
    (if Nat.ltb j n1 then mem (PN + i * n1 + j)%nat else mem (QN + i * n2 + (j - n1))%nat)
  else (if Nat.ltb j n1 then mem (QN + j * n2 + (i - n1))%nat else mem (SN + (i - n1) * n2 + (j - n1))%nat).

Theorem C29_one_step : forall IP (dsytrf : nat -> (nat -> nat -> R) -> (nat -> nat -> R) * IP) dsytri mem n1 n2 C Pi Pinv S Q PN SN QN wk,
  dsytr_spec dsytrf dsytri -> symmetric (n1 + n2) C -> is_inverse n1 C Pi -> detn (n1 + n2) C <> 0 ->
  step_areas n1 n2 Pinv S Q PN SN QN wk ->
  stored mem Pinv n1 Pi -> stored_block mem Q n1 n2 (fun i j => C i (n1 + j)%nat) ->
  stored mem S n2 (fun i j => C (n1 + i)%nat (n1 + j)%nat) ->
  is_inverse (n1 + n2) C (assembled (inverse_symat_partition_inv dsytrf dsytri mem Pinv S Q n1 n2 PN SN QN wk) n1 n2 PN SN QN) /\
  (let '(mem', lndet) := inverse_symat_lndet_partition_inv dsytrf dsytri mem Pinv S Q n1 n2 PN SN QN wk in
   is_inverse (n1 + n2) C (assembled mem' n1 n2 PN SN QN) /\
   (positive_definite (n1 + n2) C -> ln (detn n1 C) + lndet = ln (detn (n1 + n2) C))).
Proof.
  intros IP trf tri mem n1 n2 C Pi Pinv S Q PN SN QN wk L SY HP ND [AO AI] H1 H2 H3.
  assert (HPi : inv_of n1 C Pi) by (intros i j I J; destruct (HP i j I J); auto).
  assert (DS : detn (n1 + n2) C = detn n1 C * detn n2 (Sch n1 C Pi)) by (exact (schur_det SY HPi)).
  assert (EXS : exists Si, inv_of n2 (Sch n1 C Pi) Si).
  { apply det_inv. intros Z. apply ND. rewrite DS, Z. ring. }
  destruct EXS as [Si HSi].
  destruct (part_lndet_ok trf tri L n1 n2 C Pi Si SY HPi HSi Pinv S Q PN SN QN wk AO AI mem H1 H2 H3) as [P1 P2].
  assert (FIN : forall mem', holds mem' PN n1 n1 n1 (newP n1 n2 C Pi Si) -> holds mem' QN n2 n1 n2 (newQ n1 n2 C Pi Si) ->
    holds mem' SN n2 n2 n2 Si -> is_inverse (n1 + n2) C (assembled mem' n1 n2 PN SN QN)).
  { intros mem' F1 F2 F3. apply inverse_both. intros i j I J.
    assert (SI : inv_of (n1 + n2) C (newA n1 n2 C Pi Si)) by exact (schur_inv SY HPi HSi).
    rewrite <- (SI i j I J). apply sumn_ext. intros k K. f_equal. unfold assembled, newA, blockf.
    assert (K' : (k < n1 + n2)%nat) by exact K.
    destruct (Nat.ltb_spec k n1), (Nat.ltb_spec j n1); [apply F1|apply F2|apply F2|apply F3]; lia. }
  split.
  - destruct P2 as (F1 & F2 & F3). apply FIN; auto.
  - destruct (inverse_symat_lndet_partition_inv trf tri mem Pinv S Q n1 n2 PN SN QN wk) as [mem' ld].
    destruct P1 as (F1 & F2 & F3 & F4). split; [apply FIN; auto|].
    intros PD. assert (PS : spd (n1 + n2) C) by (apply spd_of; auto).
    rewrite F4 by auto. rewrite DS, ln_mult; [reflexivity| |].
    + apply spd_det. apply spd_lead in PS. exact PS.
    + apply spd_det. apply spd_schur with (1 := PS). exact HPi.
Qed.
Print Assumptions C29_one_step.

(** The step that also inverts the first block (PN is both). *)
Theorem C29_one_step_full : forall IP (dsytrf : nat -> (nat -> nat -> R) -> (nat -> nat -> R) * IP) dsytri mem n1 n2 C P S Q PN SN QN wk,
  dsytr_spec dsytrf dsytri -> symmetric (n1 + n2) C -> detn n1 C <> 0 -> detn (n1 + n2) C <> 0 ->
  step_areas n1 n2 PN S Q PN SN QN wk ->
  apart PN (n1 * n1) P (n1 * n1) -> apart PN (n1 * n1) Q (n1 * n2) -> apart PN (n1 * n1) S (n2 * n2) ->
  stored mem P n1 C -> stored_block mem Q n1 n2 (fun i j => C i (n1 + j)%nat) ->
  stored mem S n2 (fun i j => C (n1 + i)%nat (n1 + j)%nat) ->
  is_inverse (n1 + n2) C (assembled (inverse_symat_partition dsytrf dsytri mem P S Q n1 n2 PN SN QN wk) n1 n2 PN SN QN).
Proof.
  intros IP trf tri mem n1 n2 C P S Q PN SN QN wk L SY D1 D2 AR DP DQ DS H1 H2 H3. unfold inverse_symat_partition.
  set (m1 := memcpy mem PN P (n1 * n1)).
  assert (O1 : forall x, outside PN (n1 * n1) x -> m1 x = mem x).
  { intros x X. unfold m1, memcpy, outside in *. destruct (Nat.leb_spec PN x), (Nat.ltb_spec x (PN + n1 * n1)); simpl; auto. lia. }
  assert (E1 : forall i j, (i <= j < n1)%nat -> m1 (PN + i * n1 + j)%nat = C i j).
  { intros i j H. unfold m1, memcpy. pose proof (flat_lt n1 n1 i j ltac:(lia) ltac:(lia)).
    destruct (Nat.leb_spec PN (PN + i * n1 + j)); [|lia]. destruct (Nat.ltb_spec (PN + i * n1 + j) (PN + n1 * n1)); [|lia]. simpl.
    replace (P + (PN + i * n1 + j - PN))%nat with (P + i * n1 + j)%nat by lia. apply H1; lia. }
  assert (SY1 : symm n1 C) by (intros i j I J; apply SY; lia).
  assert (EX : exists B, inv_of n1 C B) by (apply det_inv; auto). destruct EX as [Pi HPi].
  destruct (inverse_symat_ok trf tri L m1 PN n1 C Pi E1 SY1 HPi) as [V1 V2].
  set (m2 := inverse_symat trf tri m1 PN n1) in *.
  apply (C29_one_step IP trf tri m2 n1 n2 C Pi PN S Q PN SN QN wk L SY (inverse_both _ _ _ HPi) D2 AR).
  - exact V1.
  - intros i j I J. pose proof (flat_lt n1 n2 i j I J) as FL.
    assert (X : outside PN (n1 * n1) (Q + i * n2 + j)%nat) by (apply (od1 _ _ _ _ _ DQ); clear - FL; lia).
    rewrite V2, O1 by exact X. apply H2; auto.
  - intros i j I J. pose proof (flat_lt n2 n2 i j I J) as FL.
    assert (X : outside PN (n1 * n1) (S + i * n2 + j)%nat) by (apply (od1 _ _ _ _ _ DS); clear - FL; lia).
    rewrite V2, O1 by exact X. apply H3; auto.
Qed.
Print Assumptions C29_one_step_full.

(** ** Why the assumption on dsytrf for positive definite matrices is right:
    the pivoting rule of Bunch and Kaufman takes a 2 x 2 pivot only if all
    three tests below succeed, and for a positive definite matrix they cannot. *)
Lemma sumn_two : forall n (g : nat -> R) k r, (k < n)%nat -> (r < n)%nat -> k <> r ->
  (forall i, (i < n)%nat -> i <> k -> i <> r -> g i = 0) -> sumn n g = g k + g r.
Proof.
  intros n g k r K R NE Z.
  rewrite (sumn_ext n g (fun i => (if Nat.eqb i k then g i else 0) + (if Nat.eqb i r then g i else 0))).
  - rewrite sumn_plus. rewrite (sumn_single n k (fun i => if Nat.eqb i k then g i else 0)), (sumn_single n r (fun i => if Nat.eqb i r then g i else 0)), !Nat.eqb_refl; auto.
    + intros i _ N. destruct (Nat.eqb_spec i r); congruence.
    + intros i _ N. destruct (Nat.eqb_spec i k); congruence.
  - intros i I. destruct (Nat.eqb_spec i k), (Nat.eqb_spec i r); subst; try lia; try ring. rewrite Z by auto. ring.
Qed.
Lemma pd_minor : forall n C k r, symmetric n C -> positive_definite n C -> (k < n)%nat -> (r < n)%nat -> k <> r ->
  0 < C k k /\ 0 < C r r /\ C r k * C r k < C k k * C r r.
Proof.
  intros n C k r SY PD K R NE.
  assert (Q : forall u v, (u <> 0 \/ v <> 0) -> 0 < u * u * C k k + 2 * u * v * C r k + v * v * C r r).
  { intros u v UV. set (x := fun i => if Nat.eqb i k then u else if Nat.eqb i r then v else 0).
    assert (XK : x k = u) by (unfold x; rewrite Nat.eqb_refl; auto).
    assert (XR : x r = v) by (unfold x; rewrite Nat.eqb_refl; destruct (Nat.eqb_spec r k); congruence).
    assert (XO : forall i, i <> k -> i <> r -> x i = 0).
    { intros i A B. unfold x. destruct (Nat.eqb_spec i k); [congruence|]. destruct (Nat.eqb_spec i r); congruence. }
    pose proof (PD x) as P.
    rewrite (sumn_two n _ k r K R NE) in P.
    - rewrite (sumn_two n _ k r K R NE), (sumn_two n _ k r K R NE) in P.
      + rewrite XK, XR in P. rewrite (SY k r K R) in P. 
        assert (0 < u * C k k * u + u * C r k * v + (v * C r k * u + v * C r r * v)).
        { apply P. destruct UV; [exists k|exists r]; split; auto; congruence. } nra.
      + intros i _ A B. rewrite (XO i) by auto. ring.
      + intros i _ A B. rewrite (XO i) by auto. ring.
    - intros i _ A B. rewrite (sumn_ext n _ (fun _ => 0)); [apply sumn_zero|]. intros. rewrite (XO i) by auto. ring. }
  assert (A : 0 < C k k) by (specialize (Q 1 0 ltac:(left; lra)); lra).
  assert (B : 0 < C r r) by (specialize (Q 0 1 ltac:(right; lra)); lra).
  repeat split; auto.
  specialize (Q (- C r k) (C k k) ltac:(right; lra)). 
  assert (E : - C r k * - C r k * C k k + 2 * - C r k * C k k * C r k + C k k * C k k * C r r = C k k * (C k k * C r r - C r k * C r k)) by ring.
  rewrite E in Q. nra.
Qed.
Theorem C29_no_2x2_pivot : forall n C k r alpha rowmax,
  symmetric n C -> positive_definite n C -> (k < n)%nat -> (r < n)%nat -> k <> r -> 0 < alpha < 1 ->
  Rabs (C r k) <= rowmax ->
  ~ (Rabs (C k k) < alpha * Rabs (C r k) /\
     Rabs (C k k) * rowmax < alpha * (Rabs (C r k) * Rabs (C r k)) /\
     Rabs (C r r) < alpha * rowmax).
Proof.
  intros n C k r alpha rowmax SY PD K R NE AL RM (T1 & T2 & T3).
  destruct (pd_minor n C k r SY PD K R NE) as (A & B & M).
  rewrite (Rabs_right (C k k)) in * by lra. rewrite (Rabs_right (C r r)) in * by lra.
  set (m := Rabs (C r k)) in *. assert (MM : m * m = C r k * C r k).
  { unfold m. rewrite <- Rabs_mult. apply Rabs_right. pose proof (Rle_0_sqr (C r k)) as Q. unfold Rsqr in Q. lra. }
  rewrite <- MM in M. assert (0 <= m) by apply Rabs_pos.
  assert (C k k * C r r < alpha * (C k k * rowmax)) by nra.
  assert (alpha * (C k k * rowmax) <= alpha * (alpha * (m * m))) by nra.
  assert (alpha * (alpha * (m * m)) <= m * m).
  { assert (0 <= m * m) by nra. assert (alpha * alpha <= 1) by nra. nra. }
  lra.
Qed.
Print Assumptions C29_no_2x2_pivot.

(** ** The hypotheses can be met *)
Definition sym_of (U : nat -> nat -> R) (i j : nat) : R := U (Nat.min i j) (Nat.max i j).
Definition ref_dsytrf (n : nat) (U : nat -> nat -> R) : (nat -> nat -> R) * (nat -> nat -> R) :=
  (fun i j => if Nat.eqb i j then (if Nat.eqb i 0 then detn n (sym_of U) else 1) else 0, U).
Definition ref_dsytri (n : nat) (V : nat -> nat -> R) (U : nat -> nat -> R) : nat -> nat -> R := invn n (sym_of U).
Lemma prodn_first : forall n d, prodn (S n) (fun i => if Nat.eqb i i then (if Nat.eqb i 0 then d else 1) else 0) = d.
Proof.
  induction n; intros d; [simpl; ring|]. specialize (IHn d).
  transitivity (prodn (S n) (fun i => if Nat.eqb i i then (if Nat.eqb i 0 then d else 1) else 0) * 1); [|rewrite IHn; ring].
  simpl. rewrite Nat.eqb_refl. reflexivity.
Qed.
Example C29_contract_met : dsytr_spec ref_dsytrf ref_dsytri.
Proof.
  intros n U A HU SY ND.
  assert (EQ : forall i j, (i < n)%nat -> (j < n)%nat -> sym_of U i j = A i j).
  { intros i j I J. unfold sym_of. rewrite HU by lia. destruct (le_lt_dec i j).
    - rewrite Nat.min_l, Nat.max_r by lia. reflexivity.
    - rewrite Nat.min_r, Nat.max_l by lia. apply SY; auto. }
  assert (ED : detn n (sym_of U) = detn n A) by (apply detn_ext; exact EQ).
  split.
  - intros V B _ HB i j IJ. unfold ref_dsytri, ref_dsytrf. cbn [snd].
    apply (inv_unique (f := A) (n := n)); try lia; auto.
    intros a b Ha Hb. assert (NDU : detn n (sym_of U) <> 0) by (rewrite ED; exact ND).
    rewrite <- (invn_ok NDU Ha Hb). apply sumn_ext. intros k K. rewrite EQ by auto. reflexivity.
  - intros PD. pose proof (spd_det n A PD) as DP. unfold ref_dsytrf. cbn [fst]. split.
    + intros i I. rewrite Nat.eqb_refl. destruct (Nat.eqb i 0); [rewrite ED; exact DP|lra].
    + destruct n; [simpl; rewrite detn0; reflexivity|]. rewrite prodn_first. exact ED.
Qed.

(** Unit matrix plus a matrix of ones: three light curves of sizes 2, 1 and 2. *)
Definition ex_C (i j : nat) : R := (if Nat.eqb i j then 1 else 0) + 1.
Definition ex_narr (k : nat) : nat := match k with 0%nat => 2 | 1%nat => 1 | _ => 2 end.
Lemma ex_C_pd : forall n, symmetric n ex_C /\ positive_definite n ex_C.
Proof.
  intros n. split.
  - intros i j _ _. unfold ex_C. rewrite (Nat.eqb_sym i j). reflexivity.
  - intros x (i & I & X).
    assert (E : sumn n (fun i => sumn n (fun j => x i * ex_C i j * x j)) = sumn n (fun i => x i * x i) + sumn n x * sumn n x).
    { rewrite (sumn_ext n _ (fun i => x i * x i + x i * sumn n x)).
      - rewrite sumn_plus. f_equal. apply sumn_opp_ext.
      - intros k K. rewrite (sumn_ext n _ (fun j => (if Nat.eqb k j then x k * x j else 0) + x k * x j)).
        + rewrite sumn_plus, sumn_scal. f_equal. rewrite (sumn_single n k); auto; [rewrite Nat.eqb_refl; ring|].
          intros j _ NE. destruct (Nat.eqb_spec k j); congruence.
        + intros j J. unfold ex_C. destruct (Nat.eqb k j); ring. }
    rewrite E.
    assert (P : 0 < sumn n (fun i => x i * x i)).
    { clear E. induction n; [lia|]. simpl.
      assert (G : 0 <= sumn n (fun i => x i * x i)) by (apply sumn_ge0; intros; nra).
      destruct (Nat.eq_dec i n) as [->|NE]; [nra|]. specialize (IHn ltac:(lia)). nra. }
    pose proof (Rle_0_sqr (sumn n x)) as Q. unfold Rsqr in Q. lra.
Qed.
Example C29_example : let mem := store (fun _ => 0) 0 5 5 ex_C in
  let '(mem', lndet) := inverse_symat_partition_iter ref_dsytrf ref_dsytri mem 0 5 ex_narr 2 25 in
  is_inverse 5 ex_C (fun i j => mem' (0 + i * 5 + j)%nat) /\ lndet = ln (detn 5 ex_C).
Proof.
  intros mem.
  pose proof (C29_iter _ ref_dsytrf ref_dsytri mem 0 25 5 ex_narr 2 ex_C C29_contract_met) as G.
  destruct (inverse_symat_partition_iter ref_dsytrf ref_dsytri mem 0 5 ex_narr 2 25) as [mem' ld].
  destruct (ex_C_pd 5) as [S5 P5].
  destruct G as [G1 G2]; [lia|reflexivity|left; simpl; lia|exact S5| |intros i j I J; apply (store_in (fun _ => 0) 0 5 5 ex_C); auto|].
  - intros k K. destruct (ex_C_pd (total ex_narr k + 0)) as [S P]. exact (C29_positive_definite_leading _ 0 _ S P).
  - split; [exact G1|apply G2; exact P5].
Qed.
(** Three points of one damped random walk, the last taken as a "line". *)
Example C29_semi_example : let C := covariance 1 1 0 (fun i => INR i) (fun _ => 0) in
  let mem := store (fun _ => 0) 0 3 3 C in
  let '(mem', lndet) := inverse_semiseparable_iter ref_dsytrf ref_dsytri ref_dtrtri ref_dlauum (fun i => INR i) 1 (1 / 1) (fun _ => 0) 0
    (fun _ => 0) (fun _ => 0) (fun _ => 0) mem 0 3 (fun k => match k with 0%nat => 2 | _ => 1 end)%nat 1 9 in
  is_inverse 3 C (fun i j => mem' (0 + i * 3 + j)%nat) /\ lndet = ln (detn 3 C).
Proof.
  intros C mem.
  assert (PT : forall n, proper_times n 0 (fun i => INR i) (fun _ => 0)) by (intros n i _; left; rewrite S_INR; lra).
  assert (SY : forall n, symmetric n C).
  { intros n i j _ _. unfold C, covariance. rewrite Rabs_minus_sym, (Nat.eqb_sym i j). reflexivity. }
  assert (PD : forall n, positive_definite n C) by (intros n x X; apply C28_positive_definite; auto; lra).
  pose proof (C29_semiseparable_iter _ ref_dsytrf ref_dsytri ref_dtrtri ref_dlauum mem 0 9 3 (fun k => match k with 0%nat => 2 | _ => 1 end)%nat 1 C
     1 1 0 (fun i => INR i) (fun _ => 0) (fun _ => 0) (fun _ => 0) (fun _ => 0) C29_contract_met dtrtri_exists dlauum_exists) as G.
  destruct (inverse_semiseparable_iter _ _ _ _ _ _ _ _ _ _ _ _ _ _ _ _ _ _) as [mem' ld].
  destruct G as [G1 G2]; auto; try lia; try lra.
  - left; simpl; lia.
  - intros k K. exact (C29_positive_definite_leading _ 0 _ (SY _) (PD _)).
  - intros i j I J. apply (store_in (fun _ => 0) 0 3 3 C); auto.
Qed.
