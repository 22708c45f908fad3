(** The partition routines return inverse and log-determinant. *)
From Coq Require Import Reals List Arith Lia Lra Psatz Bool Classical.
From Verif Require Import SemisepModel SemisepProofs SemisepProofs2 MatBridge MatBridge2 SemisepProofs3 PartModel PartProofs.
Import ListNotations.
Open Scope R_scope.

Section Contract.
  Context {IP : Type}.
  Variable dsytrf : nat -> (nat -> nat -> R) -> (nat -> nat -> R) * IP.
  Variable dsytri : nat -> (nat -> nat -> R) -> IP -> nat -> nat -> R.

  (** What LAPACK promises: given the upper triangle of an invertible symmetric
      matrix A, dsytrf followed by dsytri gives the upper triangle of the
      inverse; if A is positive definite, the factor has only 1 x 1 pivots,
      they are positive and their product is the determinant. *)
  Definition upper_of (n : nat) (U A : nat -> nat -> R) : Prop := forall i j, (i <= j < n)%nat -> U i j = A i j.
  Definition dsytr_spec : Prop :=
    forall n U A, upper_of n U A -> symm n A -> detn n A <> 0 ->
      (forall V B, upper_of n V (fst (dsytrf n U)) -> inv_of n A B -> upper_of n (dsytri n V (snd (dsytrf n U))) B) /\
      (spd n A -> (forall i, (i < n)%nat -> 0 < fst (dsytrf n U) i i) /\
                  prodn n (fun i => fst (dsytrf n U) i i) = detn n A).
  Hypothesis lapack : dsytr_spec.

  Lemma upper_val : forall mem p n f, (forall i j, (i <= j < n)%nat -> mem (p + i * n + j)%nat = f i j) -> upper_of n (upper mem p n) f.
  Proof. intros mem p n f H i j IJ. unfold upper. destruct (Nat.leb_spec i j); [auto|lia]. Qed.

  Lemma lnsum : forall n (a : nat -> R), for_ 0 n (fun i l => l + ln (a i)) 0 = sumn n (fun i => ln (a i)).
  Proof.
    intros n a. pose proof (for_inv R (fun k l => l = sumn k (fun i => ln (a i))) 0 n (fun i l => l + ln (a i)) 0) as G.
    simpl in G. apply G; [reflexivity|]. intros i s _ ->. reflexivity.
  Qed.

  (** [inverse_symat_lndet] on the upper triangle of A. *)
  Lemma inverse_symat_lndet_ok : forall mem p n A B,
    (forall i j, (i <= j < n)%nat -> mem (p + i * n + j)%nat = A i j) -> symm n A -> inv_of n A B ->
    let '(mem', ld) := inverse_symat_lndet dsytrf dsytri mem p n in
    holds mem' p n n n B /\ (forall x, outside p (n * n) x -> mem' x = mem x) /\
    (spd n A -> ld = ln (detn n A)).
  Proof.
    intros mem p n A B HU Sy HB. unfold inverse_symat_lndet.
    destruct (lapack n (upper mem p n) A (upper_val _ _ _ _ HU) Sy) as [L1 L2]; [apply det_inv; exists B; auto|].
    destruct (dsytrf n (upper mem p n)) as [F ip] eqn:EF. cbn [fst snd] in *.
    set (m1 := store_upper mem p n F).
    set (m2 := store_upper m1 p n (dsytri n (upper m1 p n) ip)).
    destruct (fill_lower_ok m2 p n) as [FL1 FL2].
    assert (V : upper_of n (upper m1 p n) F).
    { apply upper_val. intros i j H. apply store_upper_in. auto. }
    assert (T := L1 _ _ V HB).
    assert (BS : symm n B) by (apply (inv_sym Sy HB)).
    split; [|split].
    - intros i j I J. destruct (le_lt_dec i j) as [L|L].
      + destruct (FL1 i j) as [-> _]; [lia|]. unfold m2. rewrite store_upper_in by lia. apply T. lia.
      + destruct (FL1 j i) as [_ ->]; [lia|]. unfold m2. rewrite store_upper_in by lia. rewrite T by lia. apply BS; lia.
    - intros x X. rewrite FL2 by auto. unfold m2, m1. rewrite !store_upper_out by auto. reflexivity.
    - intros PD. destruct (L2 PD) as [P1 P2]. rewrite <- P2.
      destruct (ln_prodn n (fun i => F i i) P1) as [_ E].
      etransitivity; [|symmetry; exact E]. rewrite lnsum. apply sumn_ext. intros i I. f_equal. apply store_upper_in. lia.
  Qed.
  Lemma inverse_symat_ok : forall mem p n A B,
    (forall i j, (i <= j < n)%nat -> mem (p + i * n + j)%nat = A i j) -> symm n A -> inv_of n A B ->
    let mem' := inverse_symat dsytrf dsytri mem p n in
    holds mem' p n n n B /\ (forall x, outside p (n * n) x -> mem' x = mem x).
  Proof.
    intros mem p n A B HU Sy HB. pose proof (inverse_symat_lndet_ok mem p n A B HU Sy HB) as G.
    unfold inverse_symat_lndet, inverse_symat in *. destruct (dsytrf n (upper mem p n)) as [F ip]. destruct G as (G1 & G2 & _). auto.
  Qed.

  Lemma gemm_in : forall mem c m n al be pr i j, (i < m)%nat -> (j < n)%nat ->
    gemm mem c m n al be pr (c + i * n + j)%nat = al * pr i j + be * mem (c + i * n + j)%nat.
  Proof. intros. unfold gemm. apply (store_in mem c m n (fun i j => al * pr i j + be * mem (c + i * n + j)%nat)); auto. Qed.
  Lemma gemm_out : forall mem c m n al be pr x, outside c (m * n) x -> gemm mem c m n al be pr x = mem x.
  Proof. intros. unfold gemm. apply store_out. auto. Qed.

  Lemma holds_out : forall mem mem' p n m f q len, holds mem p m n m f -> disjoint p (n * m) q len ->
    (forall x, outside q len x -> mem' x = mem x) -> holds mem' p m n m f.
  Proof.
    intros mem mem' p n m f q len H D E i j I J. rewrite E; [apply H; auto|].
    pose proof (flat_lt n m i j I J). unfold outside, disjoint in *. lia.
  Qed.

  Section Fast.
    Variables (n1 n2 : nat) (f Pi Si : nat -> nat -> R).
    Hypothesis fsym : symm (n1 + n2) f.
    Hypothesis HP : inv_of n1 f Pi.
    Hypothesis HS : inv_of n2 (Sch n1 f Pi) Si.
    Variables (Pinv Q PN SN wk : nat).
    Hypothesis d1 : disjoint Pinv (n1 * n1) SN (n2 * n2).
    Hypothesis d2 : disjoint Pinv (n1 * n1) Q (n1 * n2).
    Hypothesis d3 : disjoint Pinv (n1 * n1) PN (n1 * n1).
    Hypothesis d4 : disjoint wk (n1 * n2) SN (n2 * n2).
    Hypothesis d5 : disjoint wk (n1 * n2) Q (n1 * n2).
    Hypothesis d6 : disjoint wk (n1 * n2) PN (n1 * n1).
    Hypothesis d7 : disjoint SN (n2 * n2) Q (n1 * n2).
    Hypothesis d8 : disjoint SN (n2 * n2) PN (n1 * n1).
    Hypothesis d9 : disjoint Q (n1 * n2) PN (n1 * n1).

    Lemma fast_end_ok : forall mem,
      holds mem Pinv n1 n1 n1 Pi -> holds mem Q n2 n1 n2 (fun i j => f i (n1 + j)%nat) ->
      holds mem SN n2 n2 n2 (fun i j => f (n1 + i)%nat (n1 + j)%nat) -> holds mem wk n2 n1 n2 (PQ n1 f Pi) ->
      let '(mem', ld) := fast_end dsytrf dsytri mem Pinv Q n1 n2 PN SN Q wk in
      holds mem' PN n1 n1 n1 (newP n1 n2 f Pi Si) /\ holds mem' Q n2 n1 n2 (newQ n1 n2 f Pi Si) /\ holds mem' SN n2 n2 n2 Si /\
      (forall x, outside PN (n1 * n1) x -> outside Q (n1 * n2) x -> outside SN (n2 * n2) x -> mem' x = mem x) /\
      (spd (n1 + n2) f -> ld = ln (detn n2 (Sch n1 f Pi))).
    Proof.
      intros mem H1 H2 H3 H4. unfold fast_end.
      set (m1 := multiply_mat_MN_transposeA_alpha_beta mem Q wk SN n2 n2 n1 (-1) 1).
      assert (E1 : holds m1 SN n2 n2 n2 (Sch n1 f Pi)).
      { intros i j I J. unfold m1, multiply_mat_MN_transposeA_alpha_beta. rewrite gemm_in by auto.
        rewrite H3 by auto. unfold Sch.
        rewrite (sumn_ext n1 _ (fun l => f l (n1 + i)%nat * PQ n1 f Pi l j)).
        - ring.
        - intros l L. rewrite H2, H4 by auto. reflexivity. }
      assert (O1 : forall x, outside SN (n2 * n2) x -> m1 x = mem x) by (intros; apply gemm_out; auto).
      pose proof (inverse_symat_lndet_ok m1 SN n2 (Sch n1 f Pi) Si) as IV.
      destruct (inverse_symat_lndet dsytrf dsytri m1 SN n2) as [m2 ld].
      destruct IV as (I1 & I2 & I3); [intros; apply E1; lia|exact (Sch_symm fsym HP)|exact HS|].
      set (m3 := multiply_mat_MN_alpha_beta m2 wk SN Q n1 n2 n2 (-1) 0).
      assert (W2 : holds m2 wk n2 n1 n2 (PQ n1 f Pi)).
      { apply (holds_out m1 m2 wk n1 n2 _ SN (n2 * n2)%nat); auto. apply (holds_out mem m1 wk n1 n2 _ SN (n2 * n2)%nat); auto. }
      assert (E3 : holds m3 Q n2 n1 n2 (newQ n1 n2 f Pi Si)).
      { intros i j I J. unfold m3, multiply_mat_MN_alpha_beta. rewrite gemm_in by auto. unfold newQ.
        rewrite (sumn_ext n2 _ (fun l => PQ n1 f Pi i l * Si l j)); [ring|].
        intros l L. rewrite W2 by auto. rewrite I1 by auto. reflexivity. }
      assert (O3 : forall x, outside Q (n1 * n2) x -> m3 x = m2 x) by (intros; apply gemm_out; auto).
      set (m4 := memcpy m3 PN Pinv (n1 * n1)).
      assert (O4 : forall x, outside PN (n1 * n1) x -> m4 x = m3 x).
      { intros x X. unfold m4, memcpy, outside in *. destruct (Nat.leb_spec PN x), (Nat.ltb_spec x (PN + n1 * n1)); simpl; auto. lia. }
      assert (P3 : holds m3 Pinv n1 n1 n1 Pi).
      { apply (holds_out m2 m3 Pinv n1 n1 _ Q (n1 * n2)%nat); auto. apply (holds_out m1 m2 Pinv n1 n1 _ SN (n2 * n2)%nat); auto.
        apply (holds_out mem m1 Pinv n1 n1 _ SN (n2 * n2)%nat); auto. }
      assert (E4 : holds m4 PN n1 n1 n1 Pi).
      { intros i j I J. unfold m4, memcpy. pose proof (flat_lt n1 n1 i j I J).
        destruct (Nat.leb_spec PN (PN + i * n1 + j)); [|lia]. destruct (Nat.ltb_spec (PN + i * n1 + j) (PN + n1 * n1)); [|lia]. simpl.
        replace (Pinv + (PN + i * n1 + j - PN))%nat with (Pinv + i * n1 + j)%nat by lia. apply P3; auto. }
      set (m5 := multiply_mat_MN_transposeB_alpha_beta m4 Q wk PN n1 n1 n2 (-1) 1).
      assert (O5 : forall x, outside PN (n1 * n1) x -> m5 x = m4 x) by (intros; apply gemm_out; auto).
      assert (Q4 : holds m4 Q n2 n1 n2 (newQ n1 n2 f Pi Si)) by (apply (holds_out m3 m4 Q n1 n2 _ PN (n1 * n1)%nat); auto).
      assert (W4 : holds m4 wk n2 n1 n2 (PQ n1 f Pi)).
      { apply (holds_out m3 m4 wk n1 n2 _ PN (n1 * n1)%nat); auto. apply (holds_out m2 m3 wk n1 n2 _ Q (n1 * n2)%nat); auto. }
      split; [|split; [|split; [|split]]].
      - intros i j I J. unfold m5, multiply_mat_MN_transposeB_alpha_beta. rewrite gemm_in by auto. rewrite E4 by auto.
        rewrite (sumn_ext n2 _ (fun l => -1 * (sumn n2 (fun q => PQ n1 f Pi i q * Si q l) * PQ n1 f Pi j l))).
        + rewrite sumn_scal. unfold newP. ring.
        + intros l L. rewrite Q4, W4 by auto. unfold newQ. ring.
      - apply (holds_out m4 m5 Q n1 n2 _ PN (n1 * n1)%nat); auto.
      - apply (holds_out m4 m5 SN n2 n2 _ PN (n1 * n1)%nat); auto. apply (holds_out m3 m4 SN n2 n2 _ PN (n1 * n1)%nat); auto.
        apply (holds_out m2 m3 SN n2 n2 _ Q (n1 * n2)%nat); auto.
      - intros x X1 X2 X3. rewrite O5, O4, O3, I2, O1 by auto. reflexivity.
      - intros PD. apply I3. apply spd_schur with (1 := PD). exact HP.
    Qed.
  End Fast.

  (** One pass over the loop: C is the full matrix. *)
  Section Pass.
    Variables (nt A wk : nat) (C : nat -> nat -> R).
    Hypothesis Csym : symm nt C.
    Hypothesis dAw : disjoint A (nt * nt) wk (2 * (nt * nt)).
    Variables (ni nq : nat).
    Hypothesis fits : (ni + nq <= nt)%nat.
    Notation N := (ni + nq)%nat.

    (** P^-1 Q is put into the last part of the work array. *)
    Definition prepares (pre : arr -> nat -> nat -> nat -> nat -> nat -> arr) : Prop :=
      forall Pi mem Pinv Q w, inv_of ni C Pi -> holds mem Pinv ni ni ni Pi -> holds mem Q nq ni nq (fun i j => C i (ni + j)%nat) ->
        disjoint w (ni * nq) Pinv (ni * ni) -> disjoint w (ni * nq) Q (ni * nq) ->
        holds (pre mem Pinv Q ni nq w) w nq ni nq (PQ ni C Pi) /\
        (forall x, outside w (ni * nq) x -> pre mem Pinv Q ni nq w x = mem x).

    Lemma fast_prepares : prepares (fun mem Pinv Q n1 n2 w => multiply_mat_MN mem Pinv Q w n1 n2 n1).
    Proof.
      intros Pi mem Pinv Q w HI HPi HQ D1 D2. split.
      - intros i j I J. unfold multiply_mat_MN. rewrite gemm_in by auto. unfold PQ.
        rewrite (sumn_ext ni _ (fun l => Pi i l * C l (ni + j)%nat)); [ring|]. intros l L. rewrite HPi, HQ by auto. reflexivity.
      - intros x X. apply gemm_out. auto.
    Qed.

    Lemma pass_ok : forall pre solve narr np k mem ld Pi,
      narr k = nq -> prepares pre ->
      (forall mem Pinv Q PN SN w, solve k mem Pinv Q ni nq PN SN Q w = fast_end dsytrf dsytri (pre mem Pinv Q ni nq w) Pinv Q ni nq PN SN Q w) ->
      holds mem A nt nt nt C -> inv_of ni C Pi -> holds mem wk ni ni ni Pi -> (exists B, inv_of N C B) ->
      let '(Ai, ni', mem', ld') := part_pass solve A nt narr np k (wk, ni, mem, ld) in
      Ai = (if Nat.eqb k np then A else wk) /\ ni' = N /\
      (exists B, inv_of N C B /\ holds mem' Ai N N N B) /\
      (k <> np -> holds mem' A nt nt nt C) /\
      (spd nt C -> ld = ln (detn ni C) -> ld' = ln (detn N C)).
    Proof.
      intros pre solve narr np k mem ld Pi NK PRE SOL HA HI HW EXB. unfold part_pass. rewrite NK.
      set (AN := (wk + nt * nt)%nat). set (QN := (AN + ni * ni)%nat). set (SN := (QN + ni * nq)%nat). set (pw := (SN + nq * nq)%nat).
      assert (SZ : (ni * ni + ni * nq + nq * nq + ni * nq <= nt * nt)%nat) by nia.
      assert (SZ2 : (N * N = ni * ni + ni * nq + nq * nq + ni * nq)%nat) by lia.
      assert (CsymN : symm N C) by (intros i j I J; apply Csym; lia).
      assert (AB : forall i j, (i < nt)%nat -> (j < nt)%nat -> (A <= A + i * nt + j < A + nt * nt)%nat).
      { intros i j I J. pose proof (flat_lt nt nt i j I J). lia. }
      set (T := (nt * nt)%nat) in *. clearbody T.
      set (a := (ni * ni)%nat) in *. set (b := (ni * nq)%nat) in *. set (c := (nq * nq)%nat) in *.
      destruct (get_Q_ok mem A nt ni nq QN) as [GQ1 GQ2].
      { intros i j I J. fold b. specialize (AB i (ni + j)%nat ltac:(lia) ltac:(lia)). unfold outside, disjoint, QN, AN in *. lia. }
      set (m1 := get_Q mem A nt ni nq QN) in *.
      destruct (get_S_ok m1 A nt ni nq SN) as [GS1 GS2].
      { intros i j I J. fold c. specialize (AB (ni + i)%nat (ni + j)%nat ltac:(lia) ltac:(lia)). unfold outside, disjoint, SN, QN, AN in *. lia. }
      set (m2 := get_S m1 A nt ni nq SN) in *.
      fold b in GQ2. fold c in GS2.
      assert (A1 : holds m1 A nt nt nt C).
      { intros i j I J. rewrite GQ2; [apply HA; auto|]. specialize (AB i j I J). unfold outside, disjoint, QN, AN in *. lia. }
      assert (A2 : holds m2 A nt nt nt C).
      { intros i j I J. rewrite GS2; [apply A1; auto|]. specialize (AB i j I J). unfold outside, disjoint, SN, QN, AN in *. lia. }
      assert (Q2 : holds m2 QN nq ni nq (fun i j => C i (ni + j)%nat)).
      { intros i j I J. rewrite GS2.
        - rewrite GQ1 by auto. apply HA; lia.
        - pose proof (flat_lt ni nq i j I J) as FL. fold b in FL. unfold outside, SN. lia. }
      assert (S2 : holds m2 SN nq nq nq (fun i j => C (ni + i)%nat (ni + j)%nat)).
      { intros i j I J. rewrite GS1 by auto. apply A1; lia. }
      assert (W2 : holds m2 wk ni ni ni Pi).
      { intros i j I J. pose proof (flat_lt ni ni i j I J) as FL. fold a in FL.
        rewrite GS2, GQ2; [apply HW; auto| |]; unfold outside, SN, QN, AN; lia. }
      destruct (PRE Pi m2 wk QN pw HI W2 Q2) as [P1 P2].
      { fold a b. unfold disjoint, pw, SN, QN, AN. lia. }
      { fold b. unfold disjoint, pw, SN, QN, AN. lia. }
      set (m3 := pre m2 wk QN ni nq pw) in *. fold b in P2.
      (* inverse of the Schur complement *)
      assert (DS : detn N C = detn ni C * detn nq (Sch ni C Pi)) by (exact (schur_det CsymN HI)).
      assert (DN : detn N C <> 0) by (apply det_inv; exact EXB).
      assert (EXS : exists Si, inv_of nq (Sch ni C Pi) Si).
      { apply det_inv. intros Z. apply DN. rewrite DS, Z. ring. }
      destruct EXS as [Si HSi].
      rewrite (SOL m2 wk QN AN SN pw). fold m3.
      pose proof (fast_end_ok ni nq C Pi Si CsymN HI HSi wk QN AN SN pw) as FE.
      fold a b c in FE.
      assert (FE' : let '(mem', ld0) := fast_end dsytrf dsytri m3 wk QN ni nq AN SN QN pw in
        holds mem' AN ni ni ni (newP ni nq C Pi Si) /\ holds mem' QN nq ni nq (newQ ni nq C Pi Si) /\ holds mem' SN nq nq nq Si /\
        (forall x, outside AN a x -> outside QN b x -> outside SN c x -> mem' x = m3 x) /\
        (spd N C -> ld0 = ln (detn nq (Sch ni C Pi)))).
      { apply FE; try (unfold disjoint, pw, SN, QN, AN; lia).
        - intros i j I J. rewrite P2; [apply W2; auto|]. pose proof (flat_lt ni ni i j I J) as FL. fold a in FL. unfold outside, pw, SN, QN, AN. lia.
        - intros i j I J. rewrite P2; [apply Q2; auto|]. pose proof (flat_lt ni nq i j I J) as FL. fold b in FL. unfold outside, pw, SN. lia.
        - intros i j I J. rewrite P2; [apply S2; auto|]. pose proof (flat_lt nq nq i j I J) as FL. fold c in FL. unfold outside, pw. lia.
        - exact P1. }
      clear FE.
      destruct (fast_end dsytrf dsytri m3 wk QN ni nq AN SN QN pw) as [m4 ldS].
      destruct FE' as (F1 & F2 & F3 & F4 & F5).
      set (Ai := if Nat.eqb k np then A else wk).
      assert (AIB : (Ai = A \/ Ai = wk)) by (unfold Ai; destruct (Nat.eqb k np); auto).
      assert (NT : (N * N <= T)%nat) by lia.
      destruct (new_A_ok m4 Ai AN QN SN ni nq) as [NA1 NA2].
      { fold a. destruct AIB as [->| ->]; unfold disjoint, AN in *; lia. }
      { fold b. destruct AIB as [->| ->]; unfold disjoint, QN, AN in *; lia. }
      { fold c. destruct AIB as [->| ->]; unfold disjoint, SN, QN, AN in *; lia. }
      split; [reflexivity|]. split; [reflexivity|]. split; [|split].
      - exists (newA ni nq C Pi Si). split; [exact (schur_inv CsymN HI HSi)|].
        intros i j I J. rewrite NA1 by auto. unfold newA, blockf.
        destruct (Nat.ltb_spec i ni), (Nat.ltb_spec j ni).
        + apply F1; auto.
        + apply F2; lia.
        + apply F2; lia.
        + apply F3; lia.
      - intros KN i j I J. unfold Ai in NA2. destruct (Nat.eqb_spec k np); [congruence|].
        specialize (AB i j I J).
        rewrite NA2, F4, P2; [apply A2; auto|..]; unfold outside, disjoint, pw, SN, QN, AN in *; lia.
      - intros PD E. assert (PN : spd N C).
        { replace nt with (N + (nt - N))%nat in PD by lia. apply spd_lead in PD. exact PD. }
        rewrite DS. rewrite ln_mult.
        + rewrite E. rewrite F5 by exact PN. reflexivity.
        + apply spd_det. apply spd_lead in PN. exact PN.
        + apply spd_det. apply spd_schur with (1 := PN). exact HI.
    Qed.
  End Pass.

  (** Sizes: partial sums of narr. *)
  Fixpoint psum (narr : nat -> nat) (k : nat) : nat := match k with O => 0%nat | S q => (psum narr q + narr q)%nat end.
  Lemma psum_le : forall narr k k', (k <= k')%nat -> (psum narr k <= psum narr k')%nat.
  Proof. intros narr k k' H. induction H; [lia|]. simpl. lia. Qed.

  Section Iter.
    Variables (nt A wk : nat) (C : nat -> nat -> R) (narr : nat -> nat) (np : nat).
    Hypothesis Csym : symm nt C.
    Hypothesis dAw : disjoint A (nt * nt) wk (2 * (nt * nt)).
    Hypothesis sizes : psum narr (S np) = nt.
    Hypothesis np1 : (1 <= np)%nat.
    Hypothesis leading : forall k, (1 <= k <= S np)%nat -> detn (psum narr k) C <> 0.
    Variable solve : nat -> arr -> nat -> nat -> nat -> nat -> nat -> nat -> nat -> nat -> arr * R.
    Hypothesis solve_ok : forall k, (1 <= k <= np)%nat -> exists pre, prepares C (psum narr k) (narr k) pre /\
      forall mem Pinv Q PN SN w, solve k mem Pinv Q (psum narr k) (narr k) PN SN Q w =
        fast_end dsytrf dsytri (pre mem Pinv Q (psum narr k) (narr k) w) Pinv Q (psum narr k) (narr k) PN SN Q w.

    Lemma loop_ok : forall mem ld Pi, holds mem A nt nt nt C -> inv_of (narr 0%nat) C Pi ->
      holds mem wk (narr 0%nat) (narr 0%nat) (narr 0%nat) Pi ->
      let '(_, _, mem', ld') := for_ 1 np (part_pass solve A nt narr np) (wk, narr 0%nat, mem, ld) in
      (exists B, inv_of nt C B /\ holds mem' A nt nt nt B) /\
      (spd nt C -> ld = ln (detn (narr 0%nat) C) -> ld' = ln (detn nt C)).
    Proof.
      intros mem ld Pi HA HI HW.
      set (P := fun k (s : nat * nat * arr * R) => let '(Ai, ni, m, l) := s in
        ni = psum narr k /\ (spd nt C -> ld = ln (detn (narr 0%nat) C) -> l = ln (detn (psum narr k) C)) /\
        (exists B, inv_of (psum narr k) C B /\ holds m Ai (psum narr k) (psum narr k) (psum narr k) B) /\
        if Nat.leb k np then Ai = wk /\ holds m A nt nt nt C else Ai = A).
      assert (G : P (1 + np)%nat (for_ 1 np (part_pass solve A nt narr np) (wk, narr 0%nat, mem, ld))).
      { apply for_inv.
        - unfold P. simpl psum. split; [reflexivity|]. split; [auto|]. split; [exists Pi; auto|].
          destruct (Nat.leb_spec 1 np); [auto|lia].
        - intros k [[[Ai ni] m] l] K. unfold P. intros (-> & HL & (B & HB1 & HB2) & HK).
          destruct (Nat.leb_spec k np); [|lia]. destruct HK as [-> HmA].
          destruct (solve_ok k) as (pre & PR & SO); [lia|].
          assert (FIT : (psum narr k + narr k <= nt)%nat).
          { rewrite <- sizes. change (psum narr k + narr k)%nat with (psum narr (S k)). apply psum_le. lia. }
          assert (EX : exists B0, inv_of (psum narr k + narr k) C B0).
          { apply det_inv. change (psum narr k + narr k)%nat with (psum narr (S k)). apply leading. lia. }
          pose proof (pass_ok nt A wk C Csym dAw (psum narr k) (narr k) FIT pre solve narr np k m l B eq_refl PR SO HmA HB1 HB2 EX) as PO.
          destruct (part_pass solve A nt narr np k (wk, psum narr k, m, l)) as [[[Ai' ni'] m'] l'].
          destruct PO as (E1 & E2 & E3 & E4 & E5). split; [exact E2|]. split; [|split; [exact E3|]].
          + intros PD E. apply E5; auto.
          + destruct (Nat.eqb_spec k np).
            * destruct (Nat.leb_spec (S k) np); [lia|exact E1].
            * destruct (Nat.leb_spec (S k) np); [|lia]. split; [exact E1|auto]. }
      destruct (for_ 1 np (part_pass solve A nt narr np) (wk, narr 0%nat, mem, ld)) as [[[Ai ni] m] l].
      unfold P in G. destruct G as (_ & G1 & G2 & G3). destruct (Nat.leb_spec (1 + np) np); [lia|]. subst Ai.
      change (1 + np)%nat with (S np) in *. rewrite sizes in *. auto.
    Qed.

  End Iter.

  Theorem partition_iter_ok : forall nt A wk C narr np mem,
    symm nt C -> disjoint A (nt * nt) wk (2 * (nt * nt)) -> psum narr (S np) = nt -> (1 <= np)%nat ->
    (forall k, (1 <= k <= S np)%nat -> detn (psum narr k) C <> 0) ->
    holds mem A nt nt nt C ->
    let '(mem', ld) := inverse_symat_partition_iter dsytrf dsytri mem A nt narr np wk in
    (exists B, inv_of nt C B /\ holds mem' A nt nt nt B) /\ (spd nt C -> ld = ln (detn nt C)).
  Proof.
    intros nt A wk C narr np mem Csym D SZ NP LD HA. unfold inverse_symat_partition_iter.
    assert (N0 : (narr 0 <= nt)%nat). { rewrite <- SZ. change (narr 0%nat) with (psum narr 1). apply psum_le. lia. }
    assert (AB : forall i j, (i < nt)%nat -> (j < nt)%nat -> (A <= A + i * nt + j < A + nt * nt)%nat).
    { intros i j I J. pose proof (flat_lt nt nt i j I J). lia. }
    assert (SQ : (narr 0 * narr 0 <= nt * nt)%nat) by nia.
    destruct (copy_upper_ok mem A nt (narr 0%nat) wk) as [CU1 CU2].
    { intros i j H. specialize (AB i j ltac:(lia) ltac:(lia)). unfold outside, disjoint in *. lia. }
    set (m1 := for_ 0 (narr 0%nat) _ mem) in *.
    assert (EX : exists B, inv_of (narr 0%nat) C B). { apply det_inv. apply (LD 1%nat). lia. }
    destruct EX as [Pi HPi].
    pose proof (inverse_symat_lndet_ok m1 wk (narr 0%nat) C Pi) as IV.
    destruct (inverse_symat_lndet dsytrf dsytri m1 wk (narr 0%nat)) as [m2 ld].
    destruct IV as (I1 & I2 & I3).
    { intros i j H. rewrite CU1 by auto. apply HA; lia. }
    { intros i j I J. apply Csym; lia. }
    { exact HPi. }
    assert (HA2 : holds m2 A nt nt nt C).
    { intros i j I J. specialize (AB i j I J). rewrite I2, CU2; [apply HA; auto|..]; unfold outside, disjoint in *; lia. }
    pose proof (loop_ok nt A wk C narr np Csym D SZ NP LD
      (fun _ mem Pinv Q n1 n2 PN SN QN work => inverse_symat_lndet_partition_inv_fast dsytrf dsytri mem Pinv Q n1 n2 PN SN QN work)) as LO.
    specialize (LO ltac:(intros k _; exists (fun mem Pinv Q n1 n2 w => multiply_mat_MN mem Pinv Q w n1 n2 n1); split; [apply fast_prepares|reflexivity])).
    specialize (LO m2 ld Pi HA2 HPi I1).
    destruct (for_ 1 np _ _) as [[[Ai ni] m3] l]. destruct LO as [L1 L2]. split; [exact L1|].
    intros PD. apply L2; [exact PD|]. apply I3.
    replace nt with (narr 0%nat + (nt - narr 0%nat))%nat in PD by lia. apply spd_lead in PD. exact PD.
  Qed.

  (** The variant that starts from the fast solver. *)
  Theorem semiseparable_iter_ok : forall tri lau t a1 c1 sigma syserr W0 D0 phi0 nt A wk C narr np mem,
    dtrtri_spec tri -> dlauum_spec lau -> (1 <= narr 0)%nat -> 0 < a1 -> 0 < c1 ->
    (forall i, (S i < narr 0)%nat -> t i <= t (S i)) ->
    (forall i, (S i < narr 0)%nat -> t i < t (S i) \/ 0 < noise sigma syserr i) ->
    (forall i j, (i < narr 0)%nat -> (j < narr 0)%nat -> C i j = Cq t sigma a1 c1 syserr i j) ->
    symm nt C -> disjoint A (nt * nt) wk (2 * (nt * nt)) -> psum narr (S np) = nt -> (1 <= np)%nat ->
    (forall k, (1 <= k <= S np)%nat -> detn (psum narr k) C <> 0) ->
    holds mem A nt nt nt C ->
    let '(mem', ld) := inverse_semiseparable_iter dsytrf dsytri tri lau t a1 c1 sigma syserr W0 D0 phi0 mem A nt narr np wk in
    (exists B, inv_of nt C B /\ holds mem' A nt nt nt B) /\ (spd nt C -> ld = ln (detn nt C)).
  Proof.
    intros tri lau t a1 c1 sigma syserr W0 D0 phi0 nt A wk C narr np mem HT HL N1 A1 C1 SO NO CC Csym D SZ NP LD HA.
    unfold inverse_semiseparable_iter.
    assert (N0 : (narr 0 <= nt)%nat). { rewrite <- SZ. change (narr 0%nat) with (psum narr 1). apply psum_le. lia. }
    assert (SQ : (narr 0 * narr 0 <= nt * nt)%nat) by nia.
    pose proof (inverse_ok tri lau HT HL t sigma a1 c1 syserr (narr 0%nat) N1 A1 SO C1 NO W0 D0 phi0 (fun x => mem (wk + x)%nat)) as IO.
    destruct (inverse_semiseparable tri lau t (narr 0%nat) a1 c1 sigma syserr W0 D0 phi0 (fun x => mem (wk + x)%nat)) as [[B ld] [[W Dd] phi]].
    destruct IO as (I1 & I2 & I3 & I4).
    set (m2 := store mem wk (narr 0%nat) (narr 0%nat) (fun i j => B (i * narr 0 + j)%nat)).
    assert (HPi : inv_of (narr 0%nat) C (fun i j => B (i * narr 0 + j)%nat)).
    { intros i j I J. rewrite <- (I1 i j I J). apply sumn_ext. intros k K. rewrite CC by auto. reflexivity. }
    assert (HW : holds m2 wk (narr 0%nat) (narr 0%nat) (narr 0%nat) (fun i j => B (i * narr 0 + j)%nat)).
    { intros i j I J. unfold m2. rewrite (store_in mem wk (narr 0%nat) (narr 0%nat) (fun i j => B (i * narr 0 + j)%nat)); auto. }
    assert (HA2 : holds m2 A nt nt nt C).
    { intros i j I J. unfold m2. rewrite store_out; [apply HA; auto|]. pose proof (flat_lt nt nt i j I J). unfold disjoint in *. lia. }
    pose proof (loop_ok nt A wk C narr np Csym D SZ NP LD
      (fun k mem Pinv Q n1 n2 PN SN QN work =>
         if Nat.eqb k 1 then inverse_symat_lndet_partition_inv_semiseparable dsytrf dsytri mem W Dd phi a1 Pinv Q n1 n2 PN SN QN work
         else inverse_symat_lndet_partition_inv_fast dsytrf dsytri mem Pinv Q n1 n2 PN SN QN work)) as LO.
    match type of LO with ?a -> _ => assert (SK : a) end.
    { intros k K. destruct (Nat.eqb_spec k 1) as [->|NE].
      - exists (fun mem Pinv Q n1 n2 w => store mem w n1 n2 (fun i j =>
          multiply_mat_semiseparable_drw (fun x => mem (Q + x)%nat) W Dd phi n1 n2 a1 (fun x => mem (w + x)%nat) (i * n2 + j)%nat)).
        split; [|reflexivity].
        change (psum narr 1) with (narr 0%nat).
        intros Pi m Pinv Q w HI HPv HQ D1 D2. split; [|intros x X; apply store_out; auto].
        intros i j I J.
        rewrite (store_in m w (narr 0%nat) (narr 1%nat) (fun i j =>
          multiply_mat_semiseparable_drw (fun x => m (Q + x)%nat) W Dd phi (narr 0%nat) (narr 1%nat) a1 (fun x => m (w + x)%nat) (i * narr 1 + j)%nat)) by auto.
        set (Z := multiply_mat_semiseparable_drw _ W Dd phi (narr 0%nat) (narr 1%nat) a1 _).
        (* C Z = Q, hence Z = Pi Q *)
        assert (CZ : forall q, (q < narr 0)%nat -> sumn (narr 0%nat) (fun l => C q l * Z (l * narr 1 + j)%nat) = C q (narr 0 + j)%nat).
        { intros q Hq.
          pose proof (solves t sigma a1 c1 syserr A1 (narr 0%nat) SO C1 NO _ _
            (mat_solve t sigma a1 c1 syserr (narr 0%nat) (narr 1%nat) N1 W Dd phi I4 (fun i j => (i * narr 1 + j)%nat)
              (fun x => m (Q + x)%nat) (fun x => m (w + x)%nat) j J) q Hq) as G.
          cbv beta zeta in G. unfold Z.
          transitivity (m (Q + (q * narr 1 + j))%nat).
          - rewrite <- G. apply sumn_ext. intros l L. rewrite CC by auto. reflexivity.
          - rewrite Nat.add_assoc. apply HQ; auto. }
        unfold PQ. symmetry.
        rewrite (sumn_ext (narr 0%nat) _ (fun q => sumn (narr 0%nat) (fun l => Pi i q * C q l * Z (l * narr 1 + j)%nat))).
        2: { intros q Hq. rewrite <- CZ by auto. rewrite <- sumn_scal. apply sumn_ext. intros; ring. }
        rewrite sumn_swap.
        rewrite (sumn_ext (narr 0%nat) _ (fun l => delta i l * Z (l * narr 1 + j)%nat)).
        2: { intros l L. rewrite sumn_opp_ext. rewrite (right_left HI I L). reflexivity. }
        rewrite (sumn_single (narr 0%nat) i); auto.
        + unfold delta. rewrite Nat.eqb_refl. ring.
        + intros l L NE. unfold delta. destruct (Nat.eqb_spec i l); [congruence|]. ring.
      - exists (fun mem Pinv Q n1 n2 w => multiply_mat_MN mem Pinv Q w n1 n2 n1). split; [apply fast_prepares|reflexivity]. }
    specialize (LO SK m2 ld _ HA2 HPi HW).
    destruct (for_ 1 np _ _) as [[[Ai ni] m3] l]. destruct LO as [L1 L2]. split; [exact L1|].
    intros PD. apply L2; [exact PD|]. rewrite I3.
    destruct (lndet_ok t sigma a1 c1 syserr (narr 0%nat) N1 A1 SO C1 NO) as [_ E]. rewrite E. f_equal.
    apply detn_ext. intros i j I J. symmetry. apply CC; auto.
  Qed.
End Contract.
