(** The inverse routine, the determinant and positive definiteness. *)
From Coq Require Import Reals List Arith Lia Lra Psatz.
From Verif Require Import SemisepModel SemisepProofs SemisepProofs2 MatBridge.
Import ListNotations.
Open Scope R_scope.

(** Lower triangle of a flat n x n array. *)
Definition low (n : nat) (A : arr) (i j : nat) : R := if Nat.leb j i then A (i * n + j)%nat else 0.
(** LAPACK dtrtri('L','N'): the lower triangle of the result is the inverse of
    the lower triangle of the argument if the diagonal has no zero. *)
Definition dtrtri_spec (tri : nat -> arr -> arr) : Prop :=
  forall n A, (forall i, (i < n)%nat -> A (i * n + i)%nat <> 0) ->
  forall i j, (i < n)%nat -> (j < n)%nat -> sumn n (fun k => low n A i k * low n (tri n A) k j) = delta i j.
(** LAPACK dlauum('L'): the lower triangle of the result is that of L^T L. *)
Definition dlauum_spec (lau : nat -> arr -> arr) : Prop :=
  forall n A i j, (j <= i < n)%nat -> lau n A (i * n + j)%nat = sumn n (fun k => low n A k i * low n A k j).

Lemma sumn_opp_ext : forall n f c, sumn n (fun i => f i * c) = sumn n f * c.
Proof. intros. rewrite <- (Rmult_comm c), <- sumn_scal. apply sumn_ext. intros; ring. Qed.

Lemma ln_prodn : forall m f, (forall i, (i < m)%nat -> 0 < f i) -> 0 < prodn m f /\ ln (prodn m f) = sumn m (fun i => ln (f i)).
Proof.
  induction m; intros f H; simpl; [split; [lra|apply ln_1]|].
  destruct (IHm f) as [P E]; [intros; apply H; lia|]. assert (0 < f m) by (apply H; lia).
  split; [apply Rmult_lt_0_compat; auto|]. rewrite ln_mult, E by auto. reflexivity.
Qed.

Section Inv.
  Variables (tri lau : nat -> arr -> arr).
  Hypothesis Htri : dtrtri_spec tri.
  Hypothesis Hlau : dlauum_spec lau.
  Variables (t sigma : arr) (a1 c1 syserr : R) (n : nat).
  Hypothesis n1 : (1 <= n)%nat.
  Hypothesis a1_pos : 0 < a1.
  Hypothesis sorted : forall i, (S i < n)%nat -> t i <= t (S i).
  Hypothesis c1_pos : 0 < c1.
  Hypothesis noisy : forall i, (S i < n)%nat -> t i < t (S i) \/ 0 < noise sigma syserr i.

  Notation Dq := (Dq t sigma a1 c1 syserr).
  Notation Wq := (Wq t sigma a1 c1 syserr).
  Notation Lq := (Lq t sigma a1 c1 syserr).
  Notation Cq := (Cq t sigma a1 c1 syserr).

  Lemma fill_row : forall W D i A, (i < n)%nat ->
    let A' := fill_M t W D a1 c1 n i A in
    A' (i * n + i)%nat = sqrt (D i) /\
    (forall j, (j < i)%nat -> A' (i * n + j)%nat = a1 * (ee t c1 i j * W j) * sqrt (D j)) /\
    (forall r c, (r < n)%nat -> (c < n)%nat -> r <> i -> A' (r * n + c)%nat = A (r * n + c)%nat).
  Proof.
    intros W D i A I A'. unfold A', fill_M.
    set (body := fun j A => upd A (i * n + j) (a1 * (exp (- c1 * (t i - t j)) * W j) * sqrt (D j))).
    set (A1 := upd A (i * n + i) (1 * sqrt (D i))).
    pose proof (for_inv arr (fun c Z => Z (i * n + i)%nat = sqrt (D i) /\
      (forall j, (j < c)%nat -> Z (i * n + j)%nat = a1 * (ee t c1 i j * W j) * sqrt (D j)) /\
      (forall r c, (r < n)%nat -> (c < n)%nat -> r <> i -> Z (r * n + c)%nat = A (r * n + c)%nat)) 0 i body A1) as G.
    cbv beta in G. simpl in G. apply G.
    - unfold A1. split; [rewrite upd_same; ring|]. split; [intros; lia|].
      intros r c R C NE. apply upd_other. intros E. apply flat_inj in E; lia.
    - intros c Z C (H1 & H2 & H3). unfold body. split; [|split].
      + rewrite upd_other; [exact H1|lia].
      + intros j J. destruct (Nat.eq_dec j c) as [->|NE]; [rewrite upd_same; reflexivity|].
        rewrite upd_other by lia. apply H2. lia.
      + intros r c0 R C0 NE. rewrite upd_other; [apply H3; auto|]. intros E. apply flat_inj in E; lia.
  Qed.

  Definition Mq (i j : nat) : R := Lq i j * sqrt (Dq j).

  Lemma fill_all : forall W D A0, (forall i, (i < n)%nat -> W i = Wq i /\ D i = Dq i) ->
    let '(A, lndet) := for_ 0 n (fun i (s : arr * R) => let '(A, lndet) := s in
       (fill_M t W D a1 c1 n i A, lndet + ln (D i))) (A0, 0) in
    lndet = sumn n (fun i => ln (Dq i)) /\
    forall i j, (j <= i < n)%nat -> A (i * n + j)%nat = Mq i j.
  Proof.
    intros W D A0 H.
    set (body := fun i (s : arr * R) => let '(A, lndet) := s in (fill_M t W D a1 c1 n i A, lndet + ln (D i))).
    pose proof (for_inv (arr * R) (fun c s => snd s = sumn c (fun i => ln (Dq i)) /\
      forall i j, (j <= i < n)%nat -> (i < c)%nat -> fst s (i * n + j)%nat = Mq i j) 0 n body (A0, 0)) as G.
    cbv beta in G. simpl (0 + n)%nat in G.
    destruct (for_ 0 n body (A0, 0)) as [A lndet] eqn:EF.
    assert (G' : snd (A, lndet) = sumn n (fun i => ln (Dq i)) /\
      forall i j, (j <= i < n)%nat -> (i < n)%nat -> fst (A, lndet) (i * n + j)%nat = Mq i j).
    { apply G.
      - split; [reflexivity|]. intros; lia.
      - intros c [Z l] C [H1 H2]. unfold body. cbn [fst snd] in *. split.
        + simpl. rewrite H1. destruct (H c) as [_ ->]; [lia|]. reflexivity.
        + intros i j IJ IC. destruct (fill_row W D c Z) as (F1 & F2 & F3); [lia|]. cbv zeta in *.
          destruct (Nat.eq_dec i c) as [->|NE].
          * unfold Mq, SemisepProofs.Lq. destruct (Nat.eqb_spec c j) as [<-|NE].
            { rewrite F1. destruct (H c) as [_ ->]; [lia|]. ring. }
            { rewrite F2 by lia. destruct (Nat.ltb_spec j c); [|lia]. destruct (H j) as [-> ->]; [lia|]. reflexivity. }
          * rewrite F3 by lia. apply H2; lia. }
    destruct G' as [G1 G2]. split; [exact G1|]. intros i j IJ. apply G2; lia.
  Qed.

  Lemma mirror : forall A, let A' := for_ 0 n (fun i A => for_ (i + 1) (n - (i + 1)) (fun j A => upd A (i * n + j) (A (j * n + i)%nat)) A) A in
    forall i j, (j <= i < n)%nat -> A' (i * n + j)%nat = A (i * n + j)%nat /\ A' (j * n + i)%nat = A (i * n + j)%nat.
  Proof.
    intros A A'. unfold A'.
    pose proof (for_inv arr (fun r Z => (forall i j, (j <= i < n)%nat -> Z (i * n + j)%nat = A (i * n + j)%nat) /\
      (forall i j, (j <= i < n)%nat -> (j < r)%nat -> Z (j * n + i)%nat = A (i * n + j)%nat)) 0 n
      (fun i A => for_ (i + 1) (n - (i + 1)) (fun j A => upd A (i * n + j) (A (j * n + i)%nat)) A) A) as G.
    cbv beta in G. simpl (0 + n)%nat in G.
    match type of G with ?a -> ?b -> ?c => assert (G' : c) end.
    { apply G.
      - split; auto. intros; lia.
      - intros r Z R [H1 H2].
        pose proof (for_inv arr (fun c Y => (forall i j, (j <= i < n)%nat -> Y (i * n + j)%nat = A (i * n + j)%nat) /\
          (forall i j, (j <= i < n)%nat -> (j < r)%nat -> Y (j * n + i)%nat = A (i * n + j)%nat) /\
          (forall i, (r < i < c)%nat -> Y (r * n + i)%nat = A (i * n + r)%nat)) (r + 1) (n - (r + 1))
          (fun j A => upd A (r * n + j) (A (j * n + r)%nat)) Z) as K.
        cbv beta in K. replace (r + 1 + (n - (r + 1)))%nat with n in K by lia.
        match type of K with ?a -> ?b -> ?c => assert (K' : c) end.
        { apply K.
          - repeat split; auto. intros; lia.
          - intros c Y C (Q1 & Q2 & Q3). repeat split.
            + intros i j IJ. rewrite upd_other; [auto|]. intros E. apply flat_inj in E; lia.
            + intros i j IJ JR. rewrite upd_other; [auto|]. intros E. apply flat_inj in E; lia.
            + intros i I. destruct (Nat.eq_dec i c) as [->|NE].
              * rewrite upd_same. apply Q1. lia.
              * rewrite upd_other by lia. apply Q3. lia. }
        destruct K' as (K1 & K2 & K3). split; [exact K1|].
        intros i j IJ JR. destruct (Nat.eq_dec j r) as [->|NE]; [|apply K2; lia].
        destruct (Nat.eq_dec i r) as [->|NE]; [apply K1; lia|]. apply K3. lia. }
    destruct G' as [G1 G2]. intros i j IJ. split; [apply G1; auto|apply G2; lia].
  Qed.

  Lemma MMt : forall i j, (i < n)%nat -> (j < n)%nat -> sumn n (fun k => Mq i k * Mq j k) = Cq i j.
  Proof.
    intros i j I J. rewrite <- (LDL t sigma a1 c1 syserr a1_pos n sorted c1_pos noisy) by auto.
    apply sumn_ext. intros k K. unfold Mq.
    pose proof (Dq_pos t sigma a1 c1 syserr a1_pos n sorted c1_pos noisy k K).
    replace (Lq i k * sqrt (Dq k) * (Lq j k * sqrt (Dq k))) with (Lq i k * (sqrt (Dq k) * sqrt (Dq k)) * Lq j k) by ring.
    rewrite sqrt_sqrt by lra. reflexivity.
  Qed.

  Lemma Lq_upper : forall i j, (i < j)%nat -> Lq i j = 0.
  Proof. intros i j H. unfold SemisepProofs.Lq. destruct (Nat.eqb_spec i j); [lia|]. destruct (Nat.ltb_spec j i); [lia|reflexivity]. Qed.

  Theorem inverse_ok : forall W0 D0 phi0 A0,
    let '(A, lndet, (W, D, phi)) := inverse_semiseparable tri lau t n a1 c1 sigma syserr W0 D0 phi0 A0 in
    (forall i j, (i < n)%nat -> (j < n)%nat -> sumn n (fun k => Cq i k * A (k * n + j)%nat) = delta i j) /\
    (forall i j, (i < n)%nat -> (j < n)%nat -> A (i * n + j)%nat = A (j * n + i)%nat) /\
    lndet = sumn n (fun i => ln (Dq i)) /\
    (forall i, (i < n)%nat -> W i = Wq i /\ D i = Dq i /\ phi i = phq t c1 i).
  Proof.
    intros W0 D0 phi0 A0. unfold inverse_semiseparable.
    pose proof (drw_loop t sigma a1 c1 syserr n W0 D0 phi0 n1) as DL.
    destruct (compute_semiseparable_drw t n a1 c1 sigma syserr W0 D0 phi0) as [[W D] phi].
    pose proof (fill_all W D A0) as FA.
    destruct (for_ 0 n (fun i (s : arr * R) => let '(A, lndet) := s in (fill_M t W D a1 c1 n i A, lndet + ln (D i))) (A0, 0)) as [M lndet].
    destruct FA as [F1 F2]. { intros i I. destruct (DL i I) as (? & ? & _). auto. }
    set (N := tri n M). set (B := lau n N).
    pose proof (mirror B) as MR. cbv zeta in MR.
    set (A := for_ 0 n _ B) in *. clearbody A.
    assert (DP : forall i, (i < n)%nat -> 0 < Dq i) by (apply (Dq_pos t sigma a1 c1 syserr a1_pos n sorted c1_pos noisy)).
    assert (ML : forall i k, (i < n)%nat -> (k < n)%nat -> low n M i k = Mq i k).
    { intros i k I K. unfold low. destruct (Nat.leb_spec k i).
      - apply F2. lia.
      - unfold Mq. rewrite Lq_upper by lia. ring. }
    assert (MN : forall i j, (i < n)%nat -> (j < n)%nat -> sumn n (fun k => Mq i k * low n N k j) = delta i j).
    { intros i j I J. rewrite <- (Htri n M); auto.
      - apply sumn_ext. intros k K. rewrite ML by auto. reflexivity.
      - intros k K. rewrite F2 by lia. unfold Mq, SemisepProofs.Lq. rewrite Nat.eqb_refl.
        specialize (DP k K). pose proof (sqrt_lt_R0 _ DP). lra. }
    assert (NM := right_left MN).
    assert (AB : forall i j, (i < n)%nat -> (j < n)%nat -> A (i * n + j)%nat = sumn n (fun k => low n N k i * low n N k j)).
    { intros i j I J. destruct (le_lt_dec j i).
      - destruct (MR i j) as [-> _]; [lia|]. apply Hlau. lia.
      - destruct (MR j i) as [_ ->]; [lia|]. unfold B. rewrite Hlau by lia. apply sumn_ext. intros; ring. }
    split; [|split; [|split]].
    - intros i j I J.
      rewrite (sumn_ext n _ (fun k => sumn n (fun a => sumn n (fun b => Mq i a * (Mq k a * (low n N b k * low n N b j)))))).
      2: { intros k K. rewrite <- MMt by auto. rewrite AB by auto. rewrite <- sumn_opp_ext. apply sumn_ext. intros a Ha.
           rewrite <- sumn_scal. apply sumn_ext. intros; ring. }
      rewrite sumn_swap.
      rewrite (sumn_ext n _ (fun a => Mq i a * low n N a j)); [apply MN; auto|].
      intros a Ha. rewrite sumn_swap.
      rewrite (sumn_ext n _ (fun b => Mq i a * (low n N b j * sumn n (fun k => low n N b k * Mq k a)))).
      2: { intros b Hb. rewrite <- sumn_scal, <- sumn_scal. apply sumn_ext. intros; ring. }
      rewrite (sumn_single n a).
      + rewrite NM by auto. unfold delta. rewrite Nat.eqb_refl. ring.
      + exact Ha.
      + intros b Hb NE. rewrite NM by auto. unfold delta. destruct (Nat.eqb_spec b a); [congruence|]. ring.
    - intros i j I J. rewrite !AB by auto. apply sumn_ext. intros; ring.
    - exact F1.
    - exact DL.
  Qed.

  Lemma det_ok : detn n Cq = prodn n Dq.
  Proof.
    rewrite <- (@det_LDL n Lq Dq).
    - apply detn_ext. intros i j I J. symmetry. apply (LDL t sigma a1 c1 syserr a1_pos n sorted c1_pos noisy); apply I || apply J.
    - intros i j H _. apply Lq_upper. exact H.
    - intros i _. unfold SemisepProofs.Lq. rewrite Nat.eqb_refl. reflexivity.
  Qed.

  Lemma lndet_ok : 0 < detn n Cq /\ sumn n (fun i => ln (Dq i)) = ln (detn n Cq).
  Proof.
    rewrite det_ok. destruct (ln_prodn n Dq) as [P E]; [apply (Dq_pos t sigma a1 c1 syserr a1_pos n sorted c1_pos noisy)|]. auto.
  Qed.

  Lemma posdef : forall x, (exists i, (i < n)%nat /\ x i <> 0) ->
    0 < sumn n (fun i => sumn n (fun j => x i * Cq i j * x j)).
  Proof.
    intros x EX.
    assert (E : sumn n (fun i => sumn n (fun j => x i * Cq i j * x j)) =
      sumn n (fun k => Dq k * (sumn n (fun i => Lq i k * x i) * sumn n (fun i => Lq i k * x i)))).
    { rewrite (sumn_ext n _ (fun i => sumn n (fun k => Dq k * ((Lq i k * x i) * sumn n (fun j => Lq j k * x j))))).
      - rewrite sumn_swap. apply sumn_ext. intros k K. rewrite sumn_scal, sumn_opp_ext. reflexivity.
      - intros i I.
        rewrite (sumn_ext n _ (fun j => sumn n (fun k => Dq k * (Lq i k * x i) * (Lq j k * x j)))).
        + rewrite sumn_swap. apply sumn_ext. intros k K. rewrite sumn_scal. ring.
        + intros j J. rewrite <- (LDL t sigma a1 c1 syserr a1_pos n sorted c1_pos noisy) by auto.
          replace (x i * sumn n (fun k => Lq i k * Dq k * Lq j k) * x j) with (x i * x j * sumn n (fun k => Lq i k * Dq k * Lq j k)) by ring.
          rewrite <- sumn_scal. apply sumn_ext. intros; ring. }
    rewrite E.
    assert (DP : forall i, (i < n)%nat -> 0 < Dq i) by (apply (Dq_pos t sigma a1 c1 syserr a1_pos n sorted c1_pos noisy)).
    (* last non-zero component *)
    assert (LAST : exists p, (p < n)%nat /\ x p <> 0 /\ forall k, (p < k < n)%nat -> x k = 0).
    { clear - EX. induction n as [|m IH]; [destruct EX as (i & I & _); lia|].
      destruct (Req_dec (x m) 0) as [Z|Z].
      - destruct IH as (p & P1 & P2 & P3).
        + destruct EX as (i & I & X). exists i. split; auto. assert (i <> m) by (intros ->; auto). lia.
        + exists p. repeat split; auto. intros k K. destruct (Nat.eq_dec k m) as [->|]; auto. apply P3. lia.
      - exists m. repeat split; auto. intros; lia. }
    destruct LAST as (p & P1 & P2 & P3).
    assert (VP : sumn n (fun i => Lq i p * x i) = x p).
    { rewrite (sumn_single n p); auto.
      - unfold SemisepProofs.Lq. rewrite Nat.eqb_refl. ring.
      - intros i I NE. destruct (lt_eq_lt_dec i p) as [[H|H]|H].
        + rewrite Lq_upper by auto. ring.
        + congruence.
        + rewrite P3 by lia. ring. }
    rewrite (sumn_split n p) by lia. rewrite (sumn_split (n - p) 1) by lia.
    assert (NN : forall k, (k < n)%nat -> 0 <= Dq k * (sumn n (fun i => Lq i k * x i) * sumn n (fun i => Lq i k * x i))).
    { intros k K. specialize (DP k K). pose proof (Rle_0_sqr (sumn n (fun i => Lq i k * x i))) as SQ. unfold Rsqr in SQ. apply Rmult_le_pos; lra. }
    assert (0 <= sumn p (fun k => Dq k * (sumn n (fun i => Lq i k * x i) * sumn n (fun i => Lq i k * x i)))).
    { apply sumn_ge0. intros k K. apply NN. lia. }
    assert (0 <= sumn (n - p - 1) (fun i => Dq (p + (1 + i)) * (sumn n (fun i0 => Lq i0 (p + (1 + i))%nat * x i0) * sumn n (fun i0 => Lq i0 (p + (1 + i))%nat * x i0)))).
    { apply sumn_ge0. intros k K. apply NN. lia. }
    assert (0 < Dq p * (x p * x p)) by (apply Rmult_lt_0_compat; [apply DP; auto|nra]).
    assert (M1 : sumn 1 (fun i => Dq (p + i) * (sumn n (fun i0 => Lq i0 (p + i)%nat * x i0) * sumn n (fun i0 => Lq i0 (p + i)%nat * x i0))) = Dq p * (x p * x p)).
    { unfold sumn at 1. rewrite Nat.add_0_r, VP. ring. }
    cbv beta. rewrite M1. lra.
  Qed.
End Inv.
