(** The substitution loops compute the solution. *)
From Coq Require Import Reals List Arith Lia Lra Psatz.
From Verif Require Import SemisepModel SemisepProofs.
Import ListNotations.
Open Scope R_scope.

Section Subst.
  Variables (t sigma : arr) (a1 c1 syserr : R) (n : nat).
  Hypothesis n1 : (1 <= n)%nat.
  Variables W D phi : arr.
  Hypothesis WDphi : forall i, (i < n)%nat ->
    W i = Wq t sigma a1 c1 syserr i /\ D i = Dq t sigma a1 c1 syserr i /\ phi i = phq t c1 i.
  Variable ix : nat -> nat.
  Hypothesis ix_inj : forall i j, (i < n)%nat -> (j < n)%nat -> ix i = ix j -> i = j.
  Variable Y : arr.

  Notation zf := (zf t sigma a1 c1 syserr Y).
  Notation fz := (fz t sigma a1 c1 syserr Y).
  Notation Dq := (Dq t sigma a1 c1 syserr).
  Notation Wq := (Wq t sigma a1 c1 syserr).
  Notation gsum := (gsum t a1 c1 n).

  Definition gf_step (i : nat) (s : R * arr) : R * arr :=
    let '(f, Z) := s in
    let f := phi i * (f + W (i - 1)%nat * Z (ix (i - 1))) in
    (f, upd Z (ix i) (Y i - a1 * f)).
  Definition gfwd (Z : arr) : arr := snd (for_ 1 (n - 1) gf_step (0, upd Z (ix 0) (Y 0%nat))).
  Definition gb_step (i : nat) (s : R * arr) : R * arr :=
    let '(g, Z) := s in
    let g := phi (i + 1)%nat * (g + a1 * Z (ix (i + 1))) in
    (g, upd Z (ix i) (Z (ix i) / D i - W i * g)).
  Definition gbwd (Z : arr) : arr :=
    snd (for_down (n - 1) gb_step (0, upd Z (ix (n - 1)) (Z (ix (n - 1)) / D (n - 1)%nat))).

  Lemma gfwd_ok : forall Z, (forall i, (i < n)%nat -> gfwd Z (ix i) = zf i) /\
    (forall k, (forall i, (i < n)%nat -> k <> ix i) -> gfwd Z k = Z k).
  Proof.
    intros Z.
    set (P := fun i (s : R * arr) => fst s = fst (fz (i - 1)) /\
       (forall k, (k < i)%nat -> snd s (ix k) = zf k) /\
       (forall k, (forall i, (i < n)%nat -> k <> ix i) -> snd s k = Z k)).
    assert (G : P n (for_ 1 (n - 1) gf_step (0, upd Z (ix 0) (Y 0%nat)))).
    { replace n with (1 + (n - 1))%nat at 1 by lia. apply for_inv; unfold P.
      - cbn [fst snd]. split; [reflexivity|]. split.
        + intros k K. assert (k = 0)%nat by lia. subst. rewrite upd_same. reflexivity.
        + intros k K. apply upd_other. apply K. lia.
      - intros i [f Zs] Hi (H1 & H2 & H3). cbn [fst snd gf_step] in *.
        destruct i as [|i]; [lia|]. replace (S (S i) - 1)%nat with (S i) by lia. replace (S i - 1)%nat with i in * by lia.
        destruct (WDphi (S i)) as (_ & _ & EP); [lia|]. destruct (WDphi i) as (EW & _ & _); [lia|].
        assert (EF : phi (S i) * (f + W i * Zs (ix i)) = fst (fz (S i))).
        { rewrite EP, EW, H1, (H2 i) by lia. reflexivity. }
        rewrite EF. split; [reflexivity|]. split.
        + intros k K. destruct (Nat.eq_dec k (S i)) as [->|E].
          * rewrite upd_same. reflexivity.
          * rewrite upd_other; [apply H2; lia|]. intros E2. apply E. apply ix_inj; auto; lia.
        + intros k K. rewrite upd_other; [auto|]. apply K. lia. }
    destruct G as (_ & G2 & G3). split; assumption.
  Qed.

  Lemma gsum_ext : forall x x' i, (forall k, (i < k < n)%nat -> x k = x' k) -> gsum x i = gsum x' i.
  Proof. intros x x' i H. apply sumn_ext. intros k K. rewrite H by lia. reflexivity. Qed.

  Lemma gbwd_ok : forall Z, (forall i, (i < n)%nat -> Z (ix i) = zf i) ->
    (forall i, (i < n)%nat -> gbwd Z (ix i) = zf i / Dq i - Wq i * gsum (fun k => gbwd Z (ix k)) i) /\
    (forall k, (forall i, (i < n)%nat -> k <> ix i) -> gbwd Z k = Z k).
  Proof.
    intros Z HZ.
    set (P := fun i (s : R * arr) => fst s = gsum (fun k => snd s (ix k)) i /\
       (forall k, (i <= k < n)%nat -> snd s (ix k) = zf k / Dq k - Wq k * gsum (fun k => snd s (ix k)) k) /\
       (forall k, (k < i)%nat -> snd s (ix k) = zf k) /\
       (forall k, (forall i, (i < n)%nat -> k <> ix i) -> snd s k = Z k)).
    assert (G : P O (for_down (n - 1) gb_step (0, upd Z (ix (n - 1)) (Z (ix (n - 1)) / D (n - 1)%nat)))).
    { apply for_down_inv; unfold P.
      - cbn [fst snd]. assert (G0 : forall x, gsum x (n - 1) = 0).
        { intros x. unfold SemisepProofs.gsum. replace (n - S (n - 1))%nat with O by lia. reflexivity. }
        split; [symmetry; apply G0|]. split; [|split].
        + intros k K. assert (k = n - 1)%nat by lia. subst. rewrite G0. rewrite upd_same, HZ by lia.
          destruct (WDphi (n - 1)) as (_ & -> & _); [lia|]. ring.
        + intros k K. rewrite upd_other; [apply HZ; lia|]. intros E. apply ix_inj in E; lia.
        + intros k K. apply upd_other. apply K. lia.
      - intros i [g Zs] Hi (H1 & H2 & H3 & H4). cbn [fst snd gb_step] in *.
        replace (i + 1)%nat with (S i) by lia.
        destruct (WDphi (S i)) as (_ & _ & EP); [lia|]. destruct (WDphi i) as (EW & ED & _); [lia|].
        set (Zn := upd Zs (ix i) _).
        assert (NEQ : forall k, (k < n)%nat -> k <> i -> Zn (ix k) = Zs (ix k)).
        { intros k K NE. unfold Zn. apply upd_other. intros E. apply NE, ix_inj; auto; lia. }
        assert (EG : phi (S i) * (g + a1 * Zs (ix (S i))) = gsum (fun k => Zn (ix k)) i).
        { rewrite EP, H1. unfold phq. rewrite (gsum_step t a1 c1 n (fun k => Zn (ix k)) i) by lia.
          rewrite (gsum_ext (fun k => Zn (ix k)) (fun k => Zs (ix k)) (S i)) by (intros; apply NEQ; lia).
          rewrite (NEQ (S i)) by lia. reflexivity. }
        split; [exact EG|]. split; [|split].
        + intros k K. destruct (Nat.eq_dec k i) as [->|NE].
          * rewrite <- EG. unfold Zn. rewrite upd_same. rewrite EW, ED, (H3 i) by lia. reflexivity.
          * rewrite NEQ by (lia || auto). rewrite (H2 k) by lia. f_equal. f_equal. apply gsum_ext. intros q Q.
            rewrite NEQ by lia. reflexivity.
        + intros k K. rewrite NEQ by lia. apply H3. lia.
        + intros k K. unfold Zn. rewrite upd_other; [auto|]. apply K. lia. }
    destruct G as (_ & G2 & _ & G4). split.
    - intros i I. apply G2. lia.
    - exact G4.
  Qed.
End Subst.

(** The vector solver is the general one with indices left alone. *)
Lemma matvec_general : forall y W D phi n a1 z0,
  multiply_matvec_semiseparable_drw y W D phi n a1 z0 =
  gbwd a1 n W D phi (fun i => i) (gfwd a1 n W phi (fun i => i) y z0).
Proof.
  intros. unfold multiply_matvec_semiseparable_drw, gbwd, gfwd.
  change (gf_step a1 W phi (fun i => i) y) with (fwd_step y W phi a1).
  change (gb_step a1 W D phi (fun i => i)) with (bwd_step W D phi a1).
  destruct (for_ 1 (n - 1) (fwd_step y W phi a1) (0, upd z0 0 (y 0%nat))) as [f z].
  cbn [snd]. destruct (for_down (n - 1) _ _) as [g x]. reflexivity.
Qed.

Lemma mfwd_general : forall src Y W phi n m a1 j Z,
  mfwd src Y W phi n m a1 j Z = gfwd a1 n W phi (fun i => i * m + j)%nat (fun i => Y (src i j)) Z.
Proof. reflexivity. Qed.
Lemma mbwd_general : forall W D phi n m a1 j Z,
  mbwd W D phi n m a1 j Z = gbwd a1 n W D phi (fun i => i * m + j)%nat Z.
Proof. reflexivity. Qed.

Lemma flat_inj : forall m i j i' j', (j < m)%nat -> (j' < m)%nat -> (i * m + j = i' * m + j')%nat -> i = i' /\ j = j'.
Proof.
  intros m i j i' j' J J' E.
  assert (i = i'). { destruct (lt_eq_lt_dec i i') as [[H|H]|H]; auto; exfalso; nia. }
  subst. lia.
Qed.

Section MatSolve.
  Variables (t sigma : arr) (a1 c1 syserr : R) (n m : nat).
  Hypothesis n1 : (1 <= n)%nat.
  Variables W D phi : arr.
  Hypothesis WDphi : forall i, (i < n)%nat ->
    W i = Wq t sigma a1 c1 syserr i /\ D i = Dq t sigma a1 c1 syserr i /\ phi i = phq t c1 i.
  Variables (src : nat -> nat -> nat) (Y : arr).

  Lemma mat_solve : forall Z0 j, (j < m)%nat ->
    let X := multiply_mat_semi src Y W D phi n m a1 Z0 in
    forall i, (i < n)%nat ->
    X (i * m + j)%nat = zf t sigma a1 c1 syserr (fun i => Y (src i j)) i / Dq t sigma a1 c1 syserr i -
      Wq t sigma a1 c1 syserr i * gsum t a1 c1 n (fun k => X (k * m + j)%nat) i.
  Proof.
    intros Z0 j J X. unfold X, multiply_mat_semi.
    set (F := for_ 0 m (mfwd src Y W phi n m a1) Z0).
    assert (INJ : forall j0, (j0 < m)%nat -> forall i i', (i < n)%nat -> (i' < n)%nat -> (i * m + j0 = i' * m + j0)%nat -> i = i').
    { intros. nia. }
    assert (FW : forall j0, (j0 < m)%nat -> forall i, (i < n)%nat ->
       F (i * m + j0)%nat = zf t sigma a1 c1 syserr (fun i => Y (src i j0)) i).
    { pose proof (for_inv arr (fun c Z => forall j0, (j0 < c)%nat -> forall i, (i < n)%nat ->
         Z (i * m + j0)%nat = zf t sigma a1 c1 syserr (fun i => Y (src i j0)) i) 0 m (mfwd src Y W phi n m a1) Z0) as G.
      cbv beta in G. simpl in G. apply G; [intros; lia|].
      intros c Z C IH j0 J0 i I. rewrite mfwd_general.
      destruct (gfwd_ok t sigma a1 c1 syserr n n1 W D phi WDphi (fun i => i * m + c)%nat (INJ c ltac:(lia)) (fun i => Y (src i c)) Z) as [G1 G2].
      destruct (Nat.eq_dec j0 c) as [->|NE]; [apply G1; auto|].
      rewrite G2; [apply IH; auto; lia|]. intros i' I' E. apply flat_inj in E; lia. }
    pose proof (for_inv arr (fun c Z => (forall j0, (j0 < c)%nat -> forall i, (i < n)%nat ->
         Z (i * m + j0)%nat = zf t sigma a1 c1 syserr (fun i => Y (src i j0)) i / Dq t sigma a1 c1 syserr i -
      Wq t sigma a1 c1 syserr i * gsum t a1 c1 n (fun k => Z (k * m + j0)%nat) i) /\
        (forall j0, (c <= j0 < m)%nat -> forall i, (i < n)%nat -> Z (i * m + j0)%nat = zf t sigma a1 c1 syserr (fun i => Y (src i j0)) i))
        0 m (mbwd W D phi n m a1) F) as G.
    cbv beta in G. simpl in G. apply G; auto.
    - split; [intros; lia|]. intros; apply FW; auto; lia.
    - intros c Z C [IH1 IH2]. rewrite mbwd_general.
      destruct (gbwd_ok t sigma a1 c1 syserr n n1 W D phi WDphi (fun i => i * m + c)%nat (INJ c ltac:(lia)) (fun i => Y (src i c)) Z) as [G1 G2].
      { intros i I. apply IH2; auto; lia. }
      assert (OTH : forall j0 i, (j0 < m)%nat -> j0 <> c -> (i < n)%nat ->
        gbwd a1 n W D phi (fun i => i * m + c)%nat Z (i * m + j0)%nat = Z (i * m + j0)%nat).
      { intros j0 i J0 NE I. apply G2. intros i' I' E. apply flat_inj in E; lia. }
      split.
      + intros j0 J0 i I. destruct (Nat.eq_dec j0 c) as [->|NE]; [apply G1; auto|].
        rewrite OTH by lia. rewrite (IH1 j0) by lia.
        rewrite (gsum_ext t a1 c1 n n1 (fun k => gbwd a1 n W D phi (fun i => i * m + c)%nat Z (k * m + j0)%nat) (fun k => Z (k * m + j0)%nat) i); [reflexivity|].
        intros k K. apply OTH; lia.
      + intros j0 J0 i I. rewrite OTH by lia. apply IH2; lia.
  Qed.
End MatSolve.
