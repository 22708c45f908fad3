(** The likelihood routines compute the marginal likelihood. *)
From Coq Require Import Reals List Arith Lia Lra Psatz ZArith Bool.
From Verif Require Import SemisepModel SemisepProofs SemisepProofs2 MatBridge MatBridge2 SemisepProofs3 PartModel PartProofs PartProofs2
  PolyRoots GlsAlgebra LikeModel.
Import ListNotations.
Open Scope R_scope.

Lemma tab_val : forall m f i j, (j < m)%nat -> tab m f (i * m + j)%nat = f i j.
Proof.
  intros m f i j J. unfold tab. rewrite (Nat.add_comm (i * m)). rewrite Nat.div_add by lia. rewrite Nat.mod_add by lia.
  rewrite Nat.div_small, Nat.mod_small by auto. reflexivity.
Qed.

(** ** Loops filling the trend matrix *)
Lemma for_fill : forall lo n (idx : nat -> nat) (val : nat -> R) a,
  (forall i j, (lo <= i < lo + n)%nat -> (lo <= j < lo + n)%nat -> idx i = idx j -> i = j) ->
  (forall j, (lo <= j < lo + n)%nat -> for_ lo n (fun j L => upd L (idx j) (val j)) a (idx j) = val j) /\
  (forall x, (forall j, (lo <= j < lo + n)%nat -> x <> idx j) -> for_ lo n (fun j L => upd L (idx j) (val j)) a x = a x).
Proof.
  intros lo n idx val a INJ.
  pose proof (for_inv arr (fun k b => (forall j, (lo <= j < k)%nat -> b (idx j) = val j) /\
    (forall x, (forall j, (lo <= j < k)%nat -> x <> idx j) -> b x = a x)) lo n (fun j L => upd L (idx j) (val j)) a) as G.
  cbv beta in G. match type of G with ?u -> ?v -> ?w => assert (G' : w) end.
  { apply G.
    - split; [intros; lia|auto].
    - intros i s I [H1 H2]. split.
      + intros j J. destruct (Nat.eq_dec j i) as [->|NE]; [apply upd_same|]. rewrite upd_other; [apply H1; lia|].
        intros E. apply NE. apply INJ; [lia|lia|exact E].
      + intros x X. rewrite upd_other; [apply H2; intros; apply X; lia|]. apply X. lia. }
  exact G'.
Qed.

(** A loop over rows, each writing its own row only. *)
Lemma for_rows : forall n m base (body : nat -> arr -> arr) (val : nat -> nat -> R) a,
  (forall i b, (i < n)%nat ->
     (forall j, (j < m)%nat -> body i b ((base + i) * m + j)%nat = val i j) /\
     (forall x, (x < (base + i) * m \/ (base + i) * m + m <= x)%nat -> body i b x = b x)) ->
  let r := for_ 0 n body a in
  (forall i j, (i < n)%nat -> (j < m)%nat -> r ((base + i) * m + j)%nat = val i j) /\
  (forall x, (x < base * m \/ (base + n) * m <= x)%nat -> r x = a x).
Proof.
  intros n m base body val a HB r.
  pose proof (for_inv arr (fun k b => (forall i j, (i < k)%nat -> (j < m)%nat -> b ((base + i) * m + j)%nat = val i j) /\
    (forall x, (x < base * m \/ (base + k) * m <= x)%nat -> b x = a x)) 0 n body a) as G.
  cbv beta in G. match type of G with ?u -> ?v -> ?w => assert (G' : w) end.
  { apply G.
    - split; [intros; lia|auto].
    - intros i s I [H1 H2]. destruct (HB i s) as [B1 B2]; [lia|]. split.
      + intros i' j I' J. destruct (Nat.eq_dec i' i) as [->|NE]; [apply B1; auto|].
        rewrite B2; [apply H1; auto; lia|]. left. assert (i' < i)%nat by lia. nia.
      + intros x X. rewrite B2; [apply H2; nia|]. nia. }
  exact G'.
Qed.

(** entry of the trend matrix for a point of curve c at time t *)
Definition entry (nq c : nat) (t : R) (m : nat) : R :=
  if Nat.leb (c * nq) m && Nat.ltb m (c * nq + nq) then t ^ (m - c * nq) else 0.

Lemma con_row_ok : forall nq nqall tc i b, (1 <= nq <= nqall)%nat ->
  (forall j, (j < nqall)%nat -> con_row nq nqall tc i b ((0 + i) * nqall + j)%nat = entry nq 0 (tc i) j) /\
  (forall x, (x < (0 + i) * nqall \/ (0 + i) * nqall + nqall <= x)%nat -> con_row nq nqall tc i b x = b x).
Proof.
  intros nq nqall tc i b NQ. cbn [Nat.add]. unfold con_row.
  set (b1 := upd b (i * nqall) 1).
  destruct (for_fill 1 (nq - 1) (fun j => (i * nqall + j)%nat) (fun j => tc i ^ j) b1) as [F1 F2]; [intros; lia|].
  set (b2 := for_ 1 (nq - 1) _ b1) in *.
  destruct (for_fill nq (nqall - nq) (fun j => (i * nqall + j)%nat) (fun j => 0) b2) as [G1 G2]; [intros; lia|].
  cbv beta in *. split.
  - intros j J. unfold entry. cbn [Nat.mul Nat.add]. destruct (Nat.leb_spec 0 j); [|lia]. simpl andb. rewrite Nat.sub_0_r.
    destruct (Nat.ltb_spec j nq).
    + rewrite G2 by (intros; lia). destruct (Nat.eq_dec j 0) as [->|NZ].
      * rewrite F2 by (intros; lia). unfold b1. rewrite Nat.add_0_r, upd_same. reflexivity.
      * apply F1. lia.
    + apply G1. lia.
  - intros x X. rewrite G2 by (intros; lia). rewrite F2 by (intros; lia). unfold b1. apply upd_other. lia.
Qed.

Lemma line_row_ok : forall nq nqall np j tl m b, (1 <= nq)%nat -> (nq * (2 + j) <= nqall)%nat ->
  (forall i, (i < nqall)%nat -> line_row nq nqall np j tl m b ((np + m) * nqall + i)%nat = entry nq (S j) (tl m) i) /\
  (forall x, (x < (np + m) * nqall \/ (np + m) * nqall + nqall <= x)%nat -> line_row nq nqall np j tl m b x = b x).
Proof.
  intros nq nqall np j tl m b NQ SZ. unfold line_row. set (o := ((np + m) * nqall)%nat).
  destruct (for_fill 0 nqall (fun i => (o + i)%nat) (fun _ => 0) b) as [F1 F2]; [intros; lia|].
  set (b1 := for_ 0 nqall _ b) in *.
  set (b2 := upd b1 (o + nq + j * nq + 0) 1).
  destruct (for_fill 1 (nq - 1) (fun i => (o + nq + j * nq + i)%nat) (fun i => tl m ^ i) b2) as [G1 G2]; [intros; lia|].
  cbv beta in *. clearbody o. split.
  - intros i I. unfold entry. replace (S j * nq)%nat with (nq + j * nq)%nat by lia.
    destruct (Nat.leb_spec (nq + j * nq) i) as [A|A]; simpl andb.
    + destruct (Nat.ltb_spec i (nq + j * nq + nq)) as [B|B].
      * destruct (Nat.eq_dec i (nq + j * nq)) as [->|NE].
        -- rewrite G2 by (intros; lia). unfold b2. replace (o + nq + j * nq + 0)%nat with (o + (nq + j * nq))%nat by lia.
           rewrite upd_same. rewrite Nat.sub_diag. reflexivity.
        -- rewrite <- G1 by lia. f_equal. lia.
      * rewrite G2 by (intros; lia). unfold b2. rewrite upd_other by lia. apply F1. lia.
    + rewrite G2 by (intros; lia). unfold b2. rewrite upd_other by lia. apply F1. lia.
  - intros x X. assert (nq + j * nq + nq <= nqall)%nat by nia. rewrite G2 by (intros; lia). unfold b2. rewrite upd_other by lia. apply F2. intros; lia.
Qed.

Definition narr_of (ncon : nat) (lnn : nat -> nat) (c : nat) : nat := match c with O => ncon | S j => lnn j end.
Definition times_of (tc : arr) (tl : nat -> arr) (c : nat) : arr := match c with O => tc | S j => tl j end.

Lemma trend_matrix_ok : forall nq nl ncon tc lnn tl L0, (1 <= nq)%nat ->
  forall c k m, (c <= nl)%nat -> (k < narr_of ncon lnn c)%nat -> (m < nq * (1 + nl))%nat ->
  trend_matrix nq nl ncon tc lnn tl L0 ((psum (narr_of ncon lnn) c + k) * (nq * (1 + nl)) + m)%nat = entry nq c (times_of tc tl c k) m.
Proof.
  intros nq nl ncon tc lnn tl L0 NQ. unfold trend_matrix. set (nqall := (nq * (1 + nl))%nat).
  assert (NA : (1 <= nq <= nqall)%nat) by (unfold nqall; nia).
  destruct (for_rows ncon nqall 0 (con_row nq nqall tc) (fun i j => entry nq 0 (tc i) j) L0) as [R1 R2].
  { intros i b I. apply con_row_ok. auto. }
  set (L1 := for_ 0 ncon _ L0) in *.
  pose proof (for_inv (nat * arr) (fun j s => fst s = psum (narr_of ncon lnn) (S j) /\
    (forall c k m, (c <= j)%nat -> (k < narr_of ncon lnn c)%nat -> (m < nqall)%nat ->
       snd s ((psum (narr_of ncon lnn) c + k) * nqall + m)%nat = entry nq c (times_of tc tl c k) m)) 0 nl
    (fun j s => let '(np, L) := s in ((np + lnn j)%nat, for_ 0 (lnn j) (line_row nq nqall np j (tl j)) L)) (ncon, L1)) as G.
  cbv beta in G. match type of G with ?u -> ?v -> ?w => assert (G' : w) end.
  { apply G.
    - split; [reflexivity|]. intros c k m C K M. assert (c = 0)%nat by lia. subst. cbn [snd psum].
      exact (R1 k m K M).
    - intros i [np L] I [H1 H2]. cbn [fst snd] in *. split; [subst np; reflexivity|].
      destruct (for_rows (lnn i) nqall np (line_row nq nqall np i (tl i)) (fun k m => entry nq (S i) (tl i k) m) L) as [A1 A2].
      { intros k b K. apply line_row_ok; auto. unfold nqall. nia. }
      intros c k m C K M. destruct (Nat.eq_dec c (S i)) as [->|NE].
      + rewrite <- H1. cbn [times_of]. apply A1; auto.
      + rewrite A2; [apply H2; auto; lia|]. left. subst np.
        assert (psum (narr_of ncon lnn) c + k < psum (narr_of ncon lnn) (S i))%nat; [|nia].
        assert (MONO : forall b a s, (a <= b)%nat -> (psum s a <= psum s b)%nat).
        { clear. induction b; intros a s H. - replace a with 0%nat by lia. lia.
          - destruct (Nat.eq_dec a (S b)) as [->|]; [lia|]. simpl. specialize (IHb a s). lia. }
        pose proof (MONO (S i) (S c) (narr_of ncon lnn)). simpl in H. simpl. lia. }
  intros c k m C K M. apply (proj2 G'); auto.
Qed.

(** ** Full column rank *)
Definition distinct_times (nq n : nat) (t : arr) : Prop :=
  exists pick : nat -> nat, (forall i, (i < nq)%nat -> (pick i < n)%nat) /\
    (forall i j, (i < nq)%nat -> (j < nq)%nat -> t (pick i) = t (pick j) -> i = j).

Lemma sumn_window : forall c nq N v t, (c * nq + nq <= N)%nat ->
  sumn N (fun m => entry nq c t m * v m) = sumn nq (fun i => v (c * nq + i)%nat * t ^ i).
Proof.
  intros c nq N v t H. rewrite (sumn_split N (c * nq) _) by lia.
  rewrite (sumn_ext (c * nq) _ (fun _ => 0)).
  2: { intros i I. unfold entry. destruct (Nat.leb_spec (c * nq) i); [lia|]. simpl. ring. }
  rewrite sumn_zero. rewrite (sumn_split (N - c * nq) nq _) by lia.
  rewrite (sumn_ext (N - c * nq - nq) _ (fun _ => 0)).
  2: { intros i I. unfold entry. destruct (Nat.ltb_spec (c * nq + (nq + i)) (c * nq + nq)); [lia|]. rewrite andb_false_r. ring. }
  rewrite sumn_zero. rewrite Rplus_0_l, Rplus_0_r. apply sumn_ext. intros i I. unfold entry.
  destruct (Nat.leb_spec (c * nq) (c * nq + i)); [|lia]. destruct (Nat.ltb_spec (c * nq + i) (c * nq + nq)); [|lia].
  simpl andb. replace (c * nq + i - c * nq)%nat with i by lia. ring.
Qed.

Lemma curve_at : forall s nc r, (r < psum s nc)%nat -> exists c k, (c < nc)%nat /\ (k < s c)%nat /\ r = (psum s c + k)%nat.
Proof.
  intros s nc. induction nc; intros r R. { simpl in R. lia. }
  simpl in R. destruct (le_lt_dec (psum s nc) r) as [L|L].
  - exists nc, (r - psum s nc)%nat. repeat split; lia.
  - destruct (IHnc r L) as (c & k & C & K & E). exists c, k. repeat split; auto.
Qed.
Lemma psum_le : forall b a s, (a <= b)%nat -> (psum s a <= psum s b)%nat.
Proof.
  induction b; intros a s H. { replace a with 0%nat by lia. lia. }
  destruct (Nat.eq_dec a (S b)) as [->|]; [lia|]. simpl. specialize (IHb a s). lia.
Qed.
Lemma curve_lt : forall s nc c k, (c < nc)%nat -> (k < s c)%nat -> (psum s c + k < psum s nc)%nat.
Proof. intros s nc c k C K. pose proof (psum_le nc (S c) s C) as H. simpl in H. lia. Qed.

Lemma design_inj : forall nq nc (s : nat -> nat) (ts : nat -> arr) L,
  (forall c k m, (c < nc)%nat -> (k < s c)%nat -> (m < nq * nc)%nat -> L (psum s c + k)%nat m = entry nq c (ts c k) m) ->
  (forall c, (c < nc)%nat -> distinct_times nq (s c) (ts c)) ->
  forall v, (forall i, (i < psum s nc)%nat -> mv (nq * nc) L v i = 0) -> forall j, (j < nq * nc)%nat -> v j = 0.
Proof.
  intros nq nc s ts L HL D v Z j J.
  assert (NQ : (0 < nq)%nat) by (destruct nq; simpl in J; lia).
  set (c := (j / nq)%nat). assert (C : (c < nc)%nat) by (apply Nat.div_lt_upper_bound; lia).
  assert (EJ : j = (c * nq + j mod nq)%nat) by (unfold c; rewrite (Nat.div_mod_eq j nq) at 1; lia).
  destruct (D c C) as (pick & P1 & P2).
  rewrite EJ.
  refine (@poly_zero nq (fun i => v (c * nq + i)%nat) (fun i => ts c (pick i)) _ _ (j mod nq)%nat _).
  - intros i i' I I'. apply P2; auto.
  - intros i I. rewrite <- (sumn_window c nq (nq * nc)) by nia.
    etransitivity; [|apply (Z (psum s c + pick i)%nat); apply curve_lt; auto].
    apply sumn_ext. intros m M. rewrite HL by auto. reflexivity.
  - apply Nat.mod_upper_bound. lia.
Qed.

(** ** Scaling by the variance *)
Lemma spd_scal : forall n c f, 0 < c -> spd n f -> spd n (fun i j => c * f i j).
Proof.
  intros n c f C [HS HP]. split.
  - intros i j I J. rewrite (HS i j I J). reflexivity.
  - intros x X. specialize (HP x X). unfold quad in *.
    rewrite (sumn_ext n _ (fun i => c * sumn n (fun j => x i * f i j * x j))).
    + rewrite sumn_scal. apply Rmult_lt_0_compat; auto.
    + intros i I. rewrite <- sumn_scal. apply sumn_ext. intros; ring.
Qed.
Lemma inv_scal : forall n c f g, c <> 0 -> inv_of n f g -> inv_of n (fun i j => c * f i j) (fun i j => g i j / c).
Proof.
  intros n c f g C H i j I J. rewrite <- (H i j I J). apply sumn_ext. intros. field. auto.
Qed.
Lemma ln_pow' : forall c n, 0 < c -> ln (c ^ n) = INR n * ln c.
Proof. intros. induction n; [simpl; rewrite ln_1; ring|]. rewrite S_INR. simpl pow. rewrite ln_mult; [rewrite IHn; ring|auto|apply pow_lt; auto]. Qed.
Lemma ln_det_scal : forall n c f, 0 < c -> spd n f -> ln (detn n (fun i j => c * f i j)) = INR n * ln c + ln (detn n f).
Proof.
  intros n c f C HS. rewrite detn_scal. rewrite ln_mult; [|apply pow_lt; auto|apply spd_det; auto]. rewrite ln_pow' by auto. reflexivity.
Qed.

Section Like.
  Context {IP : Type}.
  Variable dsytrf : nat -> (nat -> nat -> R) -> (nat -> nat -> R) * IP.
  Variable dsytri : nat -> (nat -> nat -> R) -> IP -> nat -> nat -> R.
  Variable dsytri_fails : nat -> (nat -> nat -> R) -> IP -> bool.
  Hypothesis lapack : dsytr_spec dsytrf dsytri.
  (** What LAPACK promises about the return code: no failure for a positive
      definite matrix. *)
  Definition dsytri_code : Prop := forall n U A V, upper_of n U A -> spd n A -> upper_of n V (fst (dsytrf n U)) ->
    dsytri_fails n V (snd (dsytrf n U)) = false.
  Hypothesis code : dsytri_code.

  Lemma lndet_sign_ok : forall mem p n A B,
    (forall i j, (i <= j < n)%nat -> mem (p + i * n + j)%nat = A i j) -> spd n A -> inv_of n A B ->
    let '(mem', ld, info, sign) := inverse_symat_lndet_sign dsytrf dsytri dsytri_fails mem p n in
    holds mem' p n n n B /\ ld = ln (detn n A) /\ info = false /\ sign = 1%Z.
  Proof.
    intros mem p n A B HU PD HB. pose proof (inverse_symat_lndet_ok dsytrf dsytri lapack mem p n A B HU (proj1 PD) HB) as G.
    unfold inverse_symat_lndet_sign, inverse_symat_lndet in *.
    pose proof (upper_val mem p n A HU) as UV.
    destruct (lapack n (upper mem p n) A UV (proj1 PD)) as [_ L2].
    { pose proof (spd_det n A PD). lra. }
    destruct (L2 PD) as [POS _].
    pose proof (code n (upper mem p n) A) as CD. specialize (CD (upper (store_upper mem p n (fst (dsytrf n (upper mem p n)))) p n) UV PD).
    destruct (dsytrf n (upper mem p n)) as [F ip]. cbn [fst snd] in *.
    destruct G as (G1 & _ & G2). specialize (G2 PD).
    set (m1 := store_upper mem p n F) in *.
    assert (DG : forall i, (i < n)%nat -> 0 < m1 (p + i * n + i)%nat).
    { intros i I. unfold m1. rewrite store_upper_in by lia. auto. }
    assert (E : for_ 0 n (fun i s => let '(l, sg) := s in
       (l + ln (Rabs (m1 (p + i * n + i)%nat)), (sg * (if Rle_dec 0 (m1 (p + i * n + i)%nat) then 1 else -1))%Z)) (0, 1%Z) =
       (for_ 0 n (fun i l => l + ln (m1 (p + i * n + i)%nat)) 0, 1%Z)).
    { rewrite (lnsum n (fun i => m1 (p + i * n + i)%nat)).
      pose proof (for_inv (R * Z) (fun k s => s = (sumn k (fun i => ln (m1 (p + i * n + i)%nat)), 1%Z)) 0 n (fun i s => let '(l, sg) := s in
       (l + ln (Rabs (m1 (p + i * n + i)%nat)), (sg * (if Rle_dec 0 (m1 (p + i * n + i)%nat) then 1 else -1))%Z)) (0, 1%Z)) as G.
      cbv beta in G. apply G; [reflexivity|]. intros i s I ->.
      assert (0 < m1 (p + i * n + i)%nat) by (apply DG; lia). destruct (Rle_dec 0 (m1 (p + i * n + i)%nat)); [|lra].
      rewrite Rabs_right by lra. reflexivity. }
    rewrite E. split; [exact G1|]. split; [exact G2|]. split; [|reflexivity].
    apply CD. apply upper_val. intros i j IJ. apply store_upper_in. auto.
  Qed.

  Lemma line_prob_end_ok : forall nall nqall Cinv Larr fall lndet sigma Si L SS,
    0 < sigma -> spd nall SS -> inv_of nall SS Si ->
    (forall i j, (i < nall)%nat -> (j < nall)%nat -> Cinv (i * nall + j)%nat = sigma * sigma * Si i j) ->
    (forall i j, (i < nall)%nat -> (j < nqall)%nat -> Larr (i * nqall + j)%nat = L i j) ->
    lndet = ln (detn nall (fun i j => / (sigma * sigma) * SS i j)) ->
    (forall v, (forall i, (i < nall)%nat -> mv nqall L v i = 0) -> forall j, (j < nqall)%nat -> v j = 0) ->
    exists q, normal nall nqall Si L fall q /\
      line_prob_end dsytrf dsytri dsytri_fails nall nqall Cinv Larr fall lndet sigma =
      Some (- (1 / 2) * chi2 nall Si (resid nqall L fall q) - 1 / 2 * ln (detn nall SS) - 1 / 2 * ln (detn nqall (gram nall Si L))).
  Proof.
    intros nall nqall Cinv Larr fall lndet sigma Si L SS SG PD HI HC HLa HD INJ.
    assert (S2 : 0 < sigma * sigma) by nra.
    pose proof (spd_inv _ _ _ PD HI) as PDi.
    pose proof (gram_spd _ _ _ _ PDi INJ) as PG. set (G := gram nall Si L) in *.
    assert (EG : exists Gi, inv_of nqall G Gi). { apply det_inv. pose proof (spd_det _ _ PG). lra. }
    destruct EG as [Gi HGi].
    unfold line_prob_end.
    set (ybuf := mul_MN Cinv Larr nall nqall nall). set (Cq := mul_tA Larr ybuf nqall nqall nall).
    set (yq := matvec_tA ybuf nall nqall fall).
    assert (EY : forall i j, (i < nall)%nat -> (j < nqall)%nat -> ybuf (i * nqall + j)%nat = sigma * sigma * sumn nall (fun l => Si i l * L l j)).
    { intros i j I J. unfold ybuf, mul_MN. rewrite tab_val by auto. rewrite <- sumn_scal. apply sumn_ext.
      intros l Hl. rewrite HC, HLa by auto. ring. }
    assert (ECq : forall i j, (i < nqall)%nat -> (j < nqall)%nat -> Cq (0 + i * nqall + j)%nat = sigma * sigma * G i j).
    { intros i j I J. cbn [Nat.add]. unfold Cq, mul_tA. rewrite tab_val by auto. unfold G, gram. rewrite <- sumn_scal. apply sumn_ext.
      intros l Hl. rewrite EY, HLa by auto. ring. }
    assert (PG2 : spd nqall (fun i j => sigma * sigma * G i j)) by (apply spd_scal; auto).
    pose proof (inv_scal nqall (sigma * sigma) G Gi (Rgt_not_eq _ _ S2) HGi) as HG2.
    pose proof (lndet_sign_ok Cq 0 nqall _ _ (fun i j IJ => ECq i j ltac:(lia) ltac:(lia)) PG2 HG2) as LS.
    destruct (inverse_symat_lndet_sign dsytrf dsytri dsytri_fails Cq 0 nqall) as [[[Cq' ldq] info] sign].
    destruct LS as (H1 & H2 & -> & ->). cbn [orb Z.eqb].
    set (qa := mul_MN Cq' yq nqall 1 nqall).
    assert (Q : forall j, (j < nqall)%nat -> qa j = mv nqall Gi (mv nall (tr L) (mv nall Si fall)) j).
    { intros j J. unfold qa, mul_MN. replace j with (j * 1 + 0)%nat at 1 by lia. rewrite tab_val by lia.
      unfold mv at 1. apply sumn_ext. intros l Hl.
      change (j * nqall + l)%nat with (0 + j * nqall + l)%nat. rewrite H1 by auto.
      replace (l * 1 + 0)%nat with l by lia. unfold yq, matvec_tA.
      rewrite (sumn_ext nall _ (fun k => sigma * sigma * (sumn nall (fun b => Si k b * L b l) * fall k))).
      2: { intros k K. rewrite EY by auto. ring. }
      rewrite sumn_scal.
      assert (E : mv nall (tr L) (mv nall Si fall) l = sumn nall (fun k => sumn nall (fun b => Si k b * L b l) * fall k)).
      { rewrite mv_mv. unfold mv, tr. apply sumn_ext. intros k K. f_equal. apply sumn_ext. intros b B.
        rewrite (proj1 PDi b k B K). ring. }
      rewrite E. field. lra. }
    assert (NQ : normal nall nqall Si L fall qa) by (exact (normal_gram nall nqall Si L fall Gi qa HGi Q)).
    set (y := matvec_ab Larr nall nqall qa fall (-1) 1).
    assert (Y : forall i, (i < nall)%nat -> y i = resid nqall L fall qa i).
    { intros i I. unfold y, matvec_ab, resid, mv. rewrite (sumn_ext nqall _ (fun j => L i j * qa j)); [ring|].
      intros j J. rewrite HLa by auto. reflexivity. }
    set (z := matvec Cinv nall y).
    assert (Z : ddot nall y z = sigma * sigma * chi2 nall Si (resid nqall L fall qa)).
    { unfold ddot, chi2, dot. rewrite <- sumn_scal. apply sumn_ext. intros i I. unfold z, matvec, mv. rewrite Y by auto.
      rewrite (sumn_ext nall _ (fun j => sigma * sigma * (Si i j * resid nqall L fall qa j))).
      - rewrite sumn_scal. ring.
      - intros j J. rewrite HC, Y by auto. ring. }
    assert (P1 : - (1 / 2) * ddot nall y z / (sigma * sigma) = - (1 / 2) * chi2 nall Si (resid nqall L fall qa)).
    { rewrite Z. field. lra. }
    rewrite P1. pose proof (chi2_nonneg nall Si PDi (resid nqall L fall qa)).
    destruct (Rlt_dec 0 (- (1 / 2) * chi2 nall Si (resid nqall L fall qa))); [lra|].
    exists qa. split; [exact NQ|]. f_equal.
    rewrite HD, H2. rewrite !ln_det_scal; auto; [|apply Rinv_0_lt_compat; auto].
    rewrite ln_Rinv by auto. rewrite ln_mult by auto. fold G. ring.
  Qed.
End Like.
