(** What the decomposition computes from its matrices. *)
From Coq Require Import Reals List Arith Lia Lra Psatz Bool.
From Verif Require Import SemisepModel SemisepProofs SemisepProofs2 MatBridge MatBridge2 SemisepProofs3 PartModel PartProofs PartProofs2 PropPart
  GlsAlgebra LikeModel LikeProofs PredModel PredProofs DecompModel.
From Verif Require CovProofs.
Import ListNotations.
Open Scope R_scope.

(** What dgetrf and dgetrs are for: the solution of a nonsingular system, n right-hand
    sides at a time. *)
Definition dgesol_spec (dgesol : nat -> nat -> arr -> arr -> arr) : Prop :=
  forall m n a b G Gi, stored a 0 m G -> is_inverse m G Gi ->
  forall i j, (i < m)%nat -> (j < n)%nat -> dgesol m n a b (i * n + j)%nat = sumn m (fun l => Gi i l * b (l * n + j)%nat).

(** ** The trend of a component *)
Lemma share_row_ok : forall nq nqall np k w tall i b, (1 <= nq)%nat -> (nq * (2 + k) <= nqall)%nat ->
  (forall j, (j < nqall)%nat -> share_row nq nqall np k w tall i b ((np + i) * nqall + j)%nat = w * entry nq (S k) (tall (np + i)%nat) j) /\
  (forall x, (x < (np + i) * nqall \/ (np + i) * nqall + nqall <= x)%nat -> share_row nq nqall np k w tall i b x = b x).
Proof.
  intros nq nqall np k w tall i b NQ SZ. unfold share_row. set (o := ((np + i) * nqall)%nat).
  destruct (for_fill 0 nqall (fun j => (o + j)%nat) (fun _ => 0) b) as [F1 F2]; [intros; lia|].
  set (b1 := for_ 0 nqall _ b) in *.
  set (b2 := upd b1 (o + nq + k * nq + 0) (1 * w)).
  destruct (for_fill 1 (nq - 1) (fun j => (o + nq + k * nq + j)%nat) (fun j => tall (np + i)%nat ^ j * w) b2) as [G1 G2]; [intros; lia|].
  cbv beta in *. clearbody o. split.
  - intros j J. unfold entry. replace (S k * nq)%nat with (nq + k * nq)%nat by lia.
    destruct (Nat.leb_spec (nq + k * nq) j) as [A|A]; simpl andb.
    + destruct (Nat.ltb_spec j (nq + k * nq + nq)) as [B|B].
      * destruct (Nat.eq_dec j (nq + k * nq)) as [->|NE].
        -- rewrite G2 by (intros; lia). unfold b2. replace (o + nq + k * nq + 0)%nat with (o + (nq + k * nq))%nat by lia.
           rewrite upd_same. rewrite Nat.sub_diag. simpl. ring.
        -- rewrite (Rmult_comm w), <- G1 by lia. f_equal. lia.
      * rewrite G2 by (intros; lia). unfold b2. rewrite upd_other by lia. rewrite F1 by lia. ring.
    + rewrite G2 by (intros; lia). unfold b2. rewrite upd_other by lia. rewrite F1 by lia. ring.
  - intros x X. assert (nq + k * nq + nq <= nqall)%nat by nia. rewrite G2 by (intros; lia). unfold b2. rewrite upd_other by lia. apply F2. intros; lia.
Qed.
Lemma zero_row_ok : forall nqall np i b,
  (forall j, (j < nqall)%nat -> zero_row nqall np i b ((np + i) * nqall + j)%nat = 0) /\
  (forall x, (x < (np + i) * nqall \/ (np + i) * nqall + nqall <= x)%nat -> zero_row nqall np i b x = b x).
Proof.
  intros nqall np i b. unfold zero_row.
  destruct (for_fill 0 nqall (fun j => ((np + i) * nqall + j)%nat) (fun _ => 0) b) as [F1 F2]; [intros; lia|]. split.
  - intros j J. apply F1. lia.
  - intros x X. apply F2. intros; lia.
Qed.

(** the share of the trend of curve c given to component kgau *)
Definition share (flag : bool) (ng : nat) (pm : arr) (idx_line : nat -> nat) (kgau c : nat) : R :=
  match c with
  | O => 1
  | S k => if flag then 0 else exp (pm (idx_line k + 1 + 3 * kgau)%nat) / sumn ng (fun g => exp (pm (idx_line k + 1 + 3 * g)%nat))
  end.
Lemma for_sumn : forall n f a, for_ 0 n (fun k s => s + f k) a = a + sumn n f.
Proof.
  induction n; intros f a; [unfold for_; simpl; ring|].
  rewrite CovProofs.for_snoc. cbn [Nat.add]. rewrite IHn. cbn [sumn]. ring.
Qed.
Lemma fq_all_sum : forall ng pm idx_line j, fq_all false ng pm idx_line j = sumn ng (fun g => exp (pm (idx_line j + 1 + 3 * g)%nat)).
Proof. intros. unfold fq_all. rewrite for_sumn. rewrite Rplus_0_l. apply sumn_ext. intros g _. do 3 f_equal. lia. Qed.

Lemma dec_trend_ok : forall flag ng pm idx_line nq nl nall tall kgau L0, (1 <= nq)%nat ->
  forall c k m, (c <= nl)%nat -> (k < nall c)%nat -> (m < nq * (1 + nl))%nat ->
  dec_trend flag ng pm idx_line nq nl nall tall kgau L0 ((psum nall c + k) * (nq * (1 + nl)) + m)%nat =
  share flag ng pm idx_line kgau c * entry nq c (tall (psum nall c + k)%nat) m.
Proof.
  intros flag ng pm idx_line nq nl nall tall kgau L0 NQ. unfold dec_trend. set (nqall := (nq * (1 + nl))%nat).
  assert (NA : (1 <= nq <= nqall)%nat) by (unfold nqall; nia).
  destruct (for_rows (nall 0%nat) nqall 0 (con_row nq nqall tall) (fun i j => entry nq 0 (tall i) j) L0) as [R1 R2].
  { intros i b I. apply con_row_ok. auto. }
  set (L1 := for_ 0 (nall 0%nat) _ L0) in *. cbv zeta.
  match goal with |- context [for_ 0 nl ?b (nall 0%nat, L1)] => set (body := b) end.
  set (sh := share flag ng pm idx_line kgau).
  pose proof (for_inv (nat * arr) (fun j s => fst s = psum nall (S j) /\
    (forall c k m, (c <= j)%nat -> (k < nall c)%nat -> (m < nqall)%nat ->
       snd s ((psum nall c + k) * nqall + m)%nat = sh c * entry nq c (tall (psum nall c + k)%nat) m)) 0 nl body (nall 0%nat, L1)) as G.
  cbv beta in G. match type of G with ?u -> ?v -> ?w => assert (G' : w) end.
  { apply G.
    - split; [reflexivity|]. intros c k m C K M. assert (c = 0)%nat by lia. subst. cbn [snd psum].
      change (sh 0%nat) with 1. rewrite Rmult_1_l. exact (R1 k m K M).
    - intros i [np L] I [H1 H2]. unfold body. cbn [fst snd] in *. split; [subst np; reflexivity|].
      assert (A : exists L', (if flag then for_ 0 (nall (1 + i)%nat) (zero_row nqall np) L
           else for_ 0 (nall (1 + i)%nat) (share_row nq nqall np i (exp (pm (idx_line i + 1 + 3 * kgau)%nat) / fq_all flag ng pm idx_line i) tall) L) = L' /\
         (forall k m, (k < nall (S i))%nat -> (m < nqall)%nat -> L' ((np + k) * nqall + m)%nat = sh (S i) * entry nq (S i) (tall (np + k)%nat) m) /\
         (forall x, (x < np * nqall)%nat -> L' x = L x)).
      { eexists. split; [reflexivity|]. unfold sh, share. destruct flag.
        - destruct (for_rows (nall (S i)) nqall np (zero_row nqall np) (fun _ _ => 0) L) as [A1 A2]; [intros k b K; apply zero_row_ok|].
          split; [intros k m K M; rewrite Rmult_0_l; apply A1; auto|intros x X; apply A2; auto].
        - rewrite fq_all_sum.
          match goal with |- context [share_row nq nqall np i ?w tall] => 
            destruct (for_rows (nall (S i)) nqall np (share_row nq nqall np i w tall) (fun k m => w * entry nq (S i) (tall (np + k)%nat) m) L) as [A1 A2] end.
          { intros k b K. apply share_row_ok; auto. unfold nqall. nia. }
          split; [intros k m K M; apply A1; auto|intros x X; apply A2; auto]. }
      destruct A as (L' & E & A1 & A2). rewrite E.
      intros c k m C K M. destruct (Nat.eq_dec c (S i)) as [->|NE].
      + rewrite <- H1. apply A1; auto.
      + cbn [Nat.add] in *. rewrite A2; [apply H2; auto; lia|]. subst np.
        assert (psum nall c + k < psum nall (S i))%nat; [|nia].
        pose proof (psum_le (S i) (S c) nall). simpl in H. simpl. lia. }
  intros c k m C K M. apply (proj2 G'); auto.
Qed.

Lemma transpose_ok : forall T n US S0 i j, (i < T)%nat -> (j < n)%nat ->
  for_ 0 T (fun i S => for_ 0 n (fun j S => upd S (j * T + i)%nat (US (i * n + j)%nat)) S) S0 (j * T + i)%nat = US (i * n + j)%nat.
Proof.
  intros T n US S0.
  pose proof (for_inv arr (fun i S => (i <= T)%nat -> forall i' j, (i' < i)%nat -> (j < n)%nat -> S (j * T + i')%nat = US (i' * n + j)%nat) 0 T
    (fun i S => for_ 0 n (fun j S => upd S (j * T + i)%nat (US (i * n + j)%nat)) S) S0) as G.
  cbv beta in G. match type of G with ?u -> ?v -> ?w => assert (G' : w) end.
  { apply G; [intros; lia|]. intros i s I H IT i' j I' J.
    destruct (for_fill 0 n (fun j => (j * T + i)%nat) (fun j => US (i * n + j)%nat) s) as [F1 F2]; [intros; nia|].
    cbv beta in *. destruct (Nat.eq_dec i' i) as [->|NE]; [apply F1; lia|].
    rewrite F2; [apply H; lia|]. intros j' J' E. apply NE.
    assert (M : ((j * T + i') mod T = (j' * T + i) mod T)%nat) by (f_equal; exact E).
    rewrite !(Nat.add_comm (_ * T)), !Nat.mod_add, !Nat.mod_small in M by lia. exact M. }
  intros i j I J. apply G'; auto.
Qed.

Lemma tab_one : forall f k, tab 1 f k = f k 0%nat.
Proof. intros f k. pose proof (tab_val 1 f k 0%nat ltac:(lia)) as E. replace (k * 1 + 0)%nat with k in E by lia. exact E. Qed.

Section Core.
  Variable dgesol : nat -> nat -> arr -> arr -> arr.
  Hypothesis DG : dgesol_spec dgesol.

  Lemma decompose_ok : forall flag ng pm idx_line nq nl ncon tc lnn tl fall p1 p2 nall tall kgau PC US AS L0 Lr0 UT0 SS Si L Gi,
    let sigma := exp p1 * sqrt (exp p2) in
    let n := line_start ncon lnn nl in
    let T := line_start (nall 0%nat) (fun k => nall (1 + k)%nat) nl in
    let m := (nq * (1 + nl))%nat in
    0 < sigma -> spd n SS -> inv_of n SS Si -> inv_of m (gram n Si L) Gi ->
    stored PC 0 n (fun i j => SS i j / (sigma * sigma)) ->
    (forall i j, (i < n)%nat -> (j < m)%nat -> trend_matrix nq nl ncon tc lnn tl L0 (i * m + j)%nat = L i j) ->
    let out := decompose dgesol flag ng pm idx_line nq nl ncon tc lnn tl fall p1 p2 nall tall kgau PC US AS L0 Lr0 UT0 in
    let q := mv m Gi (mv n (tr L) (mv n Si fall)) in
    (forall j, (j < m)%nat -> rec_yq out j = q j) /\
    forall i u l A, (i < T)%nat ->
      (forall k, (k < n)%nat -> US (i * n + k)%nat = u k / (sigma * sigma)) -> AS (i * T + i)%nat = A / (sigma * sigma) ->
      (forall j, (j < m)%nat -> dec_trend flag ng pm idx_line nq nl nall tall kgau Lr0 (i * m + j)%nat = l j) ->
      rec_f out i = dot n u (mv n Si (resid m L fall q)) + dot m l q /\
      rec_fe out i = sigma * sqrt ((A - dot n u (mv n Si u)) / (sigma * sigma)).
  Proof.
    intros flag ng pm idx_line nq nl ncon tc lnn tl y p1 p2 nall tall kgau PC US AS L0 Lr0 UT0 SS Si L Gi sigma n T m SG PD HI HG HC HLa.
    unfold decompose. cbv zeta. fold sigma. fold n. fold T. fold m.
    set (Larr := trend_matrix nq nl ncon tc lnn tl L0) in *.
    set (Lrec := dec_trend flag ng pm idx_line nq nl nall tall kgau Lr0).
    assert (S2 : 0 < sigma * sigma) by nra. pose proof (spd_inv _ _ _ PD HI) as PDi.
    assert (IC : is_inverse n (fun i j => SS i j / (sigma * sigma)) (fun i j => sigma * sigma * Si i j)).
    { apply inverse_both. intros i j I J. rewrite <- (HI i j I J). apply sumn_ext. intros. field. lra. }
    set (P := dgesol n m PC Larr).
    assert (EY : forall i j, (i < n)%nat -> (j < m)%nat -> P (i * m + j)%nat = sigma * sigma * sumn n (fun l => Si i l * L l j)).
    { intros i j I J. unfold P. rewrite (DG n m PC Larr _ _ HC IC) by auto. rewrite <- sumn_scal. apply sumn_ext.
      intros l Hl. rewrite HLa by auto. ring. }
    set (Cq := mul_tA Larr P m m n).
    assert (ECq : stored Cq 0 m (fun i j => sigma * sigma * gram n Si L i j)).
    { intros i j I J. cbn [Nat.add]. unfold Cq, mul_tA. rewrite tab_val by auto. unfold gram. rewrite <- sumn_scal. apply sumn_ext.
      intros l Hl. rewrite EY, HLa by auto. ring. }
    assert (IG : is_inverse m (fun i j => sigma * sigma * gram n Si L i j) (fun i j => Gi i j / (sigma * sigma))).
    { apply inverse_both. apply inv_scal; auto. lra. }
    set (b := mul_tA P y m 1 n). cbn [rec_yq rec_f rec_fe].
    set (yq := dgesol m 1 Cq b). set (q := mv m Gi (mv n (tr L) (mv n Si y))).
    assert (Q : forall j, (j < m)%nat -> yq j = q j).
    { intros j J. unfold yq. pose proof (DG m 1%nat Cq b _ _ ECq IG j 0%nat J ltac:(lia)) as E0. replace (j * 1 + 0)%nat with j in E0 by lia. rewrite E0. clear E0.
      unfold q, mv at 1. apply sumn_ext. intros l Hl. unfold b, mul_tA. rewrite tab_val by lia.
      rewrite (sumn_ext n _ (fun k => sigma * sigma * (sumn n (fun b => Si k b * L b l) * y k))).
      2: { intros k K. rewrite EY by auto. replace (k * 1 + 0)%nat with k by lia. ring. }
      rewrite sumn_scal.
      assert (E : mv n (tr L) (mv n Si y) l = sumn n (fun k => sumn n (fun b => Si k b * L b l) * y k)).
      { rewrite mv_mv. unfold mv, tr. apply sumn_ext. intros k K. f_equal. apply sumn_ext. intros c B.
        rewrite (proj1 PDi c k B K). ring. }
      rewrite E. field. lra. }
    split; [exact Q|]. intros i u l A I HU HA HL.
    set (y' := fun i0 : nat => y i0 - mul_MN Larr yq n 1 m i0).
    assert (Y : forall k, (k < n)%nat -> y' k = resid m L y q k).
    { intros k K. unfold y', mul_MN, resid, mv. rewrite (tab_one _ k). rewrite (sumn_ext m _ (fun j => L k j * q j)); [ring|].
      intros j J. rewrite HLa by auto. replace (j * 1 + 0)%nat with j by lia. rewrite Q by auto. reflexivity. }
    split.
    - unfold matvec_MN.
      rewrite (sumn_ext n _ (fun k => u k * mv n Si (resid m L y q) k)).
      2: { intros k K. rewrite HU by auto. pose proof (DG n 1%nat PC y' _ _ HC IC k 0%nat K ltac:(lia)) as E. replace (k * 1 + 0)%nat with k in E by lia. rewrite E. clear E.
           unfold mv. rewrite (sumn_ext n _ (fun j => sigma * sigma * (Si k j * resid m L y q j))).
           - rewrite sumn_scal. field. lra.
           - intros j J. replace (j * 1 + 0)%nat with j by lia. rewrite Y by auto. ring. }
      rewrite (sumn_ext m _ (fun j => l j * q j)) by (intros j J; rewrite HL, Q by auto; reflexivity). reflexivity.
    - f_equal. f_equal. rewrite HA. unfold mul_MN. rewrite tab_val by auto.
      rewrite (sumn_ext n _ (fun k => / (sigma * sigma) * (u k * mv n Si u k))).
      2: { intros k K. rewrite (DG n T PC _ _ _ HC IC) by auto. rewrite HU by auto.
           unfold mv. rewrite (sumn_ext n _ (fun j => Si k j * u j)).
           - unfold Rdiv. ring.
           - intros j J. rewrite transpose_ok by auto. rewrite HU by auto. field. lra. }
      rewrite sumn_scal. unfold dot, Rdiv. ring.
  Qed.
End Core.
