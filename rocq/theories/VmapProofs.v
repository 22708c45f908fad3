(** The virtual driving curve: the matrices are those of CovModel.v without continuum
    points, the algebra is that of a best linear unbiased prediction. *)
From Coq Require Import Reals List Arith Lia Lra Psatz Bool.
From Coquelicot Require Import Coquelicot.
From Verif Require Import SemisepModel SemisepProofs SemisepProofs2 MatBridge MatBridge2 SemisepProofs3 PartProofs PartProofs2 KernelCalc KernelSpec KernelModel PartModel CovModel LikeModel PredModel
  PropPart PropSemisep GlsAlgebra LikeProofs PropLike PredProofs PropPred DecompModel DecompProofs VmapModel.
From Verif Require Import EndModel.
Import ListNotations.
Open Scope R_scope.

(** ** The matrices *)
(** The parameters rearranged so that the data set is one of CovModel.v with no
    continuum points: the variance there carries a factor tau. *)
Definition vpm (pm : arr) (idx_con : nat) (idx_line : nat -> nat) (x : nat) : R :=
  match x with
  | O => 0
  | 1%nat => pm (idx_con + 1)%nat - pm (idx_con + 2)%nat / 2
  | 2%nat => pm (idx_con + 2)%nat
  | S (S (S j)) => pm (idx_line j)
  end.
Definition vidx (j : nat) : nat := S (S (S j)).
Lemma sqrt_exp x : sqrt (exp x) = exp (x / 2).
Proof. replace (exp x) with (Rsqr (exp (x / 2))); [apply sqrt_Rsqr; left; apply exp_pos|]. unfold Rsqr. rewrite <- exp_plus. f_equal. field. Qed.
Lemma vsigma pm ic il : exp (vpm pm ic il (0 + 1)%nat) * sqrt (exp (vpm pm ic il (0 + 2)%nat)) = exp (pm (ic + 1)%nat).
Proof. cbn [vpm Nat.add]. rewrite sqrt_exp, <- exp_plus. f_equal. field. Qed.

Section Mat.
Variable nl : nat.
Variable nline : nat -> nat.
Variables tline fe_line : nat -> arr.
Variable error_mean_line : nat -> R.
Variable pm : arr.
Variable idx_con : nat.
Variable idx_line : nat -> nat.
Variables tc fc : arr.
Variable ec : R.
Notation pm' := (vpm pm idx_con idx_line).
Lemma vscalar Slc Sll Sll2 nall M :
  set_covar_Pmat_data_line_vmap nl nline tline fe_line error_mean_line pm idx_con idx_line Sll Sll2 nall M =
  set_covar_Pmat_data_line 0 tc fc ec nl nline tline fe_line error_mean_line pm' 0 vidx Slc Sll Sll2 nall M.
Proof.
  unfold set_covar_Pmat_data_line_vmap, set_covar_Pmat_data_line, con_con, con_line, line_line.
  change (for_ 0 0 ?b ?x) with x. cbn [for_ seq fold_left].
  unfold sigma, CovModel.tau. rewrite vsigma. reflexivity.
Qed.
Lemma varray Slc_array Sll_array Sll2_array nall M Smat_lc Smat_ll : 
  set_covar_Pmat_data_line_array_vmap nl nline tline fe_line error_mean_line pm idx_con idx_line Sll_array Sll2_array nall M Smat_ll =
  set_covar_Pmat_data_line_array 0 tc fc ec nl nline tline fe_line error_mean_line pm' 0 vidx Slc_array Sll_array Sll2_array nall M Smat_lc Smat_ll.
Proof.
  unfold set_covar_Pmat_data_line_array_vmap, set_covar_Pmat_data_line_array, con_con, line_line_array.
  assert (E : forall M0, fst (con_line_array 0 tc nl nline tline Slc_array nall M0 Smat_lc) = M0).
  { intros M0. unfold con_line_array, for_pos.
    pose proof (for_inv (nat * (mats * arr)) (fun _ s => fst (snd s) = M0) 0 nl
      (fun j x => let '(np, s) := x in ((np + nline j)%nat, let '(M, Smat_lc) := s in
         let Smat_lc := Slc_array tc 0%nat (tline j) (nline j) j Smat_lc in
         (for_ 0 0 (fun i M => for_ 0 (nline j) (fun m M => set4 (i * nall + np + m) ((np + m) * nall + i) (Smat_lc (i * nline j + m)%nat) M) M) M, Smat_lc)))
      (0%nat, (M0, Smat_lc)) eq_refl) as H. cbv beta in H. apply H. intros i [np [M1 s]] _ X. exact X. }
  rewrite E. cbn [for_ seq fold_left]. unfold sigma, CovModel.tau. rewrite vsigma. reflexivity.
Qed.
Lemma vUmat Slc Sll Sll2 nd nrec trec U :
  set_covar_Umat_line_vmap nl nline tline Slc Sll Sll2 nd nrec trec U = set_covar_Umat_line 0 tc nl nline tline pm' 0 Slc Sll Sll2 nd nrec trec U.
Proof. reflexivity. Qed.
Lemma vAmat Slc Sll Sll2 nrec trec A :
  set_covar_Amat_line_vmap nl pm idx_con Slc Sll Sll2 nrec trec A = set_covar_Amat_line nl pm' 0 Slc Sll Sll2 nrec trec A.
Proof. reflexivity. Qed.
End Mat.

(** ** The trends *)
Lemma vline_row_ok : forall nq nqall np j tl m b, (1 <= nq)%nat -> (nq * (1 + j) <= nqall)%nat ->
  (forall i, (i < nqall)%nat -> vline_row nq nqall np j tl m b ((np + m) * nqall + i)%nat = entry nq j (tl m) i) /\
  (forall x, (x < (np + m) * nqall \/ (np + m) * nqall + nqall <= x)%nat -> vline_row nq nqall np j tl m b x = b x).
Proof.
  intros nq nqall np j tl m b NQ SZ. unfold vline_row. set (o := ((np + m) * nqall)%nat).
  destruct (for_fill 0 nqall (fun i => (o + i)%nat) (fun _ => 0) b) as [F1 F2]; [intros; lia|].
  set (b1 := for_ 0 nqall _ b) in *.
  set (b2 := upd b1 (o + j * nq + 0) 1).
  destruct (for_fill 1 (nq - 1) (fun i => (o + j * nq + i)%nat) (fun i => tl m ^ i) b2) as [G1 G2]; [intros; lia|].
  cbv beta in *. clearbody o. split.
  - intros i I. unfold entry.
    destruct (Nat.leb_spec (j * nq) i) as [A|A]; simpl andb.
    + destruct (Nat.ltb_spec i (j * nq + nq)) as [B|B].
      * destruct (Nat.eq_dec i (j * nq)) as [->|NE].
        -- rewrite G2 by (intros; lia). unfold b2. rewrite Nat.add_0_r, upd_same, Nat.sub_diag. reflexivity.
        -- rewrite <- G1 by lia. f_equal. lia.
      * rewrite G2 by (intros; lia). unfold b2. rewrite upd_other by lia. apply F1. lia.
    + rewrite G2 by (intros; lia). unfold b2. rewrite upd_other by lia. apply F1. lia.
  - intros x X. assert (j * nq + nq <= nqall)%nat by nia. rewrite G2 by (intros; lia). unfold b2. rewrite upd_other by lia. apply F2. intros; lia.
Qed.
Lemma vzero_row_ok : forall nqall i b, (1 <= nqall)%nat ->
  (forall j, (j < nqall)%nat -> vzero_row nqall i b ((0 + i) * nqall + j)%nat = 0) /\
  (forall x, (x < (0 + i) * nqall \/ (0 + i) * nqall + nqall <= x)%nat -> vzero_row nqall i b x = b x).
Proof.
  intros nqall i b N. unfold vzero_row. cbn [Nat.add]. destruct (for_fill 0 nqall (fun j => (i * nqall + j)%nat) (fun _ => 0) b) as [F1 F2]; [intros; lia|].
  cbv beta in *. split.
  - intros j J. unfold upd. destruct (Nat.eqb _ _); [reflexivity|]. apply F1. lia.
  - intros x X. rewrite upd_other by lia. apply F2. intros; lia.
Qed.
Lemma vtrend_ok : forall nq nl lnn tl L0, (1 <= nq)%nat ->
  forall c k m, (c < nl)%nat -> (k < lnn c)%nat -> (m < nq * nl)%nat ->
  vtrend_matrix nq nl lnn tl L0 ((psum lnn c + k) * (nq * nl) + m)%nat = entry nq c (tl c k) m.
Proof.
  intros nq nl lnn tl L0 NQ. unfold vtrend_matrix. set (nqall := (nq * nl)%nat).
  pose proof (for_inv (nat * arr) (fun j s => fst s = psum lnn j /\
    (forall c k m, (c < j)%nat -> (k < lnn c)%nat -> (m < nqall)%nat ->
       snd s ((psum lnn c + k) * nqall + m)%nat = entry nq c (tl c k) m)) 0 nl
    (fun j s => let '(np, L) := s in ((np + lnn j)%nat, for_ 0 (lnn j) (vline_row nq nqall np j (tl j)) L)) (0%nat, L0)) as G.
  cbv beta in G. match type of G with ?u -> ?v -> ?w => assert (G' : w) end.
  { apply G.
    - split; [reflexivity|]. intros; lia.
    - intros i [np L] I [H1 H2]. cbn [fst snd] in *. split; [subst np; reflexivity|].
      destruct (for_rows (lnn i) nqall np (vline_row nq nqall np i (tl i)) (fun k m => entry nq i (tl i k) m) L) as [A1 A2].
      { intros k b K. apply vline_row_ok; auto. unfold nqall. nia. }
      intros c k m C K M. destruct (Nat.eq_dec c i) as [->|NE].
      + rewrite <- H1. apply A1; auto.
      + rewrite A2; [apply H2; auto; lia|]. left. subst np.
        assert (psum lnn c + k < psum lnn i)%nat; [|nia].
        pose proof (psum_le i (S c) lnn ltac:(lia)) as X. change (psum lnn (S c)) with (psum lnn c + lnn c)%nat in X. lia. }
  intros c k m C K M. apply (proj2 G'); auto.
Qed.
(** the trend of the driving curve is zero *)
Definition ventry (nq c : nat) (t : R) (m : nat) : R := match c with O => 0 | S j => entry nq j t m end.
Lemma vrec_trend_ok : forall nq nl nall tall L0, (1 <= nq)%nat -> (1 <= nl)%nat ->
  forall c k m, (c <= nl)%nat -> (k < nall c)%nat -> (m < nq * nl)%nat ->
  vrec_trend nq nl nall tall L0 ((psum nall c + k) * (nq * nl) + m)%nat = ventry nq c (tall (psum nall c + k)%nat) m.
Proof.
  intros nq nl nall tall L0 NQ NL. unfold vrec_trend. set (nqall := (nq * nl)%nat).
  assert (NA : (1 <= nqall)%nat) by (unfold nqall; nia).
  destruct (for_rows (nall 0%nat) nqall 0 (vzero_row nqall) (fun _ _ => 0) L0) as [R1 R2].
  { intros i b I. apply vzero_row_ok. auto. }
  set (L1 := for_ 0 (nall 0%nat) _ L0) in *.
  pose proof (for_inv (nat * arr) (fun j s => fst s = psum nall (S j) /\
    (forall c k m, (c <= j)%nat -> (k < nall c)%nat -> (m < nqall)%nat ->
       snd s ((psum nall c + k) * nqall + m)%nat = ventry nq c (tall (psum nall c + k)%nat) m)) 0 nl
    (fun k s => let '(np, L) := s in
      ((np + nall (1 + k))%nat, for_ 0 (nall (1 + k)%nat) (vline_row nq nqall np k (fun i => tall (np + i)%nat)) L)) (nall 0%nat, L1)) as G.
  cbv beta in G. match type of G with ?u -> ?v -> ?w => assert (G' : w) end.
  { apply G.
    - split; [reflexivity|]. intros c k m C K M. assert (c = 0)%nat by lia. subst. cbn [snd psum ventry].
      exact (R1 k m K M).
    - intros i [np L] I [H1 H2]. cbn [fst snd] in *. split; [subst np; reflexivity|].
      destruct (for_rows (nall (S i)) nqall np (vline_row nq nqall np i (fun i => tall (np + i)%nat)) (fun k m => entry nq i (tall (np + k)%nat) m) L) as [A1 A2].
      { intros k b K. apply (vline_row_ok nq nqall np i (fun i => tall (np + i)%nat) k b); auto. unfold nqall. nia. }
      intros c k m C K M. destruct (Nat.eq_dec c (S i)) as [->|NE].
      + rewrite <- H1. apply A1; auto.
      + cbn [Nat.add] in *. rewrite A2; [apply H2; auto; lia|]. left. subst np.
        assert (psum nall c + k < psum nall (S i))%nat; [|nia].
        pose proof (psum_le (S i) (S c) nall). simpl in H. simpl. lia. }
  intros c k m C K M. apply (proj2 G'); auto.
Qed.

(** ** The products of the reconstruction *)
Lemma copy_at : forall n nq (yq q0 : arr) j, (j < n)%nat -> for_ 0 n (fun i q => upd q (i + nq) (yq i)) q0 (nq + j)%nat = yq j.
Proof.
  intros n nq yq q0 j J. destruct (for_fill 0 n (fun i => (i + nq)%nat) yq q0) as [F _]; [intros; lia|]. cbv beta in F.
  replace (nq + j)%nat with (j + nq)%nat by lia. apply F. lia.
Qed.
Lemma copy_before : forall n nq (yq q0 : arr) j, (j < nq)%nat -> for_ 0 n (fun i q => upd q (i + nq) (yq i)) q0 j = q0 j.
Proof. intros n nq yq q0 j J. destruct (for_fill 0 n (fun i => (i + nq)%nat) yq q0) as [_ F]; [intros; lia|]. cbv beta in F. apply F. intros; lia. Qed.

Section Core.
  Variable dgesol : nat -> nat -> arr -> arr -> arr.
  Variable dget : nat -> arr -> arr.
  Hypothesis DG : dgesol_spec dgesol.
  Hypothesis DI : dget_spec dget.
  Lemma rec_vmap_ok : forall nq nl lnn tl y p1 nall tall PC US AS L0 Lr0 UT0 yq0 SS Si L Gi,
    let sigma := exp p1 in
    let n := line_start 0 lnn nl in
    let T := line_start (nall 0%nat) (fun k => nall (1 + k)%nat) nl in
    let m := (nq * nl)%nat in
    spd n SS -> inv_of n SS Si -> inv_of m (gram n Si L) Gi -> symm m Gi ->
    stored PC 0 n (fun i j => SS i j / (sigma * sigma)) ->
    (forall i j, (i < n)%nat -> (j < m)%nat -> vtrend_matrix nq nl lnn tl L0 (i * m + j)%nat = L i j) ->
    let out := rec_vmap_set dgesol dget nq nl lnn tl y p1 nall tall PC US AS L0 Lr0 UT0 yq0 in
    let q := mv m Gi (mv n (tr L) (mv n Si y)) in
    (forall j, (j < m)%nat -> rec_yq out (nq + j)%nat = q j) /\ (forall j, (j < nq)%nat -> rec_yq out j = yq0 j) /\
    forall i u l A, (i < T)%nat ->
      (forall k, (k < n)%nat -> US (i * n + k)%nat = u k / (sigma * sigma)) -> AS (i * T + i)%nat = A / (sigma * sigma) ->
      (forall j, (j < m)%nat -> vrec_trend nq nl nall tall Lr0 (i * m + j)%nat = l j) ->
      rec_f out i = dot n u (mv n Si (resid m L y q)) + dot m l q /\
      rec_fe out i = if (i <? nall 0%nat)%nat then sigma * sqrt ((A - dot n u (mv n Si u)) / (sigma * sigma))
        else sigma * sqrt ((A - dot n u (mv n Si u) + dot m (dd n Si L u l) (mv m Gi (dd n Si L u l))) / (sigma * sigma)).
  Proof.
    intros nq nl lnn tl y p1 nall tall PC US AS L0 Lr0 UT0 yq0 SS Si L Gi sigma n T m PD HI HG GS HC HLa.
    assert (SG : 0 < sigma) by apply exp_pos.
    unfold rec_vmap_set. cbv zeta. fold sigma. fold n. fold T. fold m.
    set (Larr := vtrend_matrix nq nl lnn tl L0) in *.
    set (Lrec := vrec_trend nq nl nall tall Lr0).
    assert (S2 : 0 < sigma * sigma) by nra. pose proof (spd_inv _ _ _ PD HI) as PDi.
    assert (IC : is_inverse n (fun i j => SS i j / (sigma * sigma)) (fun i j => sigma * sigma * Si i j)).
    { apply inverse_both. intros i j I J. rewrite <- (HI i j I J). apply sumn_ext. intros. field. lra. }
    set (P := dgesol n m PC Larr).
    assert (EY : forall i j, (i < n)%nat -> (j < m)%nat -> P (i * m + j)%nat = sigma * sigma * sumn n (fun l => Si i l * L l j)).
    { intros i j I J. unfold P. rewrite (DG n m PC Larr _ _ HC IC) by auto. rewrite <- sumn_scal. apply sumn_ext.
      intros l Hl. rewrite HLa by auto. ring. }
    set (Cq := mul_tA Larr P m m n).
    assert (ECq : stored Cq 0 m (fun i j => sigma * sigma * gram n Si L i j)).
    { intros i j I J. cbn [Nat.add]. unfold Cq, mul_tA. rewrite tab_val by auto. unfold gram. rewrite <- sumn_scal. apply sumn_ext.
      intros l Hl. rewrite EY, HLa by auto. ring. }
    assert (IG : is_inverse m (fun i j => sigma * sigma * gram n Si L i j) (fun i j => Gi i j / (sigma * sigma))).
    { apply inverse_both. apply inv_scal; auto. lra. }
    pose proof (DI m Cq _ _ ECq IG) as EI. set (Cq' := dget m Cq) in *.
    set (b := mul_tA P y m 1 n). cbn [rec_yq rec_f rec_fe].
    set (yq := dgesol m 1 Cq b). set (q := mv m Gi (mv n (tr L) (mv n Si y))).
    assert (Q : forall j, (j < m)%nat -> yq j = q j).
    { intros j J. unfold yq. pose proof (DG m 1%nat Cq b _ _ ECq IG j 0%nat J ltac:(lia)) as E0. replace (j * 1 + 0)%nat with j in E0 by lia. rewrite E0. clear E0.
      unfold q, mv at 1. apply sumn_ext. intros l Hl. unfold b, mul_tA. rewrite tab_val by lia.
      rewrite (sumn_ext n _ (fun k => sigma * sigma * (sumn n (fun b => Si k b * L b l) * y k))).
      2: { intros k K. rewrite EY by auto. replace (k * 1 + 0)%nat with k by lia. ring. }
      rewrite sumn_scal.
      assert (E : mv n (tr L) (mv n Si y) l = sumn n (fun k => sumn n (fun b => Si k b * L b l) * y k)).
      { rewrite mv_mv. unfold mv, tr. apply sumn_ext. intros k K. f_equal. apply sumn_ext. intros c B.
        rewrite (proj1 PDi c k B K). ring. }
      rewrite E. field. lra. }
    split; [intros j J; rewrite copy_at by auto; apply Q; auto|].
    split; [intros j J; apply copy_before; auto|].
    intros i u l A I HU HA HL.
    set (y' := fun i0 : nat => y i0 - mul_MN Larr yq n 1 m i0).
    assert (Y : forall k, (k < n)%nat -> y' k = resid m L y q k).
    { intros k K. unfold y', mul_MN, resid, mv. rewrite (tab_one _ k). rewrite (sumn_ext m _ (fun j => L k j * q j)); [ring|].
      intros j J. rewrite HLa by auto. replace (j * 1 + 0)%nat with j by lia. rewrite Q by auto. reflexivity. }
    split.
    - unfold matvec_MN.
      rewrite (sumn_ext n _ (fun k => u k * mv n Si (resid m L y q) k)).
      2: { intros k K. rewrite HU by auto. pose proof (DG n 1%nat PC y' _ _ HC IC k 0%nat K ltac:(lia)) as E. replace (k * 1 + 0)%nat with k in E by lia. rewrite E. clear E.
           unfold mv. rewrite (sumn_ext n _ (fun j => sigma * sigma * (Si k j * resid m L y q j))).
           - rewrite sumn_scal. field. lra.
           - intros j J. replace (j * 1 + 0)%nat with j by lia. rewrite Y by auto. ring. }
      rewrite (sumn_ext m _ (fun j => l j * q j)) by (intros j J; rewrite HL, Q by auto; reflexivity). reflexivity.
    - set (UT := for_ 0 T _ UT0). set (PE2 := dgesol n T PC UT).
      assert (E2 : forall k, (k < n)%nat -> PE2 (k * T + i)%nat = mv n Si u k).
      { intros k K. unfold PE2. rewrite (DG n T PC _ _ _ HC IC) by auto. unfold mv. apply sumn_ext. intros j J. unfold UT. rewrite transpose_ok by auto. rewrite HU by auto. field. lra. }
      assert (E1 : mul_MN US PE2 T T n (i * T + i)%nat = / (sigma * sigma) * dot n u (mv n Si u)).
      { unfold mul_MN. rewrite tab_val by auto. unfold dot. rewrite <- sumn_scal. apply sumn_ext. intros k K. rewrite HU, E2 by auto. unfold Rdiv. ring. }
      set (D := dd n Si L u l).
      set (PE3 := fun i0 : nat => mul_tA PE2 Larr T m n i0 - Lrec i0).
      assert (E3 : forall j, (j < m)%nat -> PE3 (i * m + j)%nat = - D j).
      { intros j J. unfold PE3, mul_tA. rewrite tab_val by auto. unfold Lrec. rewrite HL by auto. unfold D, dd, mv at 1.
        rewrite (sumn_ext n _ (fun k => tr L j k * mv n Si u k)); [ring|]. intros k K. rewrite E2, HLa by auto. unfold tr. ring. }
      assert (E4 : mul_tB (mul_MN PE3 Cq' T m m) PE3 T T m (i * T + i)%nat = / (sigma * sigma) * dot m D (mv m Gi D)).
      { unfold mul_tB. rewrite tab_val by auto. rewrite <- (sym_dot m Gi D D GS). unfold dot. rewrite <- sumn_scal. apply sumn_ext. intros j J.
        rewrite E3 by auto. unfold mul_MN. rewrite tab_val by auto.
        rewrite (sumn_ext m _ (fun k => - / (sigma * sigma) * (Gi j k * D k))).
        2: { intros k K. rewrite E3 by auto. change (k * m + j)%nat with (0 + k * m + j)%nat. rewrite (EI k j K J). rewrite (GS k j K J). unfold Rdiv. ring. }
        rewrite sumn_scal. unfold mv. ring. }
      rewrite HA, E1, E4. destruct (i <? nall 0%nat)%nat; f_equal; f_equal; unfold Rdiv; ring.
  Qed.
End Core.
