(** Proofs about the dense functions of the continuum mode and the determinants. *)
From Coq Require Import Reals List Arith Lia Lra Psatz ZArith Bool.
From Verif Require Import CPrelude SemisepModel SemisepProofs SemisepProofs2 MatBridge MatBridge2 SemisepProofs3 PropSemisep
  PartModel PartProofs PartProofs2 PropPart PolyRoots GlsAlgebra LikeModel LikeProofs PropLike PredModel PredProofs PropPred LuSpec LuDet LuProofs ConModel.
Import ListNotations.
Open Scope R_scope.

(** ** Logarithm and sign from the factors *)
Definition zsign (x : R) : Z := if Rle_dec 0 x then 1%Z else (-1)%Z.
Lemma sumln_prod n (f : nat -> R) : (forall i, (i < n)%nat -> f i <> 0) -> sumn n (fun i => ln (Rabs (f i))) = ln (Rabs (prodn n f)) /\ prodn n f <> 0.
Proof.
  induction n as [|n IH]; intros H; cbn [sumn prodn].
  - change R1 with 1. rewrite Rabs_R1, ln_1. split; [reflexivity|lra].
  - destruct IH as [E Z]; [auto|]. pose proof (H n ltac:(lia)) as Hn. split.
    + rewrite E, Rabs_mult, ln_mult; [reflexivity|apply Rabs_pos_lt; auto..].
    + apply Rmult_integral_contrapositive. split; auto.
Qed.
Lemma prod_nonzero n (f : nat -> R) : prodn n f <> 0 -> forall i, (i < n)%nat -> f i <> 0.
Proof.
  induction n as [|n IH]; intros H i I; [lia|]. cbn [prodn] in H. destruct (Nat.eq_dec i n) as [->|].
  - intros E. apply H. rewrite E. ring.
  - apply IH; [|lia]. intros E. apply H. rewrite E. ring.
Qed.
Definition sgn (x : R) : R := if Rle_dec 0 x then 1 else -1.
Lemma sgn_mult x y : x <> 0 -> y <> 0 -> sgn (x * y) = sgn x * sgn y.
Proof. intros X Y. unfold sgn. destruct (Rle_dec 0 x), (Rle_dec 0 y), (Rle_dec 0 (x * y)); try ring; exfalso; nra. Qed.
Lemma step_sign f ip n i sg : (i < n)%nat -> (i + 1 <= ip i <= n)%nat -> IZR (sign_step f ip n i sg) = IZR sg * (flip i (ip i - 1) * sgn (f (i * n + i)%nat)).
Proof.
  intros I P. unfold sign_step, flip, sgn. destruct (Nat.eqb_spec (ip i) (i + 1)), (Nat.eqb_spec i (ip i - 1)); try lia;
    destruct (Rle_dec 0 (f (i * n + i)%nat)); rewrite ?mult_IZR; change R1 with 1; ring.
Qed.
Lemma sign_loop_ok f ip n : (forall i, (i < n)%nat -> (i + 1 <= ip i <= n)%nat) -> (forall i, (i < n)%nat -> f (i * n + i)%nat <> 0) ->
  exists sg, for_ 0 n (fun i s => let '(l, sg) := s in (l + ln (Rabs (f (i * n + i)%nat)), sign_step f ip n i sg)) (0, 1%Z) =
    (sumn n (fun i => ln (Rabs (f (i * n + i)%nat))), sg) /\ IZR sg = swap_sign n ip * sgn (prodn n (fun i => f (i * n + i)%nat)).
Proof.
  intros P NZ.
  pose proof (for_inv (R * Z) (fun k s => (k <= n)%nat -> fst s = sumn k (fun i => ln (Rabs (f (i * n + i)%nat))) /\
    IZR (snd s) = swap_sign k ip * sgn (prodn k (fun i => f (i * n + i)%nat))) 0 n
    (fun i s => let '(l, sg) := s in (l + ln (Rabs (f (i * n + i)%nat)), sign_step f ip n i sg)) (0, 1%Z)) as G.
  cbv beta in G. destruct G as [G1 G2].
  - intros _. split; [reflexivity|]. unfold swap_sign. cbn [prodn snd]. unfold sgn. destruct (Rle_dec 0 R1); change R1 with 1 in *; [ring|lra].
  - intros i [l sg] I H LE. destruct H as [H1 H2]; [lia|]. cbn [fst snd] in *. split; [cbn [sumn]; rewrite H1; reflexivity|].
    rewrite step_sign by (try apply P; lia). rewrite H2. unfold swap_sign. cbn [prodn].
    rewrite sgn_mult; [ring| |apply NZ; lia]. apply sumln_prod. intros; apply NZ; lia.
  - cbn [Nat.add]. lia.
  - cbn [Nat.add] in *. destruct (for_ 0 n _ _) as [l sg]. cbn [fst snd] in *. exists sg. rewrite G1. split; auto.
Qed.
Lemma swap_pm n ip : swap_sign n ip = 1 \/ swap_sign n ip = -1.
Proof. pose proof (sign_sq n ip). assert ((swap_sign n ip - 1) * (swap_sign n ip + 1) = 0) by lra. apply Rmult_integral in H0. lra. Qed.
Lemma diag_nonzero n G f ip : lu_factors n G f ip -> detn n G <> 0 -> forall i, (i < n)%nat -> f (i * n + i)%nat <> 0.
Proof.
  intros LU D. apply (prod_nonzero n (fun i => f (i * n + i)%nat)). intros E. apply D. rewrite (lu_det _ _ _ _ LU), E. ring.
Qed.

(** ** What dgetrf and dgetri are for *)
Definition lu_spec (dgetrf : nat -> arr -> arr * (nat -> nat) * bool) (dgetri : nat -> arr -> (nat -> nat) -> arr * bool) : Prop :=
  forall n a G Gi, PropPart.stored a 0 n G -> is_inverse n G Gi ->
    exists f ip g, dgetrf n a = (f, ip, false) /\ lu_factors n G f ip /\ dgetri n f ip = (g, false) /\ PropPart.stored g 0 n Gi.
Section Lu.
Variable dgetrf : nat -> arr -> arr * (nat -> nat) * bool.
Variable dgetri : nat -> arr -> (nat -> nat) -> arr * bool.
Hypothesis LU : lu_spec dgetrf dgetri.
Lemma inverse_ok n a G Gi : PropPart.stored a 0 n G -> inv_of n G Gi -> exists g, inverse_mat dgetrf dgetri a n = Ok g /\ PropPart.stored g 0 n Gi.
Proof.
  intros ST HI. destruct (LU n a G Gi ST (inverse_both _ _ _ HI)) as (f & ip & g & E1 & _ & E2 & S2).
  exists g. unfold inverse_mat. rewrite E1, E2. auto.
Qed.
Lemma lndet3_ok n a G : PropPart.stored a 0 n G -> detn n G <> 0 ->
  exists sg, lndet_mat3 dgetrf a n = Ok (ln (Rabs (detn n G)), sg) /\ IZR sg = sgn (detn n G).
Proof.
  intros ST D. destruct (proj1 (det_inv n G) D) as [Gi HI].
  destruct (LU n a G Gi ST (inverse_both _ _ _ HI)) as (f & ip & g & E1 & F & _).
  pose proof (diag_nonzero _ _ _ _ F D) as Z. pose proof (lu_det _ _ _ _ F) as ED.
  destruct (sign_loop_ok f ip n (proj1 F) Z) as (sg & E & S). exists sg. unfold lndet_mat3. rewrite E1, E.
  destruct (sumln_prod n (fun i => f (i * n + i)%nat) Z) as [EL PZ].
  split.
  - assert (EA : Rabs (detn n G) = Rabs (prodn n (fun i => f (i * n + i)%nat))).
    { rewrite ED, Rabs_mult. destruct (swap_pm n ip) as [-> | ->]; [rewrite Rabs_R1|rewrite (Rabs_left (-1)) by lra]; ring. }
    rewrite EL, EA. reflexivity.
  - rewrite S, ED. set (p := prodn n _) in *. unfold sgn. destruct (swap_pm n ip) as [-> | ->].
    + replace (1 * p) with p by ring. ring.
    + destruct (Rle_dec 0 p), (Rle_dec 0 (-1 * p)); try ring; exfalso; lra.
Qed.

(** ** The matrix of the data *)
Lemma Pmat_ok sigma tau syserr n t fe C0 : forall i j, (i < n)%nat -> (j < n)%nat ->
  set_covar_Pmat_data sigma tau syserr n t fe C0 (i * n + j)%nat =
  exp (- (Rabs (t i - t j) / tau)) + (if Nat.eqb i j then (fe i * fe i + syserr * syserr) / (sigma * sigma) else 0).
Proof.
  set (V := fun i j => exp (- (Rabs (t i - t j) / tau)) + (if Nat.eqb i j then (fe i * fe i + syserr * syserr) / (sigma * sigma) else 0)).
  assert (IX : forall a b c d, (b < n)%nat -> (d < n)%nat -> (a * n + b = c * n + d)%nat -> a = c /\ b = d).
  { intros a b c d B D E. destruct (row_col n a b B) as [A1 A2]. destruct (row_col n c d D) as [C1 C2]. rewrite E in A1, A2. split; congruence. }
  unfold set_covar_Pmat_data.
  pose proof (for_inv arr (fun k C => (k <= n)%nat -> forall i j, (i < k)%nat -> (j < k)%nat -> C (i * n + j)%nat = V i j) 0 n
    (fun i C => let C := for_ 0 i (fun j C => let v := exp (- (Rabs (t i - t j) / tau)) in upd (upd C (j * n + i) v) (i * n + j) v) C in
       upd C (i * n + i) (1 + (fe i * fe i + syserr * syserr) / (sigma * sigma))) C0) as G. cbv beta in G.
  intros i j I J. apply G; cbn [Nat.add]; auto; [intros; lia|]. clear i j I J G.
  intros k C K H LE i j I J. cbv zeta.
  pose proof (for_inv arr (fun m C' => (m <= k)%nat -> (forall a b, (a < k)%nat -> (b < k)%nat -> C' (a * n + b)%nat = V a b) /\
     (forall b, (b < m)%nat -> C' (k * n + b)%nat = V k b /\ C' (b * n + k)%nat = V b k)) 0 k
    (fun j C => upd (upd C (j * n + k) (exp (- (Rabs (t k - t j) / tau)))) (k * n + j) (exp (- (Rabs (t k - t j) / tau)))) C) as G. cbv beta in G.
  destruct G as [G1 G2].
  - intros _. split; [intros; apply H; lia|intros; lia].
  - intros m C' M HC LM. destruct HC as [C1 C2]; [lia|]. split.
    + intros a b A B. rewrite upd_other by (intros E; apply IX in E; lia). rewrite upd_other by (intros E; apply IX in E; lia). apply C1; auto.
    + intros b B. destruct (Nat.eq_dec b m) as [->|NE].
      * split; [rewrite upd_same|rewrite upd_other by (intros E; apply IX in E; lia); rewrite upd_same]; unfold V.
        -- destruct (Nat.eqb_spec k m); [lia|]. ring.
        -- destruct (Nat.eqb_spec m k); [lia|]. rewrite Rabs_minus_sym. ring.
      * destruct (C2 b ltac:(lia)) as [D1 D2]. split; (rewrite upd_other by (intros E; apply IX in E; lia); rewrite upd_other by (intros E; apply IX in E; lia)); auto.
  - cbn [Nat.add]. lia.
  - cbn [Nat.add] in *. destruct (Nat.eq_dec i k) as [->|NI], (Nat.eq_dec j k) as [->|NJ].
    + rewrite upd_same. unfold V. rewrite Nat.eqb_refl. replace (t k - t k) with 0 by ring. rewrite Rabs_R0. unfold Rdiv at 2. rewrite Rmult_0_l, Ropp_0, exp_0. reflexivity.
    + rewrite upd_other by (intros E; apply IX in E; lia). apply G2. lia.
    + rewrite upd_other by (intros E; apply IX in E; lia). apply G2. lia.
    + rewrite upd_other by (intros E; apply IX in E; lia). apply G1; lia.
Qed.

Section Data.
Variables (nq n : nat) (t f fe : arr) (sigma tau syserr : R).
Hypothesis NQ : (1 <= nq)%nat.
Hypothesis N : (1 <= n)%nat.
Hypothesis SG : 0 < sigma.
Hypothesis TP : 0 < tau.
Hypothesis PT : proper_times n syserr t fe.
Hypothesis ET : enough_times nq n t.
Notation SS := (covariance (sigma * sigma) tau syserr t fe).
Variable Si : nat -> nat -> R.
Hypothesis IV : is_inverse n SS Si.
Notation L := (fun i j => t i ^ j).
Lemma s2_pos : 0 < sigma * sigma. Proof. nra. Qed.
Lemma SS_spd : spd n SS.
Proof.
  pose proof s2_pos. split.
  - intros i j I J. unfold covariance. rewrite Rabs_minus_sym. destruct (Nat.eqb_spec i j) as [->|NE]; [rewrite Nat.eqb_refl; reflexivity|].
    destruct (Nat.eqb_spec j i); [congruence|reflexivity].
  - intros x X. apply C28_positive_definite; auto.
Qed.
Lemma SS_inv : inv_of n SS Si. Proof. intros i j I J. destruct (IV i j I J). auto. Qed.
Lemma L_inj v : (forall i, (i < n)%nat -> mv nq L v i = 0) -> forall j, (j < nq)%nat -> v j = 0.
Proof.
  intros Z j J. destruct ET as (pick & P1 & P2).
  refine (@poly_zero nq v (fun i => t (pick i)) P2 _ j J).
  intros i I. etransitivity; [|apply (Z (pick i)); auto]. apply sumn_ext. intros k K. ring.
Qed.
Notation C1 := (fun i j => / (sigma * sigma) * SS i j).
Lemma Pmat_stored C0 : PropPart.stored (set_covar_Pmat_data sigma tau syserr n t fe C0) 0 n C1.
Proof.
  intros i j I J. cbn [Nat.add]. rewrite Pmat_ok by auto. unfold covariance. pose proof s2_pos.
  destruct (Nat.eqb i j); field; lra.
Qed.
Lemma C1_spd : spd n C1. Proof. apply spd_scal; [apply Rinv_0_lt_compat, s2_pos|apply SS_spd]. Qed.
Lemma C1_inv : inv_of n C1 (fun i j => sigma * sigma * Si i j).
Proof.
  pose proof s2_pos. intros i j I J. rewrite <- (SS_inv i j I J). apply sumn_ext. intros. field. lra.
Qed.
Notation G := (gram n Si L).
Lemma Si_spd : spd n Si. Proof. exact (spd_inv _ _ _ SS_spd SS_inv). Qed.
Lemma G_spd : spd nq G. Proof. exact (gram_spd _ _ _ _ Si_spd L_inj). Qed.
Lemma G_inv : exists Gi, inv_of nq G Gi. Proof. apply det_inv. pose proof (spd_det _ _ G_spd). lra. Qed.
(** the steps the two dense functions share *)
Section Steps.
Variables (L0 IPC : arr).
Hypothesis HP : PropPart.stored IPC 0 n (fun i j => sigma * sigma * Si i j).
Notation Larr := (con_trend nq n t L0).
Notation ybuf := (mul_MN IPC Larr n nq n).
Lemma L_ok i j : (i < n)%nat -> (j < nq)%nat -> Larr (i * nq + j)%nat = t i ^ j.
Proof. intros. apply con_trend_ok; auto. Qed.
Lemma HP' i j : (i < n)%nat -> (j < n)%nat -> IPC (i * n + j)%nat = sigma * sigma * Si i j.
Proof. intros I J. specialize (HP i j I J). exact HP. Qed.
Lemma Cq_ok : PropPart.stored (mul_tA Larr ybuf nq nq n) 0 nq (fun i j => sigma * sigma * G i j).
Proof.
  intros i j I J. cbn [Nat.add]. unfold mul_tA. rewrite tab_val by auto. unfold gram. rewrite <- sumn_scal. apply sumn_ext. intros l Hl.
  rewrite L_ok by auto. unfold mul_MN. rewrite tab_val by auto. rewrite <- Rmult_assoc, (Rmult_comm (sigma * sigma)), Rmult_assoc. f_equal. rewrite <- sumn_scal. apply sumn_ext. intros k K.
  rewrite HP', L_ok by auto. ring.
Qed.
Variables (Gi : nat -> nat -> R) (Cq : arr).
Hypothesis HG : inv_of nq G Gi.
Hypothesis HC : PropPart.stored Cq 0 nq (fun i j => Gi i j / (sigma * sigma)).
Notation yq := (mul_MN Cq (mul_tA Larr (matvec IPC n f) nq 1 n) nq 1 nq).
Notation q := (mv nq Gi (mv n (tr L) (mv n Si f))).
Lemma q_ok j : (j < nq)%nat -> yq j = q j.
Proof.
  intros J. pose proof s2_pos. unfold mul_MN. replace j with (j * 1 + 0)%nat at 1 by lia. rewrite tab_val by lia. unfold mv at 1. apply sumn_ext. intros l Hl.
  pose proof (HC j l J Hl) as E. cbn [Nat.add] in E. rewrite E. unfold mul_tA. rewrite tab_val by lia.
  rewrite (sumn_ext n _ (fun k => sigma * sigma * (tr L l k * mv n Si f k))).
  - rewrite sumn_scal. change (mv n (tr L) (mv n Si f) l) with (sumn n (fun k => tr L l k * mv n Si f k)). set (w := sumn n _). field. lra.
  - intros k K. rewrite L_ok by auto. replace (k * 1 + 0)%nat with k by lia. unfold matvec, tr, mv. rewrite (sumn_ext n _ (fun j => sigma * sigma * (Si k j * f j))).
    + rewrite sumn_scal. ring.
    + intros b B. rewrite HP' by auto. ring.
Qed.
Notation y := (fun i => f i - matvec_MN Larr n nq yq i).
Lemma y_ok i : (i < n)%nat -> y i = resid nq L f q i.
Proof.
  intros I. unfold resid, mv at 1, matvec_MN. replace (f i - sumn nq (fun l => Larr (i * nq + l)%nat * yq l)) with (f i - sumn nq (fun l => t i ^ l * q l)); [unfold mv at 1; set (w := sumn nq _); ring|].
  f_equal. apply sumn_ext. intros l Hl. rewrite L_ok, q_ok by auto. reflexivity.
Qed.
Lemma z_ok i : (i < n)%nat -> matvec IPC n y i = sigma * sigma * mv n Si (resid nq L f q) i.
Proof.
  intros I. unfold matvec at 1, mv at 1. rewrite <- sumn_scal. apply sumn_ext. intros k K. rewrite HP', y_ok by auto. ring.
Qed.
End Steps.
End Data.

Lemma chi_same n m Si L y p p' SS : marginal_loglike n m SS Si L y p -> marginal_loglike n m SS Si L y p' -> p = p'.
Proof. intros (q & H & ->) (q' & H' & ->). pose proof (H q'). pose proof (H' q). lra. Qed.

Lemma dense_set_ok nq n t f fe em p0 p1 p2 L0 PC0 Si :
  let sigma := exp p1 * sqrt (exp p2) in let syserr := (exp p0 - 1) * em in let SS := covariance (sigma * sigma) (exp p2) syserr t fe in
  (1 <= nq)%nat -> (1 <= n)%nat -> proper_times n syserr t fe -> enough_times nq n t -> is_inverse n SS Si ->
  exists p, dense_con_set dgetrf dgetri nq n t f fe em p0 p1 p2 L0 PC0 = Ok (Some p) /\ marginal_loglike n nq SS Si (fun i j => t i ^ j) f p.
Proof.
  intros sigma syserr SS NQ N PT ET IV.
  assert (TP : 0 < exp p2) by apply exp_pos.
  assert (SG : 0 < sigma) by (apply Rmult_lt_0_compat; [apply exp_pos|apply sqrt_lt_R0; auto]).
  pose proof (s2_pos sigma SG) as S2.
  unfold dense_con_set. fold sigma syserr.
  pose proof (Pmat_stored n t fe sigma (exp p2) syserr SG PC0) as ST.
  set (PC := set_covar_Pmat_data sigma (exp p2) syserr n t fe PC0) in *.
  destruct (inverse_ok _ _ _ _ ST (C1_inv n t fe sigma (exp p2) syserr SG Si IV)) as (IPC & -> & HP). cbn [bind].
  pose proof (Cq_ok nq n t sigma NQ Si L0 IPC HP) as EC.
  set (Cq0 := mul_tA (con_trend nq n t L0) (mul_MN IPC (con_trend nq n t L0) n nq n) nq nq n) in *.
  destruct (G_inv nq n t fe sigma (exp p2) syserr SG TP PT ET Si IV) as [Gi HG].
  pose proof (inv_scal nq (sigma * sigma) _ _ (Rgt_not_eq _ _ S2) HG) as HG2.
  destruct (inverse_ok _ _ _ _ EC HG2) as (Cq & -> & HC). cbn [bind].
  pose proof (SS_spd n t fe sigma (exp p2) syserr SG TP PT) as PD. fold SS in PD.
  pose proof (C1_spd n t fe sigma (exp p2) syserr SG TP PT) as PD1.
  pose proof (G_spd nq n t fe sigma (exp p2) syserr SG TP PT ET Si IV) as PG.
  set (L := fun i j => t i ^ j) in *. set (G := gram n Si L) in *.
  assert (D1 : detn n (fun i j => / (sigma * sigma) * SS i j) > 0) by (apply spd_det, PD1).
  assert (D2 : detn nq (fun i j => sigma * sigma * G i j) > 0) by (apply spd_det, spd_scal; auto).
  destruct (lndet3_ok n PC _ ST ltac:(unfold SS in D1; lra)) as (sg & -> & E1). cbn [bind fst snd].
  assert (sg <> (-1)%Z).
  { intros ->. unfold sgn in E1. destruct (Rle_dec 0 _); [lra|]. unfold SS in D1. lra. }
  destruct (Z.eqb_spec sg (-1)); [contradiction|].
  destruct (lndet3_ok nq Cq0 _ EC ltac:(lra)) as (sg2 & -> & E2). cbn [bind fst snd].
  assert (sg2 <> (-1)%Z).
  { intros ->. unfold sgn in E2. destruct (Rle_dec 0 _); lra. }
  destruct (Z.eqb_spec sg2 (-1)); [contradiction|].
  eexists. split; [reflexivity|].
  set (q := mv nq Gi (mv n (tr L) (mv n Si f))).
  apply (marginal_link n nq SS Si L f q).
  - exact (spd_inv _ _ _ PD (SS_inv n t fe sigma (exp p2) syserr Si IV)).
  - exact (L_inj nq n t ET).
  - apply (normal_gram n nq Si L f Gi q HG). auto.
  - rewrite !Rabs_right by (try (fold SS); lra). fold SS. rewrite (ln_det_scal n (/ (sigma * sigma)) SS) by (auto; apply Rinv_0_lt_compat; auto).
    rewrite (ln_det_scal nq (sigma * sigma) G) by auto. rewrite ln_Rinv by auto. rewrite (ln_mult sigma sigma) by auto.
    assert (EZ : ddot n (fun i => f i - matvec_MN (con_trend nq n t L0) n nq (mul_MN Cq (mul_tA (con_trend nq n t L0) (matvec IPC n f) nq 1 n) nq 1 nq) i)
       (matvec IPC n (fun i => f i - matvec_MN (con_trend nq n t L0) n nq (mul_MN Cq (mul_tA (con_trend nq n t L0) (matvec IPC n f) nq 1 n) nq 1 nq) i)) =
       sigma * sigma * chi2 n Si (resid nq L f q)).
    { unfold ddot, chi2, dot. rewrite <- sumn_scal. apply sumn_ext. intros i I.
      rewrite (z_ok nq n t f sigma NQ N SG Si L0 IPC HP Gi Cq HC i I).
      pose proof (y_ok nq n t f sigma NQ N SG Si L0 IPC HP Gi Cq HC i I) as Y. cbv beta in Y. rewrite Y. fold L. fold q. ring. }
    cbv beta zeta in EZ |- *. rewrite EZ. fold G. field. lra.
Qed.

Lemma dense_rec_ok nq n t f fe sigma tau syserr T tall L0 Lr0 PC0 Si :
  let SS := covariance (sigma * sigma) tau syserr t fe in
  (1 <= nq)%nat -> (1 <= n)%nat -> 0 < sigma -> 0 < tau -> proper_times n syserr t fe -> enough_times nq n t -> is_inverse n SS Si ->
  exists out, dense_rec_con dgetrf dgetri nq n t f fe sigma tau syserr T tall L0 Lr0 PC0 = Ok out /\
  least_squares n nq Si (fun k j => t k ^ j) f (rec_yq out) /\
  forall i, (i < T)%nat ->
    best_prediction n nq SS (fun k j => t k ^ j) (fun k => sigma * sigma * exp (- (Rabs (tall i - t k) / tau))) (sigma * sigma)
      (fun v => sumn nq (fun j => v j * tall i ^ j)) f (rec_f out i) (rec_fe out i).
Proof.
  intros SS NQ N SG TP PT ET IV. pose proof (s2_pos sigma SG) as S2.
  unfold dense_rec_con.
  destruct (inverse_ok _ _ _ _ (Pmat_stored n t fe sigma tau syserr SG PC0) (C1_inv n t fe sigma tau syserr SG Si IV)) as (IPC & -> & HP). cbn [bind].
  pose proof (Cq_ok nq n t sigma NQ Si L0 IPC HP) as EC.
  set (Cq0 := mul_tA (con_trend nq n t L0) (mul_MN IPC (con_trend nq n t L0) n nq n) nq nq n) in *.
  destruct (G_inv nq n t fe sigma tau syserr SG TP PT ET Si IV) as [Gi HG].
  pose proof (inv_scal nq (sigma * sigma) _ _ (Rgt_not_eq _ _ S2) HG) as HG2.
  destruct (inverse_ok _ _ _ _ EC HG2) as (Cq & -> & HC). cbn [bind].
  pose proof (SS_spd n t fe sigma tau syserr SG TP PT) as PD. fold SS in PD.
  pose proof (SS_inv n t fe sigma tau syserr Si IV) as HI.
  pose proof (spd_inv _ _ _ PD HI) as PDi.
  set (L := fun i j => t i ^ j) in *.
  pose proof (L_inj nq n t ET) as INJ. fold L in INJ.
  pose proof (q_ok nq n t f sigma NQ N SG Si L0 IPC HP Gi Cq HC) as Q.
  pose proof (z_ok nq n t f sigma NQ N SG Si L0 IPC HP Gi Cq HC) as ZO. cbv beta in ZO.
  set (yq := mul_MN Cq (mul_tA (con_trend nq n t L0) (matvec IPC n f) nq 1 n) nq 1 nq) in *.
  set (q := mv nq Gi (mv n (tr L) (mv n Si f))) in *.
  eexists. split; [reflexivity|]. cbn [rec_yq rec_f rec_fe]. split.
  { apply (ls_link n nq Si L f Gi); auto. }
  intros i I. set (u := fun k => sigma * sigma * exp (- (Rabs (tall i - t k) / tau))). set (l := fun j => tall i ^ j).
  assert (HU : forall k, (k < n)%nat -> con_Umat tau n t T tall (i * n + k)%nat = u k / (sigma * sigma)).
  { intros k K. unfold con_Umat. rewrite tab_val by auto. unfold u. field. lra. }
  assert (HL : forall k j, (k < n)%nat -> (j < nq)%nat -> con_trend nq n t L0 (k * nq + j)%nat = L k j) by (intros; apply con_trend_ok; auto).
  assert (HLr : forall j, (j < nq)%nat -> con_trend nq T tall Lr0 (i * nq + j)%nat = l j) by (intros; apply con_trend_ok; auto).
  assert (HPv : forall a b, (a < n)%nat -> (b < n)%nat -> IPC (a * n + b)%nat = sigma * sigma * Si a b) by (intros a b A B; exact (HP a b A B)).
  set (PE1 := mul_MN (con_Umat tau n t T tall) IPC T n n).
  assert (E1 : forall k, (k < n)%nat -> PE1 (i * n + k)%nat = mv n Si u k).
  { intros k K. unfold PE1, mul_MN. rewrite tab_val by auto. unfold mv. apply sumn_ext. intros b B. rewrite HU, HPv by auto.
    rewrite (proj1 PDi k b K B). field. lra. }
  apply (best_core n nq SS Si L Gi u (sigma * sigma) _ l f sigma); auto.
  - apply C60_kernel_nonnegative; auto.
  - intros v. apply sumn_ext. intros j J. unfold l. ring.
  - fold q. unfold dot. f_equal; apply sumn_ext.
    + intros k K. rewrite HU by auto. rewrite ZO by auto. fold L. fold q. field. lra.
    + intros j J. rewrite HLr, Q by auto. reflexivity.
  - set (Dd := dd n Si L u l). f_equal. f_equal.
    set (PE3 := fun i => mul_MN PE1 (con_trend nq n t L0) T nq n i - con_trend nq T tall Lr0 i).
    assert (EL : forall j, (j < nq)%nat -> PE3 (i * nq + j)%nat = - Dd j).
    { intros j J. unfold PE3. rewrite HLr by auto. unfold mul_MN. rewrite tab_val by auto. unfold Dd, dd, mv at 1.
      rewrite (sumn_ext n _ (fun k => tr L j k * mv n Si u k)) by (intros k K; rewrite E1, HL by auto; unfold tr; ring). ring. }
    unfold mul_tB. rewrite !tab_val by auto.
    rewrite (sumn_ext n _ (fun k => / (sigma * sigma) * (u k * mv n Si u k))) by (intros k K; rewrite HU, E1 by auto; unfold Rdiv; ring).
    rewrite (sumn_ext nq _ (fun j => / (sigma * sigma) * (mv nq (tr Gi) Dd j * Dd j))).
    2: { intros j J. unfold mul_MN at 1. rewrite tab_val by auto. rewrite EL by auto.
         rewrite (sumn_ext nq _ (fun b => -1 * / (sigma * sigma) * (tr Gi j b * Dd b))).
         - rewrite sumn_scal. unfold mv, Rdiv. ring.
         - intros b B. pose proof (HC b j B J) as X. cbn [Nat.add] in X. rewrite EL, X by auto. unfold tr, Rdiv. ring. }
    rewrite !sumn_scal. rewrite (dot_tr nq nq Dd Gi). unfold dot. field. lra.
Qed.
End Lu.

Lemma best_same n m SS L u A target y v e v' e' : best_prediction n m SS L u A target y v e -> best_prediction n m SS L u A target y v' e' -> v = v' /\ e = e'.
Proof.
  intros (w & U & -> & P & E & B & Un) (w' & U' & -> & P' & E' & B' & Un').
  pose proof (B w' U') as X. pose proof (B' w U) as X'. split.
  - apply sumn_ext. intros k K. rewrite (Un w' U' X' k K). reflexivity.
  - assert (Q : e * e = e' * e') by lra. nra.
Qed.
