(** C86, C87, C88: the continuum mode over all data sets, what it writes, and the
    determinants by dgetrf. *)
From Coq Require Import Reals List Arith Lia Lra Psatz ZArith Bool ClassicalEpsilon.
From Verif Require Import CPrelude SemisepModel SemisepProofs SemisepProofs2 MatBridge MatBridge2 SemisepProofs3 PropSemisep
  PartModel PartProofs PartProofs2 PropPart PolyRoots GlsAlgebra LikeModel LikeProofs PropLike PredModel PredProofs PropPred
  SmallModel PropSmall ParamModel LuSpec LuDet LuProofs ConModel ConProofs.
From Verif Require RecModel.
Import ListNotations.
Open Scope R_scope.

(** ** dgetrf and dgetri as wanted exist *)
Lemma swap_inj A B i p n : (i < n)%nat -> (p < n)%nat -> (forall r c, (r < n)%nat -> (c < n)%nat -> swap_rows A i p r c = swap_rows B i p r c) ->
  forall r c, (r < n)%nat -> (c < n)%nat -> A r c = B r c.
Proof.
  intros I P H r c R0 C. unfold swap_rows in H. destruct (Nat.eq_dec r i) as [->|NI].
  - specialize (H p c P C). destruct (Nat.eqb_spec p i) as [->|]; [exact H|]. rewrite Nat.eqb_refl in H. exact H.
  - destruct (Nat.eq_dec r p) as [->|NP].
    + specialize (H i c I C). rewrite Nat.eqb_refl in H. exact H.
    + specialize (H r c R0 C). destruct (Nat.eqb_spec r i); [contradiction|]. destruct (Nat.eqb_spec r p); [contradiction|]. exact H.
Qed.
Lemma exchanged_inj n k ip A B : (k <= n)%nat -> (forall i, (i < k)%nat -> (i + 1 <= ip i <= n)%nat) ->
  (forall r c, (r < n)%nat -> (c < n)%nat -> exchanged k ip A r c = exchanged k ip B r c) -> forall r c, (r < n)%nat -> (c < n)%nat -> A r c = B r c.
Proof.
  induction k as [|k IH]; intros K H E; [exact E|]. specialize (H k ltac:(lia)) as HK. apply IH; [lia|auto|].
  apply (swap_inj _ _ k (ip k - 1) n); try lia. exact E.
Qed.
Lemma inv_ext n A B C : (forall r c, (r < n)%nat -> (c < n)%nat -> A r c = B r c) -> inv_of n A C -> inv_of n B C.
Proof. intros E H i j I J. rewrite <- (H i j I J). apply sumn_ext. intros k K. rewrite E by auto. reflexivity. Qed.
Definition some_lu (n : nat) (a : arr) : arr * (nat -> nat) * bool :=
  match excluded_middle_informative (exists x : arr * (nat -> nat), lu_factors n (fun i j => a (i * n + j)%nat) (fst x) (snd x)) with
  | left E => (proj1_sig (constructive_indefinite_description _ E), false)
  | right _ => ((a, fun _ => 0%nat), true)
  end.
Definition some_inv (n : nat) (f : arr) (ip : nat -> nat) : arr * bool :=
  match excluded_middle_informative (exists g : arr, exists G Gi, lu_factors n G f ip /\ inv_of n G Gi /\ PropPart.stored g 0 n Gi) with
  | left E => (proj1_sig (constructive_indefinite_description _ E), false)
  | right _ => (f, true)
  end.
Example lu_spec_met : lu_spec some_lu some_inv.
Proof.
  intros n a G Gi ST IV.
  assert (HI : inv_of n G Gi) by (intros i j I J; destruct (IV i j I J); auto).
  assert (SA : forall r c, (r < n)%nat -> (c < n)%nat -> G r c = a (r * n + c)%nat) by (intros r c R0 C; symmetry; exact (ST r c R0 C)).
  assert (HA : inv_of n (fun i j => a (i * n + j)%nat) Gi) by (apply (inv_ext n G); auto).
  unfold some_lu. destruct (excluded_middle_informative _) as [E|E].
  2: { exfalso. apply E. destruct (lu_exists n _ (inv_nonsingular _ _ _ HA)) as (f & ip & F). exists (f, ip). exact F. }
  destruct (constructive_indefinite_description _ E) as [[f ip] F]. cbn [proj1_sig fst snd] in *. clear E.
  assert (FG : lu_factors n G f ip).
  { destruct F as (F1 & F2 & F3). split; [auto|]. split; [|auto]. intros i j I J. rewrite <- F2 by auto. rewrite !exchanged_place. apply SA; auto.
    apply (place_lt n n ip i); auto. }
  exists f, ip. unfold some_inv. destruct (excluded_middle_informative _) as [E|E].
  2: { exfalso. apply E. exists (tab n Gi), G, Gi. split; [auto|]. split; [auto|]. intros i j I J. cbn [Nat.add]. apply tab_val; auto. }
  destruct (constructive_indefinite_description _ E) as [g (G' & Gi' & F' & I' & S')]. cbn [proj1_sig]. exists g. split; [reflexivity|]. split; [exact FG|]. split; [reflexivity|].
  assert (EG : forall r c, (r < n)%nat -> (c < n)%nat -> G' r c = G r c).
  { apply (exchanged_inj n n ip); [lia|apply FG|]. intros r c R0 C. rewrite (proj1 (proj2 F')), (proj1 (proj2 FG)) by auto. reflexivity. }
  pose proof (inv_unique HI (inv_ext _ _ _ _ EG I')) as U.
  intros i j I J. rewrite (S' i j I J). symmetry. apply U; auto.
Qed.

(** ** C88: determinants *)
(** -1 for a negative number, otherwise 1 *)
Definition sign_of (x : R) (s : Z) : Prop := (x < 0 -> s = (-1)%Z) /\ (0 < x -> s = 1%Z).
Definition positive_definite (n : nat) (A : nat -> nat -> R) : Prop :=
  (forall i j, (i < n)%nat -> (j < n)%nat -> A i j = A j i) /\
  forall x : nat -> R, (exists i, (i < n)%nat /\ x i <> 0) -> 0 < sumn n (fun i => sumn n (fun j => x i * A i j * x j)).
(** the factorisation has to succeed only when the matrix has an inverse *)
Definition factors_ok (dgetrf : nat -> arr -> arr * (nat -> nat) * bool) : Prop :=
  forall n a A B, PropPart.stored a 0 n A -> is_inverse n A B -> exists f ip, dgetrf n a = (f, ip, false) /\ lu_factors n A f ip.
Lemma spec_factors dgetrf dgetri : lu_spec dgetrf dgetri -> factors_ok dgetrf.
Proof. intros H n a A B ST IV. destruct (H n a A B ST IV) as (f & ip & g & E & F & _). exists f, ip. auto. Qed.
Lemma fact_det dgetrf n a A B : factors_ok dgetrf -> PropPart.stored a 0 n A -> is_inverse n A B ->
  exists f ip, dgetrf n a = (f, ip, false) /\ lu_factors n A f ip /\ detn n A <> 0 /\ (forall i, (i < n)%nat -> f (i * n + i)%nat <> 0).
Proof.
  intros H ST IV. destruct (H n a A B ST IV) as (f & ip & E & F). exists f, ip. split; [auto|]. split; [auto|].
  assert (D : detn n A <> 0). { apply det_inv. exists B. intros i j I J. destruct (IV i j I J). auto. }
  split; [auto|]. exact (diag_nonzero _ _ _ _ F D).
Qed.
Lemma abs_det n A f ip : lu_factors n A f ip -> Rabs (detn n A) = Rabs (prodn n (fun i => f (i * n + i)%nat)).
Proof. intros F. rewrite (lu_det _ _ _ _ F), Rabs_mult. destruct (swap_pm n ip) as [-> | ->]; [rewrite Rabs_R1|rewrite (Rabs_left (-1)) by lra]; ring. Qed.
Theorem C88_determinant : forall dgetrf n a A B, factors_ok dgetrf -> PropPart.stored a 0 n A -> is_inverse n A B ->
  det_mat dgetrf a n = Ok (detn n A).
Proof.
  intros trf n a A B H ST IV. destruct (fact_det _ _ _ _ _ H ST IV) as (f & ip & E & F & D & NZ).
  unfold det_mat. rewrite E. f_equal. rewrite (lu_det _ _ _ _ F).
  pose proof (for_inv R (fun k d => (k <= n)%nat -> d = swap_sign k ip * prodn k (fun i => f (i * n + i)%nat)) 0 n
    (fun i d => let d := d * f (i * n + i)%nat in if Nat.eqb (ip i) (i + 1) then d else - d) 1) as G. cbv beta zeta in G.
  cbv zeta. apply G; cbn [Nat.add]; [intros _; unfold swap_sign; cbn [prodn]; ring| |lia].
  intros i d I HD LE. rewrite HD by lia. pose proof (proj1 F i ltac:(lia)) as P. unfold swap_sign. cbn [prodn]. unfold flip at 4.
  destruct (Nat.eqb_spec (ip i) (i + 1)), (Nat.eqb_spec i (ip i - 1)); try lia; ring.
Qed.
Theorem C88_logarithm : forall dgetrf n a A B, factors_ok dgetrf -> PropPart.stored a 0 n A -> is_inverse n A B ->
  lndet_mat dgetrf a n = Ok (ln (Rabs (detn n A))) /\
  exists s, lndet_mat3 dgetrf a n = Ok (ln (Rabs (detn n A)), s) /\ sign_of (detn n A) s.
Proof.
  intros trf n a A B H ST IV. destruct (fact_det _ _ _ _ _ H ST IV) as (f & ip & E & F & D & NZ).
  destruct (sumln_prod n (fun i => f (i * n + i)%nat) NZ) as [EL PZ].
  split.
  - unfold lndet_mat. rewrite E, (abs_det _ _ _ _ F), <- EL. f_equal.
    pose proof (for_inv R (fun k l => l = sumn k (fun i => ln (Rabs (f (i * n + i)%nat)))) 0 n (fun i l => l + ln (Rabs (f (i * n + i)%nat))) 0) as G.
    apply G; [reflexivity|]. intros i l _ ->. reflexivity.
  - destruct (sign_loop_ok f ip n (proj1 F) NZ) as (sg & EQ & S). exists sg. unfold lndet_mat3. rewrite E, EQ, EL, (abs_det _ _ _ _ F). split; [reflexivity|].
    pose proof (lu_det _ _ _ _ F) as ED. set (p := prodn n _) in *. unfold sgn in S.
    destruct (swap_pm n ip) as [W|W]; rewrite W in *; destruct (Rle_dec 0 p); split; intros X; apply eq_IZR; lra.
Qed.
Print Assumptions C88_determinant.
Print Assumptions C88_logarithm.

Definition two (a b c d : R) : nat -> nat -> R := fun i j => match i, j with O, O => a | O, _ => b | _, O => c | _, _ => d end.
Lemma two_stored a b c d : PropPart.stored (tab 2 (two a b c d)) 0 2 (two a b c d).
Proof. intros i j I J. cbn [Nat.add]. apply tab_val; auto. Qed.
Lemma two_inverse a b c d D : D = a * d - b * c -> D <> 0 -> is_inverse 2 (two a b c d) (two (d / D) (- b / D) (- c / D) (a / D)).
Proof.
  intros -> NZ i j I J. assert (i = 0 \/ i = 1)%nat as [-> | ->] by lia; assert (j = 0 \/ j = 1)%nat as [-> | ->] by lia;
    cbn; split; field; auto.
Qed.
(** [[1,2],[2,5]]: its determinant is 1 *)
Example C88_example : det_mat some_lu (tab 2 (two 1 2 2 5)) 2 = Ok 1 /\ det_mat some_lu (tab 2 (two 0 2 3 1)) 2 = Ok (-6).
Proof.
  pose proof (spec_factors _ _ lu_spec_met) as F. split.
  - rewrite (C88_determinant _ 2 _ _ _ F (two_stored 1 2 2 5) (two_inverse 1 2 2 5 1 ltac:(ring) ltac:(lra))). f_equal. rewrite detn2. cbn [two]. ring.
  - rewrite (C88_determinant _ 2 _ _ _ F (two_stored 0 2 3 1) (two_inverse 0 2 3 1 (-6) ltac:(ring) ltac:(lra))). f_equal. rewrite detn2. cbn [two]. ring.
Qed.
(** lndet_mat2 says -1 "if any sign of the eigen values is negative".  It says -1 for a
    matrix that is positive definite, and 1 for one that is negative definite. *)
Lemma pivot_two a b c d f ip : Rabs a < Rabs c -> a * d - b * c <> 0 -> lu_factors 2 (two a b c d) f ip ->
  ip 0%nat = 2%nat /\ ip 1%nat = 2%nat /\ f 0%nat = c /\ f 3%nat = b - a / c * d.
Proof.
  intros L D (H1 & H2 & H3).
  assert (CZ : c <> 0) by (intros ->; rewrite Rabs_R0 in L; pose proof (Rabs_pos a); lra).
  pose proof (H1 0%nat ltac:(lia)) as P0. pose proof (H1 1%nat ltac:(lia)) as P1.
  assert (E1 : ip 1%nat = 2%nat) by lia.
  pose proof (H2 0%nat 0%nat ltac:(lia) ltac:(lia)) as A00. pose proof (H2 0%nat 1%nat ltac:(lia) ltac:(lia)) as A01.
  pose proof (H2 1%nat 0%nat ltac:(lia) ltac:(lia)) as A10. pose proof (H2 1%nat 1%nat ltac:(lia) ltac:(lia)) as A11.
  pose proof (H3 1%nat 0%nat ltac:(lia)) as B10. 
  cbn [exchanged] in *. unfold swap_rows in *. rewrite E1 in *. cbn in A00, A01, A10, A11, B10.
  assert (ip 0 = 1 \/ ip 0 = 2)%nat as [E0|E0] by lia; rewrite E0 in *; cbn in A00, A01, A10, A11.
  - exfalso. assert (F0 : f 0%nat = a) by lra. rewrite F0 in *. assert (F2 : f 2%nat * a = c) by lra.
    pose proof (Rabs_mult (f 2%nat) a) as M. rewrite F2 in M. pose proof (Rabs_pos a). nra.
  - assert (F0 : f 0%nat = c) by lra. assert (F1 : f 1%nat = d) by lra. rewrite F0, F1 in *.
    assert (F2 : f 2%nat * c = a) by lra. assert (F2' : f 2%nat = a / c) by (rewrite <- F2; field; auto). rewrite F2' in *.
    repeat split; auto. lra.
Qed.
Theorem C88_some_sign_refuted : exists a A A', positive_definite 2 A /\ PropPart.stored a 0 2 A /\ is_inverse 2 A A' /\
  forall dgetrf s0, factors_ok dgetrf -> exists l, lndet_mat2 dgetrf a 2 s0 = Ok (l, (-1)%Z).
Proof.
  exists (tab 2 (two 1 2 2 5)), (two 1 2 2 5), (two (5 / 1) (- 2 / 1) (- 2 / 1) (1 / 1)).
  pose proof (two_stored 1 2 2 5) as ST. pose proof (two_inverse 1 2 2 5 1 ltac:(ring) ltac:(lra)) as IV. split.
  { split.
    - intros i j I J. assert (i = 0 \/ i = 1)%nat as [-> | ->] by lia; assert (j = 0 \/ j = 1)%nat as [-> | ->] by lia; reflexivity.
    - intros x (i & I & X).
      replace (sumn 2 _) with ((x 0%nat + 2 * x 1%nat) * (x 0%nat + 2 * x 1%nat) + x 1%nat * x 1%nat) by (cbn [sumn two]; ring).
      pose proof (Rle_0_sqr (x 0%nat + 2 * x 1%nat)). pose proof (Rle_0_sqr (x 1%nat)).
      destruct (Req_dec (x 1%nat) 0) as [Z|Z]; [|pose proof (Rsqr_pos_lt _ Z); unfold Rsqr in *; lra].
      assert (NZ : x 0%nat <> 0); [|pose proof (Rsqr_pos_lt _ NZ); unfold Rsqr in *; rewrite Z in *; lra].
      assert (i = 0 \/ i = 1)%nat as [-> | ->] by lia; congruence. }
  split; [exact ST|]. split; [exact IV|]. intros trf s0 H. destruct (H 2%nat _ _ _ ST IV) as (f & ip & E & F).
  destruct (pivot_two 1 2 2 5 f ip) as (P0 & P1 & F0 & F3); auto; [rewrite !Rabs_right; lra|lra|].
  unfold lndet_mat2. rewrite E. eexists. f_equal. f_equal.
  cbn [sign_loop]. unfold sign_step. change (0 * 2 + 0)%nat with 0%nat. rewrite F0, P0. destruct (Rle_dec 0 2); [|lra]. reflexivity.
Qed.
Theorem C88_no_sign_refuted : exists a A A', positive_definite 2 (fun i j => - A i j) /\ PropPart.stored a 0 2 A /\ is_inverse 2 A A' /\
  forall dgetrf s0, factors_ok dgetrf -> exists l, lndet_mat2 dgetrf a 2 s0 = Ok (l, 1%Z).
Proof.
  exists (tab 2 (two (-1) (-2) (-2) (-5))), (two (-1) (-2) (-2) (-5)), (two (-5 / 1) (- -2 / 1) (- -2 / 1) (-1 / 1)).
  pose proof (two_stored (-1) (-2) (-2) (-5)) as ST. pose proof (two_inverse (-1) (-2) (-2) (-5) 1 ltac:(ring) ltac:(lra)) as IV. split.
  { split.
    - intros i j I J. assert (i = 0 \/ i = 1)%nat as [-> | ->] by lia; assert (j = 0 \/ j = 1)%nat as [-> | ->] by lia; reflexivity.
    - intros x (i & I & X).
      replace (sumn 2 _) with ((x 0%nat + 2 * x 1%nat) * (x 0%nat + 2 * x 1%nat) + x 1%nat * x 1%nat) by (cbn [sumn two]; ring).
      pose proof (Rle_0_sqr (x 0%nat + 2 * x 1%nat)). pose proof (Rle_0_sqr (x 1%nat)).
      destruct (Req_dec (x 1%nat) 0) as [Z|Z]; [|pose proof (Rsqr_pos_lt _ Z); unfold Rsqr in *; lra].
      assert (NZ : x 0%nat <> 0); [|pose proof (Rsqr_pos_lt _ NZ); unfold Rsqr in *; rewrite Z in *; lra].
      assert (i = 0 \/ i = 1)%nat as [-> | ->] by lia; congruence. }
  split; [exact ST|]. split; [exact IV|]. intros trf s0 H. destruct (H 2%nat _ _ _ ST IV) as (f & ip & E & F).
  destruct (pivot_two (-1) (-2) (-2) (-5) f ip) as (P0 & P1 & F0 & F3); auto; [rewrite !Rabs_left; lra|lra|].
  unfold lndet_mat2. rewrite E. eexists. f_equal. f_equal.
  cbn [sign_loop]. unfold sign_step. change (0 * 2 + 0)%nat with 0%nat. change (1 * 2 + 1)%nat with 3%nat. rewrite F0, F3, P0, P1.
  destruct (Rle_dec 0 (-2)); [lra|]. destruct (Rle_dec 0 _) as [L|L]; [reflexivity|exfalso; apply L; lra].
Qed.
Print Assumptions C88_some_sign_refuted.
Print Assumptions C88_no_sign_refuted.

(** ** C86: the likelihood of the continuum mode *)
Section Spec.
Variable ds : nat -> cset.
Variable uniform_var : bool.
Variable nq : nat.
Variable pm : nat -> R.
(** number c (0 systematic error, 1 amplitude, 2 damping time) of set k: one triple for
    all sets or one per set *)
Definition con_slot (k c : nat) : nat := if uniform_var then c else (3 * k + c)%nat.
Definition con_syserr (k : nat) : R := (exp (pm (con_slot k 0)) - 1) * c_em (ds k).
Definition con_tau (k : nat) : R := exp (pm (con_slot k 2)).
Definition con_sigma (k : nat) : R := exp (pm (con_slot k 1)) * sqrt (con_tau k).
Definition con_cov (k : nat) : nat -> nat -> R := covariance (con_sigma k * con_sigma k) (con_tau k) (con_syserr k) (c_t (ds k)) (c_fe (ds k)).
Definition con_ok (k : nat) : Prop :=
  (1 <= nq)%nat /\ (1 <= c_n (ds k))%nat /\ proper_times (c_n (ds k)) (con_syserr k) (c_t (ds k)) (c_fe (ds k)) /\ enough_times nq (c_n (ds k)) (c_t (ds k)).
Definition con_trends (k i j : nat) : R := c_t (ds k) i ^ j.
End Spec.
Lemma slot_idx u k c : (idx_con_pm u k + c)%nat = con_slot u k c.
Proof. unfold idx_con_pm, con_slot. destruct u; lia. Qed.
Lemma slot_idx0 u k : idx_con_pm u k = con_slot u k 0.
Proof. rewrite <- slot_idx. lia. Qed.

Theorem C86_likelihood : forall IP (dsytrf : nat -> (nat -> nat -> R) -> (nat -> nat -> R) * IP) dsytri nset ds uniform_var nq fd pm Si,
  dsytr_spec dsytrf dsytri ->
  (forall k, (k < nset)%nat -> con_ok ds uniform_var nq pm k /\ is_inverse (c_n (ds k)) (con_cov ds uniform_var pm k) (Si k)) ->
  exists p, (forall k, (k < nset)%nat -> marginal_loglike (c_n (ds k)) nq (con_cov ds uniform_var pm k) (Si k) (con_trends ds k) (c_f (ds k)) (p k)) /\
    prob_con_variability_semiseparable dsytrf dsytri nset ds uniform_var nq fd pm = sumn nset p.
Proof.
  intros IP trf tri nset ds u nq fd pm Si LP H.
  exists (fun k => prob_con_set trf tri nq (c_n (ds k)) (c_t (ds k)) (c_f (ds k)) (c_fe (ds k)) (c_em (ds k)) (pm (con_slot u k 0)) (pm (con_slot u k 1)) (pm (con_slot u k 2))
      (k_L (fd k)) (k_W (fd k)) (k_D (fd k)) (k_phi (fd k)) (k_Z (fd k))). split.
  - intros k K. destruct (H k K) as ((NQ & N & PT & ET) & IV). apply C30_continuum; auto.
  - unfold prob_con_variability_semiseparable.
    match goal with |- for_ 0 nset ?F 0 = sumn nset ?P => pose proof (for_inv R (fun k s => s = sumn k P) 0 nset F 0) as G end. cbv beta zeta in G.
    cbv zeta. apply G; [reflexivity|]. intros k s _ ->. cbn [sumn]. rewrite !slot_idx, slot_idx0. reflexivity.
Qed.
(** the slower function with full matrices gives the same number *)
Theorem C86_dense : forall IP (dsytrf : nat -> (nat -> nat -> R) -> (nat -> nat -> R) * IP) dsytri dgetrf dgetri nset ds uniform_var nq fd fd' pm Si,
  dsytr_spec dsytrf dsytri -> lu_spec dgetrf dgetri ->
  (forall k, (k < nset)%nat -> con_ok ds uniform_var nq pm k /\ is_inverse (c_n (ds k)) (con_cov ds uniform_var pm k) (Si k)) ->
  prob_con_variability dgetrf dgetri nset ds uniform_var nq fd' pm =
    Ok (Some (prob_con_variability_semiseparable dsytrf dsytri nset ds uniform_var nq fd pm)).
Proof.
  intros IP trf tri getrf getri nset ds u nq fd fd' pm Si LP LU H.
  destruct (C86_likelihood IP trf tri nset ds u nq fd pm Si LP H) as (p & HP & ->). unfold prob_con_variability.
  assert (G : forall m k s, (k + m = nset)%nat -> s = sumn k p -> dense_sets getrf getri ds u nq fd' pm (seq k m) s = Ok (Some (sumn nset p))).
  { induction m as [|m IH]; intros k s E ->; cbn [seq dense_sets]; [do 3 f_equal; lia|].
    assert (K : (k < nset)%nat) by lia. destruct (H k K) as ((NQ & N & PT & ET) & IV).
    destruct (dense_set_ok getrf getri LU nq (c_n (ds k)) (c_t (ds k)) (c_f (ds k)) (c_fe (ds k)) (c_em (ds k)) (pm (con_slot u k 0)) (pm (con_slot u k 1)) (pm (con_slot u k 2))
       (k_L (fd' k)) (k_PC (fd' k)) (Si k)) as (p' & E' & M); auto.
    rewrite !slot_idx, slot_idx0, E'. cbn [bind].
    rewrite (IH (S k)); [reflexivity|lia|]. cbn [sumn]. f_equal. exact (chi_same _ _ _ _ _ _ _ _ M (HP k K)). }
  apply G; [lia|reflexivity].
Qed.
(** and so does the slower reconstruction *)
Theorem C86_dense_reconstruction : forall dgetrf dgetri dget nq n t f fe sigma tau syserr T tall L0 Lr0 PC0 L1 W1 D1 phi1 Z1 Lr1 PE1 PE2 f1 Si,
  let S := covariance (sigma * sigma) tau syserr t fe in
  lu_spec dgetrf dgetri -> dget_spec dget -> (1 <= nq)%nat -> (1 <= n)%nat -> 0 < sigma -> 0 < tau ->
  proper_times n syserr t fe -> enough_times nq n t -> is_inverse n S Si ->
  exists out, dense_rec_con dgetrf dgetri nq n t f fe sigma tau syserr T tall L0 Lr0 PC0 = Ok out /\
    least_squares n nq Si (fun k j => t k ^ j) f (rec_yq out) /\
    forall i, (i < T)%nat ->
      best_prediction n nq S (fun k j => t k ^ j) (fun k => sigma * sigma * exp (- (Rabs (tall i - t k) / tau))) (sigma * sigma)
        (fun v => sumn nq (fun j => v j * tall i ^ j)) f (rec_f out i) (rec_fe out i) /\
      let fast := rec_con_set dget nq n t f fe sigma tau syserr T tall L1 W1 D1 phi1 Z1 Lr1 PE1 PE2 f1 in
      rec_f out i = rec_f fast i /\ rec_fe out i = rec_fe fast i.
Proof.
  intros getrf getri dget nq n t f fe sigma tau syserr T tall L0 Lr0 PC0 L1 W1 D1 phi1 Z1 Lr1 PE1 PE2 f1 Si SS LU DG NQ N SG TP PT ET IV.
  destruct (dense_rec_ok getrf getri LU nq n t f fe sigma tau syserr T tall L0 Lr0 PC0 Si NQ N SG TP PT ET IV) as (out & E & LS & B).
  exists out. split; [exact E|]. split; [exact LS|]. intros i I. split; [exact (B i I)|].
  destruct (C60_continuum dget nq n t f fe sigma tau syserr T tall L1 W1 D1 phi1 Z1 Lr1 PE1 PE2 f1 Si DG NQ N SG TP PT ET IV) as [_ B'].
  exact (best_same _ _ _ _ _ _ _ _ _ _ _ _ (B i I) (B' i I)).
Qed.
Print Assumptions C86_likelihood.
Print Assumptions C86_dense.
Print Assumptions C86_dense_reconstruction.

(** two data sets of three points, one of them with two points at the same time; a
    triple of parameters per set *)
Definition ex_ds (k : nat) : cset := match k with O => CSet 3 ex_t (fun i => INR (i * i)) ex_e 1 2 | _ => CSet 3 (fun i => INR i) (fun _ => 1) (fun _ => 0) 1 5 end.
Definition zero : arr := fun _ => 0.
Definition ex_fd (_ : nat) : con_found := ConFound zero zero zero zero zero zero zero zero zero zero.
Definition ex_pm (j : nat) : R := INR j.
Lemma ex_con_ok : forall pm k, (forall c, 0 <= pm c) -> (k < 2)%nat -> con_ok ex_ds false 2 pm k.
Proof.
  intros pm k NN K. assert (k = 0 \/ k = 1)%nat as [-> | ->] by lia; unfold con_ok; cbn [ex_ds c_n c_t c_fe c_em]; (split; [lia|]); (split; [lia|]); split.
  - intros i I. destruct (C26_28_example i I) as [L|[L M]]; [left; exact L|right; split; [exact L|]]. destruct M as [M|M]; [left; exact M|lra].
  - exists (fun i => i). split; [intros; lia|]. intros i j I J E. assert (i = 0 \/ i = 1)%nat as [-> | ->] by lia; assert (j = 0 \/ j = 1)%nat as [-> | ->] by lia; auto; cbn in E; lra.
  - intros i I. left. rewrite S_INR. lra.
  - exists (fun i => i). split; [intros; lia|]. intros i j I J E. apply INR_eq. exact E.
Qed.
Lemma con_inverse ds u nq pm k : con_ok ds u nq pm k -> exists Si, is_inverse (c_n (ds k)) (con_cov ds u pm k) Si.
Proof.
  intros (NQ & N & PT & ET).
  assert (SG : 0 < con_sigma u pm k) by (apply Rmult_lt_0_compat; [apply exp_pos|apply sqrt_lt_R0, exp_pos]).
  pose proof (SS_spd (c_n (ds k)) (c_t (ds k)) (c_fe (ds k)) (con_sigma u pm k) (con_tau u pm k) (con_syserr ds u pm k) SG (exp_pos _) PT) as PD.
  destruct (proj1 (det_inv _ _) (Rgt_not_eq _ _ (spd_det _ _ PD))) as [Si HI]. exists Si. exact (inverse_both _ _ _ HI).
Qed.
Example C86_example : forall IP (dsytrf : nat -> (nat -> nat -> R) -> (nat -> nat -> R) * IP) dsytri, dsytr_spec dsytrf dsytri ->
  exists Si p, (forall k, (k < 2)%nat -> is_inverse 3 (con_cov ex_ds false ex_pm k) (Si k) /\
      marginal_loglike 3 2 (con_cov ex_ds false ex_pm k) (Si k) (con_trends ex_ds k) (c_f (ex_ds k)) (p k)) /\
    prob_con_variability some_lu some_inv 2 ex_ds false 2 ex_fd ex_pm = Ok (Some (p 0%nat + p 1%nat)).
Proof.
  intros IP trf tri LP.
  assert (OK : forall k, (k < 2)%nat -> con_ok ex_ds false 2 ex_pm k) by (intros k K; apply ex_con_ok; [intros; apply pos_INR|exact K]).
  destruct (con_inverse _ _ _ _ _ (OK 0%nat ltac:(lia))) as [S0 I0]. destruct (con_inverse _ _ _ _ _ (OK 1%nat ltac:(lia))) as [S1 I1].
  exists (fun k => match k with O => S0 | _ => S1 end).
  assert (H : forall k, (k < 2)%nat -> con_ok ex_ds false 2 ex_pm k /\
    is_inverse (c_n (ex_ds k)) (con_cov ex_ds false ex_pm k) (match k with O => S0 | _ => S1 end)).
  { intros k K. split; [auto|]. assert (k = 0 \/ k = 1)%nat as [-> | ->] by lia; auto. }
  destruct (C86_likelihood IP trf tri 2 ex_ds false 2 ex_fd ex_pm _ LP H) as (p & P & E). exists p. split.
  - intros k K. specialize (P k K). destruct (H k K) as [_ Q]. assert (k = 0 \/ k = 1)%nat as [-> | ->] by lia; auto.
  - rewrite (C86_dense IP trf tri some_lu some_inv 2 ex_ds false 2 ex_fd ex_fd ex_pm _ LP lu_spec_met H), E. do 2 f_equal. cbn [sumn]. ring.
Qed.
(** the contract in it is met: ref_dsytrf and ref_dsytri of PropLike.v *)
Check C29_contract_met : dsytr_spec ref_dsytrf ref_dsytri.

(** ** C87: what the continuum mode writes *)
Lemma seq_ok A B (g : A -> outcome B) (h : A -> B) l : (forall x, In x l -> g x = Ok (h x)) -> RecModel.sequence (map g l) = Ok (map h l).
Proof.
  induction l as [|x l IH]; intros H; cbn [map RecModel.sequence]; [reflexivity|]. rewrite H by (left; auto). cbn [bind]. rewrite IH by (intros; apply H; right; auto). reflexivity.
Qed.
Lemma nth_seq_map A (h : nat -> A) n i : (i < n)%nat -> nth_error (map h (seq 0 n)) i = Some (h i).
Proof. intros I. rewrite nth_error_map. rewrite (nth_error_nth' (seq 0 n) 0%nat) by (rewrite seq_length; auto). rewrite seq_nth by auto. reflexivity. Qed.
Lemma slot_lt nset u k c : (k < nset)%nat -> (c < 3)%nat -> (con_slot u k c < num_params_var nset u)%nat.
Proof. intros K C. unfold con_slot, num_params_var. destruct u; lia. Qed.
(** the mean of the parameters over the posterior sample *)
Definition con_mean (nset : nat) (uniform_var : bool) (num_ps : nat) (P : nat -> R) (j : nat) : R :=
  sumn num_ps (fun r => P (r * num_params_var nset uniform_var + j)%nat) / INR num_ps.

Theorem C87_files : forall nset ds uniform_var nq fd low upp dget num_ps P pm0 ps0 tasks Si,
  let pm := con_mean nset uniform_var num_ps P in
  dget_spec dget -> (1 <= num_ps)%nat ->
  (forall i, (i < nset)%nat -> con_ok ds uniform_var nq pm i /\ is_inverse (c_n (ds i)) (con_cov ds uniform_var pm i) (Si i)) ->
  exists out, mc_con_files nset ds uniform_var nq fd low upp dget num_ps P pm0 ps0 tasks = Ok out /\ length out = nset /\
  forall i, (i < nset)%nat ->
    let d := ds i in let n := c_n d in let sigma := con_sigma uniform_var pm i in let tau := con_tau uniform_var pm i in
    let first := c_t d 0%nat + low in let last := c_t d (n - 1)%nat + upp in let span := last - first in
    exists rows trend, nth_error out i = Some (rows, trend) /\ length rows = (3 * n)%nat /\ length trend = nq /\
      (exists q, least_squares n nq (Si i) (con_trends ds i) (c_f d) q /\ forall j, (j < nq)%nat -> nth_error trend j = Some (q j * c_scale d)) /\
      forall j, (j < 3 * n)%nat -> exists tm v e, nth_error rows j = Some (tm, (v * c_scale d, e * c_scale d)) /\
        tm = (first - span / 20) + ((last + span / 20) - (first - span / 20)) * (INR j / INR (3 * n - 1)) /\
        best_prediction n nq (con_cov ds uniform_var pm i) (con_trends ds i) (fun k => sigma * sigma * exp (- (Rabs (tm - c_t d k) / tau))) (sigma * sigma)
          (fun q => sumn nq (fun k => q k * tm ^ k)) (c_f d) v e.
Proof.
  intros nset ds u nq fd low upp dget num_ps P pm0 ps0 tasks Si pm DG NP H.
  set (pm' := fst (postprocess_con nset u num_ps P pm0 ps0 tasks)).
  assert (EP : forall i c, (i < nset)%nat -> (c < 3)%nat -> pm' (con_slot u i c) = pm (con_slot u i c)).
  { intros i c I C. unfold pm', postprocess_con.
    pose proof (proj1 (C52_mean_std num_ps (num_params_var nset u) P pm0 ps0 _ NP (slot_lt nset u i c I C))) as M.
    destruct (post_mean_std num_ps (num_params_var nset u) P pm0 ps0) as [a b]. cbn [fst] in *. exact M. }
  set (grid := fun i j => (c_t (ds i) (c_n (ds i) - 1)%nat - c_t (ds i) 0%nat + (upp - low) + 1 / 10 * (c_t (ds i) (c_n (ds i) - 1)%nat - c_t (ds i) 0%nat + (upp - low))) /
      (INR (c_n (ds i) * 3) - 1) * INR j + (c_t (ds i) 0%nat - 5 / 100 * (c_t (ds i) (c_n (ds i) - 1)%nat - c_t (ds i) 0%nat + (upp - low)) + low)).
  set (o := fun i => rec_con_set dget nq (c_n (ds i)) (c_t (ds i)) (c_f (ds i)) (c_fe (ds i)) (con_sigma u pm i) (con_tau u pm i) (con_syserr ds u pm i) (c_n (ds i) * 3) (grid i)
    (k_L (fd i)) (k_W (fd i)) (k_D (fd i)) (k_phi (fd i)) (k_Z (fd i)) (k_Lr (fd i)) (k_PE1 (fd i)) (k_PE2 (fd i)) (k_f (fd i))).
  set (h := fun i => (map (fun j => (grid i j, (rec_f (o i) j * c_scale (ds i), rec_fe (o i) j * c_scale (ds i)))) (seq 0 (c_n (ds i) * 3)),
      map (fun j => rec_yq (o i) j * c_scale (ds i)) (seq 0 nq))).
  exists (map h (seq 0 nset)). split; [|split; [rewrite map_length, seq_length; reflexivity|]].
  - unfold mc_con_files. fold pm'. apply seq_ok. intros i I. apply in_seq in I. destruct (H i ltac:(lia)) as ((_ & N & _) & _).
    unfold con_output, con_grid. destruct (Nat.eqb_spec (c_n (ds i)) 0); [lia|]. cbn [bind]. rewrite !slot_idx, slot_idx0. rewrite !EP by lia. reflexivity.
  - intros i I d n sigma tau first last span. destruct (H i I) as ((NQ & N & PT & ET) & IV).
    exists (fst (h i)), (snd (h i)). split; [rewrite nth_seq_map by auto; destruct (h i); reflexivity|]. unfold h. cbn [fst snd].
    split; [rewrite map_length, seq_length; unfold n, d; lia|]. split; [rewrite map_length, seq_length; reflexivity|].
    assert (SG : 0 < sigma) by (apply Rmult_lt_0_compat; [apply exp_pos|apply sqrt_lt_R0, exp_pos]).
    destruct (C60_continuum dget nq n (c_t d) (c_f d) (c_fe d) sigma tau (con_syserr ds u pm i) (n * 3) (grid i)
      (k_L (fd i)) (k_W (fd i)) (k_D (fd i)) (k_phi (fd i)) (k_Z (fd i)) (k_Lr (fd i)) (k_PE1 (fd i)) (k_PE2 (fd i)) (k_f (fd i)) (Si i) DG NQ N SG (exp_pos _) PT ET IV) as [LS B].
    split.
    + exists (rec_yq (o i)). split; [exact LS|]. intros j J. rewrite nth_seq_map by auto. reflexivity.
    + intros j J. exists (grid i j), (rec_f (o i) j), (rec_fe (o i) j). split; [rewrite nth_seq_map by (unfold n, d in J; lia); reflexivity|].
      split; [|apply B; lia]. unfold grid. fold d n. unfold span, last, first. rewrite minus_INR by (unfold n, d; lia). rewrite !mult_INR.
      change (INR 1) with 1. assert (E3 : INR 3 = 3) by (cbn; ring). rewrite E3.
      assert (1 <= INR n) by (apply (le_INR 1) in N; exact N). field. lra.
Qed.
(** the times grow when the interval is not empty *)
Theorem C87_times : forall ds uniform_var nq fd low upp dget pm i rows trend,
  con_output ds uniform_var nq fd low upp dget pm i = Ok (rows, trend) ->
  let d := ds i in
  c_t d 0%nat + low < c_t d (c_n d - 1)%nat + upp ->
  forall j k a b, (j < k)%nat -> nth_error rows j = Some a -> nth_error rows k = Some b -> fst a < fst b.
Proof.
  intros ds u nq fd low upp dget pm i rows trend E d L j k a b JK A B. unfold con_output, con_grid in E. fold d in E.
  destruct (Nat.eqb_spec (c_n d) 0); [discriminate|]. cbn [bind] in E. injection E as <- <-.
  assert (KB : (k < c_n d * 3)%nat). { assert (X : nth_error _ k <> None) by (rewrite B; discriminate). apply nth_error_Some in X. rewrite map_length, seq_length in X. exact X. }
  rewrite nth_seq_map in A by lia. rewrite nth_seq_map in B by lia. injection A as <-. injection B as <-. cbn [fst].
  apply Rplus_lt_compat_r. apply Rmult_lt_compat_l; [|apply lt_INR; auto].
  assert (1 <= INR (c_n d)) by (apply (le_INR 1); lia). rewrite mult_INR. assert (E3 : INR 3 = 3) by (cbn; ring). rewrite E3.
  apply Rmult_lt_0_compat; [lra|apply Rinv_0_lt_compat; lra].
Qed.
(** every task gets the means and the standard deviations *)
Theorem C87_all_tasks : forall nset uniform_var num_ps P pm0 ps0 tasks r j, (1 <= num_ps)%nat -> (j < num_params_var nset uniform_var)%nat ->
  let post := snd (postprocess_con nset uniform_var num_ps P pm0 ps0 tasks) in
  fst (post r) j = con_mean nset uniform_var num_ps P j /\
  snd (post r) j = (if (num_ps <=? 1)%nat then 0 else
    sqrt (sumn num_ps (fun i => (P (i * num_params_var nset uniform_var + j)%nat - con_mean nset uniform_var num_ps P j) ^ 2) / (INR num_ps - 1))).
Proof.
  intros nset u num_ps P pm0 ps0 tasks r j NP J post. unfold post, postprocess_con.
  destruct (C52_mean_std num_ps (num_params_var nset u) P pm0 ps0 j NP J) as [M S].
  destruct (post_mean_std num_ps (num_params_var nset u) P pm0 ps0) as [a b]. cbn [fst snd] in *.
  assert (JB : (j <? num_params_var nset u)%nat = true) by (apply Nat.ltb_lt; auto).
  assert (C : forall (g h : arr), for_ 0 (num_params_var nset u) (fun j a => upd a j (g j)) h j = g j).
  { intros g h. rewrite (for_cols _ (fun j _ => g j)), JB. reflexivity. }
  destruct (Nat.eqb r 0); cbn [fst snd]; rewrite !C; split; [exact M|exact S|exact M|exact S].
Qed.
(** nothing checks TrecLowExt and TrecUppExt: with extensions that leave nothing of the
    interval the times run backwards *)
Theorem C87_backwards_refuted : exists ds low upp rows trend a b,
  con_ok ds false 1 zero 0 /\
  con_output ds false 1 ex_fd low upp ref_dget zero 0 = Ok (rows, trend) /\
  nth_error rows 0 = Some a /\ nth_error rows 5 = Some b /\ fst b < fst a.
Proof.
  exists (fun _ => CSet 2 INR (fun _ => 1) (fun _ => 0) 1 1), 5, (-5).
  unfold con_output, con_grid. cbn [c_n c_t Nat.eqb bind Nat.mul Nat.add seq map]. do 4 eexists. split; [|split; [reflexivity|split; [reflexivity|split; [reflexivity|]]]].
  - split; [lia|]. cbn [c_n c_t c_fe]. split; [lia|]. split; [intros i I; left; rewrite S_INR; lra|].
    exists (fun i => i). split; [intros; lia|]. intros i j I J _. lia.
  - cbn [fst]. simpl INR. lra.
Qed.
(** an empty curve is read before its beginning *)
Theorem C87_empty_undefined : forall ds uniform_var nq fd low upp dget pm i, c_n (ds i) = 0%nat ->
  con_output ds uniform_var nq fd low upp dget pm i = UB.
Proof. intros. unfold con_output, con_grid. rewrite H. reflexivity. Qed.
Print Assumptions C87_files.
Print Assumptions C87_times.
Print Assumptions C87_all_tasks.
Print Assumptions C87_backwards_refuted.
Print Assumptions C87_empty_undefined.

(** two sets, two rows of six parameters *)
Example C87_example : exists out, mc_con_files 2 ex_ds false 2 ex_fd (-1) 2 ref_dget 2 INR zero zero (fun _ => (zero, zero)) = Ok out /\
  exists rows trend, nth_error out 1 = Some (rows, trend) /\ length rows = 9%nat /\ length trend = 2%nat /\
  exists tm v, nth_error rows 8 = Some (tm, v) /\ tm = 4 + 5 / 20.
Proof.
  assert (OK : forall k, (k < 2)%nat -> con_ok ex_ds false 2 (con_mean 2 false 2 INR) k).
  { intros k K. apply ex_con_ok; [|exact K]. intros c. unfold con_mean. cbn [sumn]. apply Rmult_le_pos; [|apply Rlt_le, Rinv_0_lt_compat; cbn; lra].
    pose proof (pos_INR (0 * num_params_var 2 false + c)). pose proof (pos_INR (1 * num_params_var 2 false + c)). lra. }
  destruct (con_inverse _ _ _ _ _ (OK 0%nat ltac:(lia))) as [S0 I0]. destruct (con_inverse _ _ _ _ _ (OK 1%nat ltac:(lia))) as [S1 I1].
  destruct (C87_files 2 ex_ds false 2 ex_fd (-1) 2 ref_dget 2 INR zero zero (fun _ => (zero, zero)) (fun k => match k with O => S0 | _ => S1 end) dget_exists ltac:(lia)) as (out & E & _ & H).
  { intros k K. split; [auto|]. assert (k = 0 \/ k = 1)%nat as [-> | ->] by lia; auto. }
  exists out. split; [exact E|]. destruct (H 1%nat ltac:(lia)) as (rows & trend & A & B & C & _ & D). exists rows, trend.
  split; [exact A|]. split; [exact B|]. split; [exact C|]. destruct (D 8%nat) as (tm & v & e & R1 & R2 & _); [cbn; lia|].
  eexists _, _. split; [exact R1|]. rewrite R2. cbn [ex_ds c_t c_n Nat.sub]. simpl INR. field.
Qed.
