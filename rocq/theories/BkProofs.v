(** Diagonal pivoting meets the contract assumed of dsytrf and dsytri. *)
From Coq Require Import Reals List Arith ZArith Lia Lra Psatz.
From Verif Require Import SemisepModel SemisepProofs MatBridge MatBridge2 PartModel PartProofs PartProofs2 LuSpec LuDet LuProofs BkModel BkMat.
Open Scope R_scope.

(** ** Exchanges *)
Lemma exch_lt : forall n p q i, (p < n)%nat -> (q < n)%nat -> (i < n)%nat -> (exch p q i < n)%nat.
Proof. intros. unfold exch. destruct (Nat.eqb i p), (Nat.eqb i q); auto. Qed.
Lemma exch_inv : forall p q i, exch p q (exch p q i) = i.
Proof.
  intros. unfold exch. destruct (Nat.eqb_spec i p) as [->|A].
  - destruct (Nat.eqb_spec q p) as [->|]; [reflexivity|]. rewrite Nat.eqb_refl. reflexivity.
  - destruct (Nat.eqb_spec i q) as [->|B]; [rewrite Nat.eqb_refl; reflexivity|].
    destruct (Nat.eqb_spec i p); [congruence|]. destruct (Nat.eqb_spec i q); congruence.
Qed.
Lemma swap_symm : forall n p q A, (p < n)%nat -> (q < n)%nat -> symm n A -> symm n (swap_both p q A).
Proof. intros n p q A P Q S i j I J. unfold swap_both. apply S; apply exch_lt; auto. Qed.
Lemma swap_det : forall n p q A, (p < n)%nat -> (q < n)%nat -> detn n (swap_both p q A) = detn n A.
Proof.
  intros n p q A P Q.
  assert (E : forall B, swap_both p q B = swap_rows (fun i j => swap_rows (fun a b => B b a) p q j i) p q).
  { intros B. reflexivity. }
  rewrite E, det_swap by auto. rewrite (det_trans n (swap_rows (fun a b => A b a) p q)), det_swap by auto. rewrite det_trans.
  unfold flip. destruct (Nat.eqb p q); ring.
Qed.
Lemma swap_inv : forall n p q A G, (p < n)%nat -> (q < n)%nat -> inv_of n (swap_both p q A) G -> inv_of n A (swap_both p q G).
Proof.
  intros n p q A G P Q H i j I J.
  rewrite <- (fun f => @sumn_exch n p q f P Q).
  rewrite (sumn_ext n _ (fun l => swap_both p q A (exch p q i) l * G l (exch p q j))).
  - rewrite H by (apply exch_lt; auto). unfold delta. destruct (Nat.eqb_spec (exch p q i) (exch p q j)) as [E|E], (Nat.eqb_spec i j) as [E'|E']; auto.
    + exfalso. apply E'. rewrite <- (exch_inv p q i), <- (exch_inv p q j), E. reflexivity.
    + congruence.
  - intros l L. unfold swap_both. rewrite !exch_inv. reflexivity.
Qed.
Lemma swap_spd : forall n p q A, (p < n)%nat -> (q < n)%nat -> spd n A -> spd n (swap_both p q A).
Proof.
  intros n p q A P Q [S PD]. split; [apply swap_symm; auto|]. intros x (i & I & X).
  assert (E : quad n (swap_both p q A) x = quad n A (fun i => x (exch p q i))).
  { unfold quad. rewrite <- (fun f => @sumn_exch n p q f P Q). apply sumn_ext. intros a Ha.
    rewrite <- (fun f => @sumn_exch n p q f P Q). apply sumn_ext. intros b Hb. unfold swap_both. rewrite !exch_inv. reflexivity. }
  rewrite E. apply PD. exists (exch p q i). split; [apply exch_lt; auto|]. rewrite exch_inv. exact X.
Qed.

(** ** The choice of the pivot *)
Lemma idamax_ok : forall m f, (0 < m)%nat -> (idamax m f < m)%nat /\ forall i, (i < m)%nat -> Rabs (f i) <= Rabs (f (idamax m f)).
Proof.
  induction m; intros f H; [lia|]. cbn [idamax]. destruct (Nat.eqb_spec m 0) as [->|NE].
  - split; [lia|]. intros i I. assert (i = 0)%nat by lia. subst. lra.
  - destruct (IHm f) as [B M]; [lia|]. destruct (Rlt_dec (Rabs (f (idamax m f))) (Rabs (f m))) as [L|L].
    + split; [lia|]. intros i I. destruct (Nat.eq_dec i m) as [->|]; [lra|]. specialize (M i ltac:(lia)). lra.
    + split; [lia|]. intros i I. destruct (Nat.eq_dec i m) as [->|]; [lra|]. apply M; lia.
Qed.
Lemma offmax_ok : forall m r A j, (j < m)%nat -> j <> r -> Rabs (A r j) <= offmax m r A.
Proof.
  induction m; intros r A j J NE; [lia|]. cbn [offmax]. destruct (Nat.eq_dec j m) as [->|NJ].
  - destruct (Nat.eqb_spec m r); [congruence|]. apply Rmax_r.
  - specialize (IHm r A j ltac:(lia) NE). destruct (Nat.eqb m r); [exact IHm|]. eapply Rle_trans; [exact IHm|apply Rmax_l].
Qed.
Lemma bk_alpha_ok : 0 < bk_alpha < 1.
Proof.
  unfold bk_alpha. assert (4 < sqrt 17). { replace 4 with (sqrt (4 * 4)) by (apply sqrt_square; lra). apply sqrt_lt_1; lra. }
  assert (sqrt 17 < 5). { replace 5 with (sqrt (5 * 5)) by (apply sqrt_square; lra). apply sqrt_lt_1; lra. }
  lra.
Qed.

(** What each outcome means for the entries. *)
Lemma pivot_ok : forall k A, symm (S k) A ->
  match pivot_of k A with
  | Zeros => forall i, (i <= k)%nat -> A i k = 0
  | One p => (p <= k)%nat /\ A p p <> 0
  | Two p => (p < k)%nat /\ A p k <> 0 /\ Rabs (A p p * A k k) < A p k * A p k
  end.
Proof.
  intros k A SY. unfold pivot_of. pose proof bk_alpha_ok as AL. set (im := idamax k (fun i => A i k)).
  set (cm := if Nat.eqb k 0 then 0 else Rabs (A im k)).
  assert (CM : 0 <= cm /\ forall i, (i < k)%nat -> Rabs (A i k) <= cm).
  { unfold cm. destruct (Nat.eqb_spec k 0); [split; [lra|lia]|]. split; [apply Rabs_pos|]. intros i I. apply (idamax_ok k (fun i => A i k) ltac:(lia)). exact I. }
  pose proof (Rabs_pos (A k k)) as AP.
  destruct (Req_EM_T (Rmax (Rabs (A k k)) cm) 0) as [Z|NZ].
  - intros i I. assert (Rabs (A i k) <= 0) as HA.
    { destruct (Nat.eq_dec i k) as [->|]; [rewrite <- Z; apply Rmax_l|]. eapply Rle_trans; [apply CM; lia|]. rewrite <- Z. apply Rmax_r. }
    destruct (Req_dec (A i k) 0); [assumption|]. pose proof (Rabs_pos_lt _ H). lra.
  - destruct (Rle_dec (bk_alpha * cm) (Rabs (A k k))) as [L1|L1].
    + split; [lia|]. intros E. rewrite E, Rabs_R0 in *. apply NZ. assert (cm = 0) by nra. rewrite H. apply Rmax_left; lra.
    + assert (CP : 0 < cm) by nra. assert (K0 : (0 < k)%nat) by (unfold cm in CP; destruct (Nat.eqb_spec k 0); [lra|lia]).
      assert (EC : cm = Rabs (A im k)) by (unfold cm; destruct (Nat.eqb_spec k 0); [lia|reflexivity]).
      assert (IM : (im < k)%nat) by (apply (idamax_ok k (fun i => A i k) K0)).
      set (rm := offmax (S k) im A).
      assert (RM : cm <= rm). { rewrite EC, (SY im k) by lia. rewrite (SY k im) by lia. apply offmax_ok; lia. }
      destruct (Rle_dec (bk_alpha * cm * (cm / rm)) (Rabs (A k k))) as [L2|L2].
      * split; [lia|]. intros E. rewrite E, Rabs_R0 in L2. assert (0 < cm / rm) by (apply Rdiv_lt_0_compat; lra). assert (0 < bk_alpha * cm) by nra. nra.
      * destruct (Rle_dec (bk_alpha * rm) (Rabs (A im im))) as [L3|L3].
        -- split; [lia|]. intros E. rewrite E, Rabs_R0 in L3. nra.
        -- split; [exact IM|]. split; [intros E; rewrite E, Rabs_R0 in EC; lra|].
           rewrite Rabs_mult. assert (E2 : A im k * A im k = cm * cm).
           { rewrite EC, <- Rabs_mult. symmetry. apply Rabs_right. pose proof (Rle_0_sqr (A im k)) as Q. unfold Rsqr in Q. lra. }
           rewrite E2. apply Rnot_le_lt in L2, L3. pose proof (Rabs_pos (A im im)).
           assert (Rabs (A k k) * rm < bk_alpha * cm * cm).
           { apply Rmult_lt_reg_r with (/ rm); [apply Rinv_0_lt_compat; lra|]. rewrite Rmult_assoc, Rinv_r, Rmult_1_r by lra. unfold Rdiv in L2. lra. }
           assert (Rabs (A im im) * Rabs (A k k) <= bk_alpha * (Rabs (A k k) * rm)) by nra.
           assert (bk_alpha * (Rabs (A k k) * rm) < bk_alpha * (bk_alpha * cm * cm)) by nra.
           assert (bk_alpha * (bk_alpha * cm * cm) <= cm * cm) by (assert (0 < cm * cm) by nra; assert (bk_alpha * bk_alpha <= 1) by nra; nra).
           lra.
Qed.

(** ** One step *)
Lemma bord_symm : forall k q X c e, symm k X -> (forall a b, (a < q)%nat -> (b < q)%nat -> e a b = e b a) -> symm (k + q) (bord k X c e).
Proof.
  intros k q X c e SX SE i j I J. unfold bord. destruct (Nat.ltb_spec i k), (Nat.ltb_spec j k); auto. apply SE; lia.
Qed.
Lemma bord11 : forall k X c e i j, (i < k)%nat -> (j < k)%nat -> bord k X c e i j = X i j.
Proof. intros. unfold bord. destruct (Nat.ltb_spec i k); [|lia]. destruct (Nat.ltb_spec j k); [reflexivity|lia]. Qed.
Lemma bord12 : forall k X c e i b, (i < k)%nat -> bord k X c e i (k + b)%nat = c i b.
Proof. intros. unfold bord. destruct (Nat.ltb_spec i k); [|lia]. destruct (Nat.ltb_spec (k + b) k); [lia|]. f_equal. lia. Qed.
Lemma bord21 : forall k X c e a j, (j < k)%nat -> bord k X c e (k + a)%nat j = c j a.
Proof. intros. unfold bord. destruct (Nat.ltb_spec (k + a) k); [lia|]. destruct (Nat.ltb_spec j k); [|lia]. f_equal. lia. Qed.
Lemma bord22 : forall k X c e a b, bord k X c e (k + a)%nat (k + b)%nat = e a b.
Proof. intros. unfold bord. destruct (Nat.ltb_spec (k + a) k); [lia|]. destruct (Nat.ltb_spec (k + b) k); [lia|]. f_equal; lia. Qed.
Lemma sum_row : forall k X u j, symm k X -> (j < k)%nat -> sumn k (fun l => X j l * u l) = sumn k (fun l => u l * X l j).
Proof. intros k X u j S J. apply sumn_ext. intros l L. rewrite (S j l) by auto. ring. Qed.
Lemma neg_quad : forall k X u v, - sumn k (fun l => u l * - sumn k (fun m => X l m * v m)) = sumn k (fun l => u l * sumn k (fun m => X l m * v m)).
Proof.
  intros. rewrite <- (Rmult_1_l (sumn k (fun l => u l * - _))), Ropp_mult_distr_l, <- sumn_scal. apply sumn_ext. intros. ring.
Qed.

Section OneStep.
  Variables (k : nat) (B : nat -> nat -> R).
  Hypothesis SB : symm (S k) B.
  Definition rest1 (i j : nat) : R := B i j - 1 / B k k * B i k * B j k.
  Lemma rest1_symm : symm k rest1.
  Proof. intros i j I J. unfold rest1. rewrite (SB i j) by lia. ring. Qed.
  Hypothesis d0 : B k k <> 0.
  Let U (i : nat) (_ : nat) : R := 1 / B k k * B i k.
  Let D (_ _ : nat) : R := B k k.
  Let c11 : forall i j, (i < k)%nat -> (j < k)%nat -> B i j = rest1 i j + sumn 1 (fun b => sumn 1 (fun a => U i a * D a b) * U j b).
  Proof. intros. unfold rest1, U, D. cbn [sumn]. field. exact d0. Qed.
  Let c12 : forall i b, (i < k)%nat -> (b < 1)%nat -> B i (k + b)%nat = sumn 1 (fun a => U i a * D a b).
  Proof. intros i b I L. replace (k + b)%nat with k by lia. unfold U, D. cbn [sumn]. field. exact d0. Qed.
  Let c21 : forall a j, (a < 1)%nat -> (j < k)%nat -> B (k + a)%nat j = sumn 1 (fun b => D a b * U j b).
  Proof. intros a j L J. replace (k + a)%nat with k by lia. rewrite (SB k j) by lia. unfold U, D. cbn [sumn]. field. exact d0. Qed.
  Let c22 : forall a b, (a < 1)%nat -> (b < 1)%nat -> B (k + a)%nat (k + b)%nat = D a b.
  Proof. intros a b HA HB. replace (k + a)%nat with k by lia. replace (k + b)%nat with k by lia. reflexivity. Qed.
  Lemma one_det : detn (S k) B = detn k rest1 * B k k.
  Proof.
    pose proof (cong_det c11 c12 c21 c22) as G. change (ssrnat.addn k 1) with (k + 1)%nat in G. rewrite Nat.add_1_r in G. rewrite G, detn1. reflexivity.
  Qed.
  Lemma one_inv : forall X u dd, symm k X -> inv_of k rest1 X -> (forall i, (i < k)%nat -> u i = 1 / B k k * B i k) -> dd = B k k ->
    let c := fun i => - sumn k (fun l => X i l * u l) in
    let G := bord k X (fun i _ => c i) (fun _ _ => 1 / dd - sumn k (fun l => u l * c l)) in
    symm (S k) G /\ inv_of (S k) B G.
  Proof.
    intros X u dd SX HX HU -> c G.
    assert (SG : symm (S k) G) by (rewrite <- Nat.add_1_r; apply bord_symm; auto). split; [exact SG|].
    assert (EU : forall f, sumn k (fun l => f l * u l) = sumn k (fun l => f l * U l 0%nat)) by (intros; apply sumn_ext; intros; rewrite HU by auto; reflexivity).
    rewrite <- Nat.add_1_r. apply (cong_inv c11 c12 c21 c22 (X := X) (E := fun _ _ => 1 / B k k)).
    - intros. apply bord11; auto.
    - intros i b I _. unfold G. rewrite bord12 by auto. unfold c. rewrite EU. reflexivity.
    - intros a j _ J. unfold G. rewrite bord21 by auto. unfold c. rewrite EU, sum_row by auto. reflexivity.
    - intros a b _ _. unfold G. rewrite bord22. unfold Rminus at 1. unfold c. rewrite neg_quad. f_equal. apply sumn_ext. intros l L. rewrite HU by auto. rewrite EU. reflexivity.
    - exact HX.
    - intros i j I J. assert (i = 0 /\ j = 0)%nat as [-> ->] by lia. unfold D. cbn [sumn]. unfold delta. cbn. field. exact d0.
  Qed.
End OneStep.

Section TwoStep.
  Variables (h : nat) (B : nat -> nat -> R).
  Notation k := (S h).
  Hypothesis SB : symm (S k) B.
  Hypothesis o0 : B h k <> 0.
  Hypothesis d0 : B h h * B k k - B h k * B h k <> 0.
  Notation e := (1 / (B k k / B h k * (B h h / B h k) - 1) / B h k).
  Definition wkm1 (j : nat) : R := e * (B k k / B h k * B j h - B j k).
  Definition wk (j : nat) : R := e * (B h h / B h k * B j k - B j h).
  Definition rest2 (i j : nat) : R := B i j - B i k * wk j - B i h * wkm1 j.
  Lemma den_eq : B k k / B h k * (B h h / B h k) - 1 = (B h h * B k k - B h k * B h k) / (B h k * B h k).
  Proof. field. exact o0. Qed.
  Lemma den_ok : B k k / B h k * (B h h / B h k) - 1 <> 0.
  Proof. rewrite den_eq. unfold Rdiv. apply Rmult_integral_contrapositive_currified; [exact d0|]. apply Rinv_neq_0_compat. apply Rmult_integral_contrapositive_currified; exact o0. Qed.
  Lemma e_eq : e = B h k / (B h h * B k k - B h k * B h k).
  Proof. rewrite den_eq. field. auto. Qed.
  Let U (i a : nat) : R := if Nat.eqb a 0 then wkm1 i else wk i.
  Let D (a b : nat) : R := if Nat.eqb a 0 then (if Nat.eqb b 0 then B h h else B h k) else (if Nat.eqb b 0 then B h k else B k k).
  Lemma back_h : forall i, wkm1 i * B h h + wk i * B h k = B i h.
  Proof. intros. unfold wkm1, wk. rewrite e_eq. field. auto. Qed.
  Lemma back_k : forall i, wkm1 i * B h k + wk i * B k k = B i k.
  Proof. intros. unfold wkm1, wk. rewrite e_eq. field. auto. Qed.
  Lemma rest2_symm : symm h rest2.
  Proof.
    intros i j I J. unfold rest2. rewrite (SB i j) by lia. unfold wkm1, wk. rewrite e_eq. field. auto.
  Qed.
  Let c11 : forall i j, (i < h)%nat -> (j < h)%nat -> B i j = rest2 i j + sumn 2 (fun b => sumn 2 (fun a => U i a * D a b) * U j b).
  Proof. intros i j _ _. unfold rest2, U, D. cbn [sumn Nat.eqb]. rewrite <- (back_h i), <- (back_k i). ring. Qed.
  Let c12 : forall i b, (i < h)%nat -> (b < 2)%nat -> B i (h + b)%nat = sumn 2 (fun a => U i a * D a b).
  Proof.
    intros i b I L. assert (b = 0 \/ b = 1)%nat as [-> | ->] by lia; unfold U, D; cbn [sumn Nat.eqb].
    - rewrite Nat.add_0_r, <- (back_h i). ring.
    - rewrite Nat.add_1_r, <- (back_k i). ring.
  Qed.
  Let c21 : forall a j, (a < 2)%nat -> (j < h)%nat -> B (h + a)%nat j = sumn 2 (fun b => D a b * U j b).
  Proof.
    intros a j L J. assert (a = 0 \/ a = 1)%nat as [-> | ->] by lia; unfold U, D; cbn [sumn Nat.eqb].
    - rewrite Nat.add_0_r, (SB h j), <- (back_h j) by lia. ring.
    - rewrite Nat.add_1_r, (SB k j), <- (back_k j) by lia. ring.
  Qed.
  Let c22 : forall a b, (a < 2)%nat -> (b < 2)%nat -> B (h + a)%nat (h + b)%nat = D a b.
  Proof.
    intros a b HA HB. assert (a = 0 \/ a = 1)%nat as [-> | ->] by lia; assert (b = 0 \/ b = 1)%nat as [-> | ->] by lia; unfold D; cbn [Nat.eqb];
      rewrite ?Nat.add_0_r, ?Nat.add_1_r; auto.
  Qed.
  Lemma two_det : detn (S k) B = detn h rest2 * (B h h * B k k - B h k * B h k).
  Proof.
    pose proof (cong_det c11 c12 c21 c22) as G. change (ssrnat.addn h 2) with (h + 2)%nat in G. replace (h + 2)%nat with (S k) in G by lia.
    rewrite G, detn2. reflexivity.
  Qed.
  Lemma two_inv : forall X uh uk vhh vhk vkk, symm h X -> inv_of h rest2 X ->
    (forall i, (i < h)%nat -> uh i = wkm1 i) -> (forall i, (i < h)%nat -> uk i = wk i) -> vhh = B h h -> vhk = B h k -> vkk = B k k ->
    let t := Rabs vhk in let ak := vhh / t in let akp1 := vkk / t in let akkp1 := vhk / t in
    let d := t * (ak * akp1 - 1) in
    let ch := fun i => - sumn h (fun l => X i l * uh l) in
    let ck := fun i => - sumn h (fun l => X i l * uk l) in
    let ehh := akp1 / d - sumn h (fun l => uh l * ch l) in
    let ehk := - akkp1 / d - sumn h (fun l => ch l * uk l) in
    let ekk := ak / d - sumn h (fun l => uk l * ck l) in
    let G := bord h X (fun i b => if Nat.eqb b 0 then ch i else ck i)
             (fun a b => if Nat.eqb a 0 then (if Nat.eqb b 0 then ehh else ehk) else (if Nat.eqb b 0 then ehk else ekk)) in
    symm (S k) G /\ inv_of (S k) B G.
  Proof.
    intros X uh uk vhh vhk vkk SX HX HH HK -> -> -> t ak akp1 akkp1 d ch ck ehh ehk ekk G.
    assert (E2 : (S k = h + 2)%nat) by lia. rewrite E2.
    assert (SG : symm (h + 2) G) by (apply bord_symm; [exact SX|intros a b _ _; destruct (Nat.eqb a 0), (Nat.eqb b 0); reflexivity]). split; [exact SG|].
    assert (EH : forall f, sumn h (fun l => f l * uh l) = sumn h (fun l => f l * U l 0%nat)) by (intros; apply sumn_ext; intros; rewrite HH by auto; reflexivity).
    assert (EK : forall f, sumn h (fun l => f l * uk l) = sumn h (fun l => f l * U l 1%nat)) by (intros; apply sumn_ext; intros; rewrite HK by auto; reflexivity).
    assert (TT : t * t = B h k * B h k).
    { unfold t. rewrite <- Rabs_mult. apply Rabs_right. pose proof (Rle_0_sqr (B h k)) as Q. unfold Rsqr in Q. lra. }
    assert (T0 : t <> 0) by (unfold t; apply Rabs_no_R0; exact o0).
    assert (ED : d = (B h h * B k k - B h k * B h k) / t).
    { unfold d, ak, akp1. rewrite <- TT. field. exact T0. }
    apply (cong_inv c11 c12 c21 c22 (X := X)
      (E := fun a b => if Nat.eqb a 0 then (if Nat.eqb b 0 then akp1 / d else - akkp1 / d) else (if Nat.eqb b 0 then - akkp1 / d else ak / d))).
    - intros. apply bord11; auto.
    - intros i b I L. unfold G. rewrite bord12 by auto. assert (b = 0 \/ b = 1)%nat as [-> | ->] by lia; cbn [Nat.eqb]; unfold ch, ck; rewrite ?EH, ?EK; reflexivity.
    - intros a j L J. unfold G. rewrite bord21 by auto.
      assert (a = 0 \/ a = 1)%nat as [-> | ->] by lia; cbn [Nat.eqb]; unfold ch, ck; rewrite ?EH, ?EK, sum_row by auto; reflexivity.
    - assert (SW : sumn h (fun l => ch l * uk l) = sumn h (fun l => uk l * ch l)) by (apply sumn_ext; intros; ring).
      assert (SY : sumn h (fun l => uk l * sumn h (fun m => X l m * uh m)) = sumn h (fun l => uh l * sumn h (fun m => X l m * uk m))).
      { transitivity (sumn h (fun l => sumn h (fun m => uk l * X l m * uh m))); [apply sumn_ext; intros; rewrite <- sumn_scal; apply sumn_ext; intros; ring|].
        rewrite sumn_swap. apply sumn_ext. intros l L. rewrite <- sumn_scal. apply sumn_ext. intros m M. rewrite (SX l m) by auto. ring. }
      assert (QH : forall f, sumn h (fun l => uh l * f l) = sumn h (fun l => U l 0%nat * f l)) by (intros; apply sumn_ext; intros; rewrite HH by auto; reflexivity).
      assert (QK : forall f, sumn h (fun l => uk l * f l) = sumn h (fun l => U l 1%nat * f l)) by (intros; apply sumn_ext; intros; rewrite HK by auto; reflexivity).
      assert (IE : forall g f, sumn h (fun l => g l * sumn h (fun m => X l m * uh m)) = f -> f = sumn h (fun l => g l * sumn h (fun m => X l m * U m 0%nat))).
      { intros g f <-. apply sumn_ext. intros. rewrite EH. reflexivity. }
      assert (IK : forall g f, sumn h (fun l => g l * sumn h (fun m => X l m * uk m)) = f -> f = sumn h (fun l => g l * sumn h (fun m => X l m * U m 1%nat))).
      { intros g f <-. apply sumn_ext. intros. rewrite EK. reflexivity. }
      intros a b HA HB. unfold G. rewrite bord22.
      assert (a = 0 \/ a = 1)%nat as [-> | ->] by lia; assert (b = 0 \/ b = 1)%nat as [-> | ->] by lia; cbn [Nat.eqb].
      + unfold ehh, Rminus. unfold ch. rewrite neg_quad. f_equal. apply IE. rewrite <- QH. reflexivity.
      + unfold ehk, Rminus. rewrite SW. unfold ch. rewrite neg_quad. f_equal. rewrite SY. apply IK. rewrite <- QH. reflexivity.
      + unfold ehk, Rminus. rewrite SW. unfold ch. rewrite neg_quad. f_equal. apply IE. rewrite <- QK. reflexivity.
      + unfold ekk, Rminus. unfold ck. rewrite neg_quad. f_equal. apply IK. rewrite <- QK. reflexivity.
    - exact HX.
    - assert (NZ : B h h * B k k - t * t <> 0) by (rewrite TT; exact d0).
      intros a b HA HB. assert (a = 0 \/ a = 1)%nat as [-> | ->] by lia; assert (b = 0 \/ b = 1)%nat as [-> | ->] by lia; cbn [sumn Nat.eqb];
        unfold D, delta; cbn [Nat.eqb]; rewrite ED; unfold ak, akp1, akkp1.
      + rewrite <- TT. transitivity ((B h h * B k k - B h k * B h k) / (B h h * B k k - t * t)); [field; auto|]. rewrite TT. field. exact d0.
      + field. split; auto.
      + field. split; auto.
      + rewrite <- TT. transitivity ((B h h * B k k - B h k * B h k) / (B h h * B k k - t * t)); [field; auto|]. rewrite TT. field. exact d0.
  Qed.
End TwoStep.

(** ** The recursion *)
Lemma zero_column : forall n A k, (k < n)%nat -> (forall i, (i < n)%nat -> A i k = 0) -> detn n A = 0.
Proof.
  intros n A k K Z. destruct (Req_dec (detn n A) 0) as [E|E]; [exact E|]. exfalso. apply det_inv in E. destruct E as [X HX].
  pose proof (right_left HX K K) as H. rewrite (sumn_ext n _ (fun _ => 0)), sumn_zero in H by (intros l L; rewrite Z by auto; ring).
  unfold delta in H. rewrite Nat.eqb_refl in H. lra.
Qed.
Lemma exch_last : forall p k, exch p k k = p.
Proof. intros. unfold exch. destruct (Nat.eqb_spec k p) as [->|]; [reflexivity|]. rewrite Nat.eqb_refl. reflexivity. Qed.
Lemma exch_other : forall p q i, i <> p -> i <> q -> exch p q i = i.
Proof. intros. unfold exch. destruct (Nat.eqb_spec i p); [congruence|]. destruct (Nat.eqb_spec i q); congruence. Qed.
Lemma set_ip_same : forall ip k v, set_ip ip k v k = v. Proof. intros. unfold set_ip. rewrite Nat.eqb_refl. reflexivity. Qed.
Lemma set_ip_other : forall ip k v i, i <> k -> set_ip ip k v i = ip i. Proof. intros. unfold set_ip. destruct (Nat.eqb_spec i k); congruence. Qed.

Lemma bk_inverse : forall m A, symm m A -> detn m A <> 0 -> forall V ip,
  upper_of m V (fst (bk_trf m A)) -> (forall i, (i < m)%nat -> ip i = snd (bk_trf m A) i) ->
  symm m (bk_tri m V ip) /\ inv_of m A (bk_tri m V ip).
Proof.
  intros m. pattern m. apply lt_wf_ind. clear m. intros m IH A SY ND V ip HV HI.
  destruct m as [|k]; [split; [intros i j I; lia|intros i j I; lia]|].
  cbn [bk_trf] in HV, HI. pose proof (pivot_ok k A SY) as PV. destruct (pivot_of k A) as [|p|p].
  - exfalso. apply ND. apply (zero_column (S k) A k); [lia|]. intros i I. apply PV. lia.
  - destruct PV as [PK PN]. set (B := swap_both p k A) in *.
    assert (SB : symm (S k) B) by (apply swap_symm; auto; lia).
    assert (BD : B k k = A p p) by (unfold B, swap_both; rewrite exch_last; reflexivity).
    assert (d0 : B k k <> 0) by (rewrite BD; exact PN).
    pose proof (one_det k B SB d0) as DET. unfold B in DET at 1. rewrite swap_det in DET by lia.
    assert (NR : detn k (rest1 k B) <> 0) by (intros E; apply ND; rewrite DET, E; ring).
    change (fun i j => B i j - 1 / B k k * B i k * B j k) with (rest1 k B) in HV, HI.
    destruct (bk_trf k (rest1 k B)) as [F ip0] eqn:EF. cbn [fst snd] in HV, HI.
    assert (IPK : ip k = Z.of_nat (p + 1)) by (rewrite HI by lia; apply set_ip_same).
    destruct (IH k ltac:(lia) (rest1 k B) (rest1_symm k B SB) NR V ip) as [SX HX].
    { rewrite EF. intros i j IJ. rewrite HV by lia. cbn [fst]. destruct (Nat.eqb_spec j k); [lia|reflexivity]. }
    { intros i I. rewrite EF, HI by lia. cbn [snd]. apply set_ip_other. lia. }
    destruct (one_inv k B SB d0 (bk_tri k V ip) (fun i => V i k) (V k k) SX HX) as [SG HG].
    { intros i I. rewrite HV by lia. rewrite Nat.eqb_refl. destruct (Nat.eqb_spec i k); [lia|reflexivity]. }
    { rewrite HV by lia. rewrite Nat.eqb_refl. reflexivity. }
    cbn [bk_tri]. rewrite IPK. assert (LT : (0 <? Z.of_nat (p + 1))%Z = true) by (apply Z.ltb_lt; lia). rewrite LT.
    rewrite Nat2Z.id. replace (p + 1 - 1)%nat with p by lia. cbv zeta.
    split; [apply swap_symm; [lia|lia|exact SG]|]. apply swap_inv; [lia|lia|exact HG].
  - destruct PV as (PK & PN & PD). destruct k as [|h]; [lia|]. set (k := S h) in *. set (B := swap_both p h A) in *.
    assert (SB : symm (S k) B) by (apply swap_symm; auto; unfold k; lia).
    assert (EK : exch p h k = k) by (apply exch_other; unfold k; lia).
    assert (BH : B h h = A p p) by (unfold B, swap_both; rewrite exch_last; reflexivity).
    assert (BK : B k k = A k k) by (unfold B, swap_both; rewrite EK; reflexivity).
    assert (BO : B h k = A p k) by (unfold B, swap_both; rewrite EK, exch_last; reflexivity).
    assert (o0 : B h k <> 0) by (rewrite BO; exact PN).
    assert (d0 : B h h * B k k - B h k * B h k <> 0).
    { rewrite BH, BK, BO. pose proof (Rle_abs (A p p * A k k)). lra. }
    pose proof (two_det h B SB o0 d0) as DET. fold k in DET. unfold B in DET at 1. rewrite swap_det in DET by (unfold k; lia).
    assert (NR : detn h (rest2 h B) <> 0) by (intros E; apply ND; rewrite DET, E; ring).
    change (fun i j => B i j - B i k * (1 / (B k k / B h k * (B h h / B h k) - 1) / B h k * (B h h / B h k * B j k - B j h)) -
                       B i h * (1 / (B k k / B h k * (B h h / B h k) - 1) / B h k * (B k k / B h k * B j h - B j k))) with (rest2 h B) in HV, HI.
    destruct (bk_trf h (rest2 h B)) as [F ip0] eqn:EF. cbn [fst snd] in HV, HI.
    assert (IPK : ip k = (- Z.of_nat (p + 1))%Z).
    { rewrite HI by lia. rewrite set_ip_other by (unfold k; lia). apply set_ip_same. }
    destruct (IH h ltac:(unfold k; lia) (rest2 h B) (rest2_symm h B SB o0 d0) NR V ip) as [SX HX].
    { rewrite EF. intros i j IJ. rewrite HV by (unfold k; lia). cbn [fst]. destruct (Nat.eqb_spec j k); [unfold k in *; lia|]. destruct (Nat.eqb_spec j h); [lia|reflexivity]. }
    { intros i I. rewrite EF, HI by (unfold k; lia). cbn [snd]. rewrite !set_ip_other by (unfold k; lia). reflexivity. }
    assert (Hk : forall i, (i < h)%nat -> V i k = wk h B i).
    { intros i I. rewrite HV by (unfold k; lia). rewrite Nat.eqb_refl. destruct (Nat.ltb_spec i h); [reflexivity|lia]. }
    assert (Hh : forall i, (i < h)%nat -> V i h = wkm1 h B i).
    { intros i I. rewrite HV by (unfold k; lia). destruct (Nat.eqb_spec h k); [unfold k in *; lia|]. rewrite Nat.eqb_refl. destruct (Nat.ltb_spec i h); [reflexivity|lia]. }
    assert (Vhk : V h k = B h k) by (rewrite HV by (unfold k; lia); rewrite Nat.eqb_refl; destruct (Nat.ltb_spec h h); [lia|reflexivity]).
    assert (Vkk : V k k = B k k) by (rewrite HV by (unfold k; lia); rewrite Nat.eqb_refl; destruct (Nat.ltb_spec k h); [unfold k in *; lia|reflexivity]).
    assert (Vhh : V h h = B h h).
    { rewrite HV by (unfold k; lia). destruct (Nat.eqb_spec h k); [unfold k in *; lia|]. rewrite Nat.eqb_refl. destruct (Nat.ltb_spec h h); [lia|reflexivity]. }
    destruct (two_inv h B SB o0 d0 (bk_tri h V ip) (fun i => V i h) (fun i => V i k) (V h h) (V h k) (V k k) SX HX Hh Hk Vhh Vhk Vkk) as [SG HG].
    cbn [bk_tri]. fold k. rewrite IPK. assert (LT : (0 <? - Z.of_nat (p + 1))%Z = false) by (apply Z.ltb_ge; lia). unfold k at 2 4. rewrite LT.
    replace (Z.to_nat (- - Z.of_nat (p + 1)) - 1)%nat with p by lia. cbv zeta.
    split; [apply swap_symm; [unfold k; lia|unfold k; lia|exact SG]|]. apply swap_inv; [unfold k; lia|unfold k; lia|exact HG].
Qed.

(** ** Positive definite matrices *)
Lemma quad_last : forall k B y, symm (S k) B ->
  quad (S k) B y = quad k B y + 2 * y k * sumn k (fun i => y i * B i k) + y k * y k * B k k.
Proof.
  intros k B y SB. unfold quad. cbn [sumn].
  rewrite (sumn_plus k (fun i => sumn k (fun j => y i * B i j * y j)) (fun i => y i * B i k * y k)).
  rewrite (sumn_ext k (fun j => y k * B k j * y j) (fun i => y k * (y i * B i k))) by (intros i I; rewrite (SB k i) by lia; ring).
  rewrite (sumn_ext k (fun i => y i * B i k * y k) (fun i => y k * (y i * B i k))) by (intros; ring).
  rewrite sumn_scal. ring.
Qed.
Lemma quad_rest : forall k B x, quad k (rest1 k B) x = quad k B x - 1 / B k k * (sumn k (fun i => x i * B i k) * sumn k (fun i => x i * B i k)).
Proof.
  intros. unfold quad, rest1. set (b := sumn k (fun i => x i * B i k)).
  transitivity (sumn k (fun i => sumn k (fun j => x i * B i j * x j) + - (1 / B k k * b) * (x i * B i k))).
  - apply sumn_ext. intros i I.
    transitivity (sumn k (fun j => x i * B i j * x j + - (1 / B k k * (x i * B i k)) * (x j * B j k))); [apply sumn_ext; intros; ring|].
    rewrite sumn_plus, sumn_scal. fold b. ring.
  - rewrite sumn_plus, sumn_scal. fold b. ring.
Qed.
Lemma rest_spd : forall k B, spd (S k) B -> 0 < B k k /\ spd k (rest1 k B).
Proof.
  intros k B [SB PB].
  assert (D : 0 < B k k).
  { specialize (PB (fun i => if Nat.eqb i k then 1 else 0)). rewrite quad_last in PB by exact SB. rewrite Nat.eqb_refl in PB.
    rewrite (sumn_ext k _ (fun _ => 0)), sumn_zero in PB by (intros i I; destruct (Nat.eqb_spec i k); [lia|ring]).
    assert (Z : quad k B (fun i => if Nat.eqb i k then 1 else 0) = 0).
    { unfold quad. rewrite (sumn_ext k _ (fun _ => 0)); [apply sumn_zero|]. intros i I. rewrite (sumn_ext k _ (fun _ => 0)); [apply sumn_zero|].
      intros j J. destruct (Nat.eqb_spec i k); [lia|ring]. }
    rewrite Z in PB. assert (0 < 0 + 2 * 1 * 0 + 1 * 1 * B k k); [|lra]. apply PB. exists k. split; [lia|]. rewrite Nat.eqb_refl. lra. }
  split; [exact D|]. split; [apply rest1_symm; exact SB|]. intros x (i & I & X). rewrite quad_rest. set (b := sumn k (fun i => x i * B i k)).
  set (y := fun j => if Nat.eqb j k then - (b / B k k) else x j).
  assert (YE : forall j, (j < k)%nat -> y j = x j) by (intros j J; unfold y; destruct (Nat.eqb_spec j k); [lia|reflexivity]).
  specialize (PB y). rewrite quad_last in PB by exact SB.
  assert (Y1 : sumn k (fun i => y i * B i k) = b) by (apply sumn_ext; intros; rewrite YE by auto; reflexivity).
  assert (Y2 : quad k B y = quad k B x).
  { unfold quad. apply sumn_ext. intros a Ha. apply sumn_ext. intros c Hc. rewrite !YE by auto. reflexivity. }
  rewrite Y1, Y2 in PB. assert (YK : y k = - (b / B k k)) by (unfold y; rewrite Nat.eqb_refl; reflexivity). rewrite YK in PB.
  assert (H : 0 < quad k B x + 2 * - (b / B k k) * b + - (b / B k k) * - (b / B k k) * B k k).
  { apply PB. exists i. split; [lia|]. rewrite YE by auto. exact X. }
  replace (quad k B x + 2 * - (b / B k k) * b + - (b / B k k) * - (b / B k k) * B k k) with (quad k B x - 1 / B k k * (b * b)) in H by (field; lra).
  exact H.
Qed.
Lemma spd_no_block : forall k p A, spd (S k) A -> (p < k)%nat -> ~ Rabs (A p p * A k k) < A p k * A p k.
Proof.
  intros k p A H P L. destruct (rest_spd k A H) as [D HR]. pose proof (spd_lead (S p) (k - S p) (rest1 k A)) as SL.
  replace (S p + (k - S p))%nat with k in SL by lia. destruct (rest_spd p _ (SL HR)) as [DP _]. unfold rest1 in DP.
  assert (E : A p p * A k k - A p k * A p k = (A p p - 1 / A k k * A p k * A p k) * A k k) by (field; lra).
  pose proof (Rle_abs (A p p * A k k)). nra.
Qed.

Lemma bk_spd : forall m A, spd m A -> let '(F, ip) := bk_trf m A in
  (forall i, (i < m)%nat -> (0 < ip i)%Z /\ 0 < F i i) /\ prodn m (fun i => F i i) = detn m A.
Proof.
  induction m as [|k IH]; intros A H.
  - cbn [bk_trf]. split; [intros i I; lia|]. cbn. rewrite detn0. reflexivity.
  - cbn [bk_trf]. pose proof (pivot_ok k A (proj1 H)) as PV. destruct (rest_spd k A H) as [DK _]. destruct (pivot_of k A) as [|p|p].
    + specialize (PV k (le_n k)). lra.
    + destruct PV as [PK PN]. set (B := swap_both p k A).
      assert (HB : spd (S k) B) by (apply swap_spd; auto; lia). destruct (rest_spd k B HB) as [DB HR].
      pose proof (one_det k B (proj1 HB) ltac:(lra)) as DET. unfold B in DET at 1. rewrite swap_det in DET by lia.
      change (fun i j => B i j - 1 / B k k * B i k * B j k) with (rest1 k B). specialize (IH _ HR).
      destruct (bk_trf k (rest1 k B)) as [F ip]. destruct IH as [IH1 IH2]. split.
      * intros i I. destruct (Nat.eq_dec i k) as [->|NE].
        -- rewrite set_ip_same, Nat.eqb_refl. split; [lia|exact DB].
        -- rewrite set_ip_other by auto. destruct (Nat.eqb_spec i k); [congruence|]. apply IH1. lia.
      * cbn [prodn]. rewrite Nat.eqb_refl, DET, <- IH2. f_equal. apply prodn_ext. intros i I. destruct (Nat.eqb_spec i k); [lia|reflexivity].
    + destruct PV as (PK & _ & PD). exfalso. exact (spd_no_block k p A H PK PD).
Qed.

(** ** The contract *)
Lemma both_ok : forall n U A, upper_of n U A -> symm n A -> forall i j, (i < n)%nat -> (j < n)%nat -> both U i j = A i j.
Proof.
  intros n U A HU SY i j I J. unfold both. rewrite HU by lia. destruct (le_lt_dec i j).
  - rewrite Nat.min_l, Nat.max_r by lia. reflexivity.
  - rewrite Nat.min_r, Nat.max_l by lia. apply SY; auto.
Qed.
Lemma both_symm : forall n U, symm n (both U).
Proof. intros n U i j _ _. unfold both. rewrite Nat.min_comm, Nat.max_comm. reflexivity. Qed.
Lemma both_spd : forall n U A, upper_of n U A -> spd n A -> spd n (both U).
Proof.
  intros n U A HU [SY PD]. split; [apply both_symm|]. intros x X. specialize (PD x X). unfold quad in *.
  rewrite (sumn_ext n _ (fun i => sumn n (fun j => x i * A i j * x j))); [exact PD|].
  intros i I. apply sumn_ext. intros j J. rewrite (both_ok n U A) by auto. reflexivity.
Qed.
Lemma bk_contract : dsytr_spec bk_dsytrf bk_dsytri.
Proof.
  intros n U A HU SY ND. pose proof (both_ok n U A HU SY) as EQ.
  assert (ED : detn n (both U) = detn n A) by (apply detn_ext; exact EQ). split.
  - intros V B HV HB i j IJ. unfold bk_dsytri, bk_dsytrf in *.
    destruct (bk_inverse n (both U) (both_symm n U) ltac:(rewrite ED; exact ND) V (snd (bk_trf n (both U))) HV) as [_ HX]; [reflexivity|].
    apply (inv_unique (n := n) (f := A)); try lia; auto.
    intros a b Ha Hb. rewrite <- (HX a b Ha Hb). apply sumn_ext. intros l L. rewrite EQ by auto. reflexivity.
  - intros PD. pose proof (bk_spd n (both U) (both_spd n U A HU PD)) as G. unfold bk_dsytrf.
    destruct (bk_trf n (both U)) as [F ip]. cbn [fst]. destruct G as [G1 G2]. split; [intros i I; apply G1; exact I|]. rewrite G2. exact ED.
Qed.
Lemma bk_code : forall n U A V, upper_of n U A -> spd n A -> upper_of n V (fst (bk_dsytrf n U)) -> bk_fails n V (snd (bk_dsytrf n U)) = false.
Proof.
  intros n U A V HU PD HV. pose proof (bk_spd n (both U) (both_spd n U A HU PD)) as G. unfold bk_dsytrf in *.
  destruct (bk_trf n (both U)) as [F ip]. cbn [fst snd] in *. destruct G as [G _].
  assert (H : forall m, (m <= n)%nat -> bk_fails m V ip = false); [|apply H; lia].
  induction m as [|m IH]; intros M; [reflexivity|]. cbn [bk_fails]. destruct (G m ltac:(lia)) as [P D].
  rewrite (proj2 (Z.ltb_lt _ _) P). rewrite (HV m m) by lia. destruct (Req_EM_T (F m m) 0); [lra|]. apply IH. lia.
Qed.
