(** Why covariances of continuum and lines form non-negative matrices: a functional
    that point measures of bounded mass approximate, however many functions are tested
    at once, inherits non-negativity from the kernel.  No interchange of integrals. *)
From Coq Require Import Reals List Lra Lia Psatz Permutation.
From Coquelicot Require Import Coquelicot.
From Verif Require Import SemisepModel SemisepProofs KernelCalc PredProofs.
Import ListNotations.
Open Scope R_scope.

(** ** Point measures: lists of (point, weight) *)
Fixpoint ev (F : list (R * R)) (h : R -> R) : R := match F with [] => 0 | (p, w) :: r => w * h p + ev r h end.
Fixpoint tv (F : list (R * R)) : R := match F with [] => 0 | (p, w) :: r => Rabs w + tv r end.
Definition bil (k : R -> R -> R) (F G : list (R * R)) : R := ev F (fun p => ev G (k p)).

Lemma ev_app F G h : ev (F ++ G) h = ev F h + ev G h.
Proof. induction F as [|[p w] F IH]; cbn [ev app]; [ring|rewrite IH; ring]. Qed.
Lemma tv_app F G : tv (F ++ G) = tv F + tv G.
Proof. induction F as [|[p w] F IH]; cbn [tv app]; [ring|rewrite IH; ring]. Qed.
Lemma tv_nonneg F : 0 <= tv F.
Proof. induction F as [|[p w] F IH]; cbn [tv]; [lra|]. pose proof (Rabs_pos w). lra. Qed.
Lemma ev_plus F g h : ev F (fun p => g p + h p) = ev F g + ev F h.
Proof. induction F as [|[p w] F IH]; cbn [ev]; [ring|rewrite IH; ring]. Qed.
Lemma ev_scal F c h : ev F (fun p => c * h p) = c * ev F h.
Proof. induction F as [|[p w] F IH]; cbn [ev]; [ring|rewrite IH; ring]. Qed.
Lemma ev_ext F g h : (forall p, g p = h p) -> ev F g = ev F h.
Proof. intros E. induction F as [|[p w] F IH]; cbn [ev]; [ring|rewrite IH, E; ring]. Qed.
Lemma ev_bound F h B : (forall p w, In (p, w) F -> Rabs (h p) <= B) -> Rabs (ev F h) <= tv F * B.
Proof.
  induction F as [|[p w] F IH]; intros H; cbn [ev tv]; [rewrite Rabs_R0; lra|].
  assert (H1 : Rabs (h p) <= B) by (apply (H p w); left; reflexivity).
  assert (H2 : Rabs (ev F h) <= tv F * B) by (apply IH; intros q v I; apply (H q v); right; exact I).
  eapply Rle_trans; [apply Rabs_triang|]. rewrite Rabs_mult. pose proof (Rabs_pos w).
  pose proof (Rmult_le_compat_l _ _ _ H0 H1). lra.
Qed.
Lemma ev_close F g h d : (forall p w, In (p, w) F -> Rabs (g p - h p) <= d) -> Rabs (ev F g - ev F h) <= tv F * d.
Proof.
  intros H. replace (ev F g - ev F h) with (ev F (fun p => g p + -1 * h p)) by (rewrite ev_plus, ev_scal; ring).
  apply ev_bound. intros p w I. replace (g p + -1 * h p) with (g p - h p) by ring. apply (H p w I).
Qed.
Lemma ev_swap F G (k : R -> R -> R) : ev F (fun p => ev G (k p)) = ev G (fun q => ev F (fun p => k p q)).
Proof.
  induction F as [|[p w] F IH]; cbn [ev].
  - induction G as [|[q v] G IG]; cbn [ev]; [ring|]. rewrite <- IG. ring.
  - rewrite IH, <- ev_scal, <- ev_plus. reflexivity.
Qed.
Definition scale (c : R) (F : list (R * R)) : list (R * R) := map (fun pw => (fst pw, c * snd pw)) F.
Lemma ev_scale c F h : ev (scale c F) h = c * ev F h.
Proof. induction F as [|[p w] F IH]; cbn [scale map ev fst snd]; [ring|]. fold (scale c F). rewrite IH. ring. Qed.
Lemma tv_scale c F : tv (scale c F) = Rabs c * tv F.
Proof. induction F as [|[p w] F IH]; cbn [scale map tv fst snd]; [ring|]. fold (scale c F). rewrite IH, Rabs_mult. ring. Qed.

(** ** Functionals approximated by point measures *)
(** T h m: the functional has value m on h *)
Definition approx (T : (R -> R) -> R -> Prop) (D : R) : Prop :=
  forall tests : list ((R -> R) * R), (forall h m, In (h, m) tests -> T h m) ->
  forall e, 0 < e -> exists F, tv F <= D /\ forall h m, In (h, m) tests -> Rabs (ev F h - m) < e.

Lemma core (k : R -> R -> R) T D G Q :
  (forall p q, k p q = k q p) -> (forall p q, Rabs (k p q) <= 1) -> (forall F, 0 <= bil k F F) ->
  approx T D -> (forall p, T (k p) (G p)) -> T G Q -> 0 <= Q.
Proof.
  intros KS KB KP AP TG TQ. destruct (Rle_lt_dec 0 Q) as [|NQ]; [assumption|exfalso].
  set (c := - Q). assert (C0 : 0 < c) by (unfold c; lra).
  assert (D0 : 0 <= D).
  { destruct (AP [] ltac:(intros h m []) 1 ltac:(lra)) as (F & B & _). pose proof (tv_nonneg F). lra. }
  assert (STEP : forall K : nat, exists F, tv F <= INR K * D /\ ev F G <= - (3 / 4) * (INR K * c) /\ bil k F F <= INR K * (D * D) - INR K * (INR K - 1) * (c / 2)).
  { induction K as [|K (F & F1 & F2 & F3)].
    - exists []. cbn [tv ev bil INR]. unfold bil. cbn [ev]. lra.
    - set (tests := (G, Q) :: map (fun pw => (k (fst pw), G (fst pw))) F).
      set (e := Rmin (c / 4) (c / (4 * (D + 1)))).
      assert (E0 : 0 < e). { unfold e. apply Rmin_glb_lt; [lra|]. apply Rdiv_lt_0_compat; lra. }
      destruct (AP tests) with (e := e) as (f & f1 & f2); [|exact E0|].
      { intros h m [X|X]; [injection X as <- <-; exact TQ|]. apply in_map_iff in X. destruct X as ([p w] & X & _). injection X as <- <-. apply TG. }
      pose proof (f2 G Q (or_introl eq_refl)) as X1.
      assert (X2 : forall p w, In (p, w) F -> Rabs (ev f (k p) - G p) <= e).
      { intros p w I. left. apply f2. right. apply in_map_iff. exists (p, w). split; [reflexivity|exact I]. }
      pose proof (ev_close F (fun p => ev f (k p)) G e X2) as X3.
      assert (E1 : e <= c / 4) by apply Rmin_l. assert (E2 : e <= c / (4 * (D + 1))) by apply Rmin_r.
      assert (E3 : D * e <= c / 4).
      { apply Rle_trans with (D * (c / (4 * (D + 1)))); [apply Rmult_le_compat_l; lra|].
        apply (Rmult_le_reg_r (4 * (D + 1))); [lra|]. field_simplify; [|lra]. nra. }
      pose proof (pos_INR K) as K0. pose proof (tv_nonneg F) as TF.
      apply Rabs_def2 in X1.
      assert (Y1 : bil k F f <= - (INR K * c) / 2).
      { unfold bil. pose proof (Rle_abs (ev F (fun p => ev f (k p)) - ev F G)).
        assert (tv F * e <= INR K * (D * e)) by nra. assert (INR K * (D * e) <= INR K * (c / 4)) by nra. lra. }
      assert (Y2 : bil k f F = bil k F f).
      { unfold bil. rewrite ev_swap. apply ev_ext. intros p. apply ev_ext. intros q. apply KS. }
      assert (Y3 : bil k f f <= D * D).
      { unfold bil. eapply Rle_trans; [apply Rle_abs|]. pose proof (tv_nonneg f).
        eapply Rle_trans; [apply (ev_bound f _ (tv f))|nra].
        intros p w _. eapply Rle_trans; [apply (ev_bound f _ 1)|lra]. intros q v _. apply KB. }
      exists (F ++ f). rewrite tv_app, ev_app, S_INR. split; [lra|]. split; [unfold c in *; lra|].
      replace (bil k (F ++ f) (F ++ f)) with (bil k F F + bil k F f + (bil k f F + bil k f f)).
      2: { unfold bil. rewrite ev_app. f_equal; rewrite <- ev_plus; apply ev_ext; intros p; symmetry; apply ev_app. }
      rewrite Y2. lra. }
  destruct (archimed (2 * (D * D) / c + 1)) as [A _]. set (K := Z.to_nat (up (2 * (D * D) / c + 1))).
  assert (P : 0 <= 2 * (D * D) / c) by (apply Rmult_le_pos; [nra|left; apply Rinv_0_lt_compat; exact C0]).
  assert (KB' : 2 * (D * D) / c + 1 < INR K).
  { unfold K. rewrite INR_IZR_INZ, Z2Nat.id; [lra|]. apply le_IZR. lra. }
  destruct (STEP K) as (F & _ & _ & F3). specialize (KP F).
  assert (2 * (D * D) < c * (INR K - 1)).
  { apply (Rmult_lt_compat_l c) in KB'; [|exact C0]. replace (c * (2 * (D * D) / c + 1)) with (2 * (D * D) + c) in KB' by (field; lra). lra. }
  assert (0 < INR K) by lra.
  assert (Z : INR K * (D * D) - INR K * (INR K - 1) * (c / 2) = INR K * ((2 * (D * D) - c * (INR K - 1)) / 2)) by field. nra.
Qed.

(** ** Values at a point *)
Definition at_point_T (t : R) (h : R -> R) (m : R) : Prop := m = h t.
Lemma approx_point t : approx (at_point_T t) 1.
Proof.
  intros tests H e E. exists [(t, 1)]. cbn [tv ev]. split; [rewrite Rabs_R1; lra|].
  intros h m I. rewrite (H h m I). replace (1 * h t + 0 - h t) with 0 by ring. rewrite Rabs_R0. exact E.
Qed.

(** ** Integrals against a response *)
Definition line_T (psi : R -> R) (t : R) (h : R -> R) (m : R) : Prop := whole_line (fun a => psi a * h (t - a)) m.

Lemma common_range psi t e : 0 < e -> forall tests, (forall h m, In (h, m) tests -> line_T psi t h m) ->
  exists M, forall a b, a < - M -> M < b -> forall h m, In (h, m) tests -> exists y, is_RInt (fun a => psi a * h (t - a)) a b y /\ Rabs (y - m) < e.
Proof.
  intros E. induction tests as [|[h m] tests IH]; intros H.
  - exists 0. intros a b _ _ h m [].
  - destruct IH as [M1 H1]; [intros; apply H; right; assumption|].
    destruct (wl_elim _ _ (H h m (or_introl eq_refl)) (mkposreal e E)) as [M2 H2].
    exists (Rmax M1 M2). intros a b A B h' m' [X|X].
    + injection X as <- <-. apply H2; pose proof (Rmax_r M1 M2); lra.
    + apply H1; try assumption; pose proof (Rmax_l M1 M2); lra.
Qed.
Lemma fine_one f a b y e : a < b -> 0 < e -> is_RInt f a b y -> Riemann_fine a b (fun ptd => Rabs (Riemann_sum f ptd - y) < e).
Proof.
  intros AB E H. specialize (H (ball y (mkposreal e E)) (locally_ball y (mkposreal e E))).
  unfold filtermap in H. eapply filter_imp; [|exact H].
  intros ptd B. replace (sign (b - a)) with 1 in B.
  - unfold ball in B; simpl in B; unfold AbsRing_ball, abs, minus, plus, opp, scal in B; simpl in B; unfold mult in B; simpl in B.
    rewrite Rmult_1_l in B. exact B.
  - symmetry. apply sign_eq_1. lra.
Qed.
Lemma common_fine psi t a b e : a < b -> 0 < e -> forall tests,
  (forall h m, In (h, m) tests -> exists y, is_RInt (fun a => psi a * h (t - a)) a b y /\ Rabs (y - m) < e) ->
  Riemann_fine a b (fun ptd => forall h m, In (h, m) tests -> Rabs (Riemann_sum (fun a => psi a * h (t - a)) ptd - m) < 2 * e).
Proof.
  intros AB E. induction tests as [|[h m] tests IH]; intros H.
  - eapply filter_imp; [|apply filter_true]. intros ptd _ h m [].
  - destruct (H h m (or_introl eq_refl)) as (y & Y1 & Y2).
    pose proof (fine_one _ a b y e AB E Y1) as F1.
    assert (F2 := IH (fun h m I => H h m (or_intror I))).
    eapply filter_imp; [|exact (filter_and _ _ F1 F2)].
    intros ptd [P1 P2] h' m' [X|X]; [|apply P2; exact X]. injection X as <- <-.
    replace (Riemann_sum (fun a => psi a * h (t - a)) ptd - m) with ((Riemann_sum (fun a => psi a * h (t - a)) ptd - y) + (y - m)) by ring.
    eapply Rle_lt_trans; [apply Rabs_triang|]. replace (2 * e) with (e + e) by ring. apply Rplus_lt_compat; [exact P1|exact Y2].
Qed.
Lemma sum_measure psi Phi t : (forall a, Rabs (psi a) <= Phi a) -> forall ptd : SF_seq, pointed_subdiv ptd ->
  exists F, (forall g, ev F g = Riemann_sum (fun a => psi a * g (t - a)) ptd) /\ tv F <= Riemann_sum Phi ptd.
Proof.
  intros HP ptd. apply (SF_cons_ind (fun ptd => pointed_subdiv ptd -> exists F, (forall g, ev F g = Riemann_sum (fun a => psi a * g (t - a)) ptd) /\ tv F <= Riemann_sum Phi ptd)).
  - intros x0 _. exists []. split; [intros g; reflexivity|]. cbn [tv]. right. reflexivity.
  - intros [x0 y0] s IH PS. destruct (IH (ptd_cons _ _ PS)) as (F & F1 & F2).
    assert (W : x0 <= SF_h s).
    { specialize (PS 0%nat). rewrite SF_size_cons in PS. specialize (PS (Nat.lt_0_succ _)). simpl in PS. lra. }
    exists ((t - y0, (SF_h s - x0) * psi y0) :: F). split.
    + intros g. cbn [ev]. rewrite Riemann_sum_cons, F1. unfold plus, scal; simpl. unfold mult; simpl. ring.
    + cbn [tv]. rewrite Riemann_sum_cons. unfold plus, scal; simpl. unfold mult; simpl.
      rewrite Rabs_mult, (Rabs_pos_eq (SF_h s - x0)) by lra. specialize (HP y0). nra.
Qed.
Lemma le_sum (s y A : R) : s - y < 1 / 2 -> y - A < 1 / 2 -> s <= A + 1.
Proof. lra. Qed.
Lemma approx_line psi Phi A t : (forall a, Rabs (psi a) <= Phi a) -> whole_line Phi A -> approx (line_T psi t) (A + 1).
Proof.
  intros HP HA tests H e E.
  destruct (common_range psi t (e / 2) ltac:(lra) tests H) as [M1 H1].
  destruct (wl_elim _ _ HA (mkposreal (1 / 2) ltac:(lra))) as [M2 H2].
  set (M := Rmax (Rmax M1 M2) 0). assert (M1 <= M /\ M2 <= M /\ 0 <= M) as (L1 & L2 & L3).
  { unfold M. pose proof (Rmax_l (Rmax M1 M2) 0). pose proof (Rmax_r (Rmax M1 M2) 0). pose proof (Rmax_l M1 M2). pose proof (Rmax_r M1 M2). lra. }
  set (a := - M - 1). set (b := M + 1). assert (AB : a < b) by (unfold a, b; lra).
  pose proof (common_fine psi t a b (e / 2) AB ltac:(lra) tests (H1 a b ltac:(unfold a; lra) ltac:(unfold b; lra))) as C1.
  destruct (H2 a b ltac:(unfold a; lra) ltac:(unfold b; lra)) as (y & Y1 & Y2). cbn in Y2.
  pose proof (fine_one _ a b y (1 / 2) AB ltac:(lra) Y1) as C2.
  assert (C3 : Riemann_fine a b (fun ptd => pointed_subdiv ptd)).
  { unfold Riemann_fine, within. eapply filter_imp; [|apply filter_true]. intros ptd _ [P _]. exact P. }
  destruct (filter_ex _ (filter_and _ _ C1 (filter_and _ _ C2 C3))) as (ptd & P1 & P2 & P3).
  destruct (sum_measure psi Phi t HP ptd P3) as (F & F1 & F2).
  exists F. split.
  - apply Rle_trans with (1 := F2). apply Rabs_def2 in P2. apply Rabs_def2 in Y2. destruct P2 as [P2 _]. destruct Y2 as [Y2 _]. simpl in Y2.
    apply (le_sum _ y A P2 Y2).
  - intros h m I. rewrite F1. replace e with (2 * (e / 2)) by field. apply P1. exact I.
Qed.

(** ** Linear combinations *)
Definition comb_T (n : nat) (x : nat -> R) (T : nat -> (R -> R) -> R -> Prop) (h : R -> R) (m : R) : Prop :=
  exists v, m = sumn n (fun i => x i * v i) /\ forall i, (i < n)%nat -> T i h (v i).
Lemma approx_comb n x T : (forall i, (i < n)%nat -> exists D, approx (T i) D) -> exists D, approx (comb_T n x T) D.
Proof.
  induction n as [|n IH]; intros H.
  - exists 0. intros tests HT e E. exists []. cbn [tv ev]. split; [lra|]. intros h m I. destruct (HT h m I) as (v & -> & _). cbn [sumn].
    rewrite Rminus_0_r, Rabs_R0. exact E.
  - destruct IH as [D1 A1]; [intros; apply H; lia|]. destruct (H n (Nat.lt_succ_diag_r n)) as [D2 A2].
    exists (D1 + Rabs (x n) * D2). intros tests HT e E.
    assert (SPLIT : exists t1 t2, (forall h m, In (h, m) t1 -> comb_T n x T h m) /\ (forall h m, In (h, m) t2 -> T n h m) /\
      forall h m, In (h, m) tests -> exists m1 m2, In (h, m1) t1 /\ In (h, m2) t2 /\ m = m1 + x n * m2).
    { clear E. induction tests as [|[h m] tests IT].
      - exists [], []. split; [intros h m []|]. split; [intros h m []|]. intros h m [].
      - destruct IT as (t1 & t2 & I1 & I2 & I3); [intros; apply HT; right; assumption|].
        destruct (HT h m (or_introl eq_refl)) as (v & V1 & V2).
        exists ((h, sumn n (fun i => x i * v i)) :: t1), ((h, v n) :: t2). split; [|split].
        + intros h' m' [X|X]; [|apply I1; exact X]. injection X as <- <-. exists v. split; [reflexivity|]. intros i I. apply V2. lia.
        + intros h' m' [X|X]; [|apply I2; exact X]. injection X as <- <-. apply V2. lia.
        + intros h' m' [X|X].
          * injection X as <- <-. exists (sumn n (fun i => x i * v i)), (v n). split; [left; reflexivity|]. split; [left; reflexivity|]. rewrite V1. reflexivity.
          * destruct (I3 h' m' X) as (m1 & m2 & J1 & J2 & J3). exists m1, m2. split; [right; exact J1|]. split; [right; exact J2|exact J3]. }
    destruct SPLIT as (t1 & t2 & I1 & I2 & I3).
    set (e2 := e / (2 * (Rabs (x n) + 1))). pose proof (Rabs_pos (x n)) as XP.
    assert (E2 : 0 < e2) by (apply Rdiv_lt_0_compat; lra).
    destruct (A1 t1 I1 (e / 2) ltac:(lra)) as (F1 & B1 & C1). destruct (A2 t2 I2 e2 E2) as (F2 & B2 & C2).
    exists (F1 ++ scale (x n) F2). rewrite tv_app, tv_scale. split.
    + pose proof (Rmult_le_compat_l _ _ _ XP B2). lra.
    + intros h m I. destruct (I3 h m I) as (m1 & m2 & J1 & J2 & ->). rewrite ev_app, ev_scale.
      replace (ev F1 h + x n * ev F2 h - (m1 + x n * m2)) with ((ev F1 h - m1) + x n * (ev F2 h - m2)) by ring.
      eapply Rle_lt_trans; [apply Rabs_triang|]. rewrite Rabs_mult. specialize (C1 h m1 J1). specialize (C2 h m2 J2).
      assert (Rabs (x n) * Rabs (ev F2 h - m2) <= Rabs (x n) * e2) by (apply Rmult_le_compat_l; lra).
      assert (Rabs (x n) * e2 <= e / 2).
      { unfold e2. apply (Rmult_le_reg_r (2 * (Rabs (x n) + 1))); [lra|]. field_simplify; [|lra]. nra. }
      lra.
Qed.
