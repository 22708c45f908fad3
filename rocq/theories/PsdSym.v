(** The covariance of two points does not depend on which is integrated first. *)
From Coq Require Import Reals List Lra Lia Psatz Arith.
From Coquelicot Require Import Coquelicot.
From Verif Require Import SemisepModel SemisepProofs KernelCalc KernelSpec PsdCore PsdKernel.
Import ListNotations.
Open Scope R_scope.

Section Sym.
Variable k : R -> R -> R.
Hypothesis KS : forall p q, k p q = k q p.
Hypothesis KB : forall p q, Rabs (k p q) <= 1.
Hypothesis KP : forall F, 0 <= bil k F F.

Lemma bil_sym F G : bil k F G = bil k G F.
Proof. unfold bil. rewrite ev_swap. apply ev_ext. intros p. apply ev_ext. intros q. apply KS. Qed.
Lemma bil_app_l F G H : bil k (F ++ G) H = bil k F H + bil k G H.
Proof. apply ev_app. Qed.
Lemma bil_app_r F G H : bil k F (G ++ H) = bil k F G + bil k F H.
Proof. rewrite bil_sym, bil_app_l, (bil_sym G), (bil_sym H). reflexivity. Qed.
Lemma bil_scale_l c F G : bil k (scale c F) G = c * bil k F G.
Proof. apply ev_scale. Qed.
Lemma bil_scale_r c F G : bil k F (scale c G) = c * bil k F G.
Proof. rewrite bil_sym, bil_scale_l, (bil_sym G). reflexivity. Qed.
Lemma bil_bound F D : tv F <= D -> bil k F F <= D * D.
Proof.
  intros B. unfold bil. eapply Rle_trans; [apply Rle_abs|]. pose proof (tv_nonneg F).
  eapply Rle_trans; [apply (ev_bound F _ (tv F))|nra].
  intros p w _. eapply Rle_trans; [apply (ev_bound F _ 1)|lra]. intros q v _. apply KB.
Qed.
(** testing a measure f against k p at the points of F *)
Definition against (g : R -> R) (F : list (R * R)) : list ((R -> R) * R) := map (fun pw => (k (fst pw), g (fst pw))) F.
Lemma against_in g F h m : In (h, m) (against g F) -> exists p, h = k p /\ m = g p.
Proof. intros I. apply in_map_iff in I. destruct I as ([p w] & X & _). injection X as <- <-. exists p. split; reflexivity. Qed.
Lemma against_close g F f d D : tv F <= D -> 0 <= d -> (forall h m, In (h, m) (against g F) -> Rabs (ev f h - m) <= d) -> Rabs (bil k F f - ev F g) <= D * d.
Proof.
  intros B D0 H. eapply Rle_trans; [apply (ev_close F (fun p => ev f (k p)) g d)|apply Rmult_le_compat_r; assumption].
  intros p w I. apply H. apply in_map_iff. exists (p, w). split; [reflexivity|exact I].
Qed.

Variable T : (R -> R) -> R -> Prop.
Variable D : R.
Hypothesis AP : approx T D.
Variable g : R -> R.
Hypothesis TG : forall p, T (k p) (g p).
Variable v : R.
Hypothesis TV : T g v.
Hypothesis D0 : 0 <= D.
Hypothesis V0 : 0 <= v.

(** averages of measures whose square is near v *)
Lemma averages tests e N : (forall h m, In (h, m) tests -> T h m) -> 0 < e -> (1 <= N)%nat ->
  exists F, tv F <= D /\ (forall h m, In (h, m) tests -> Rabs (ev F h - m) <= e) /\ bil k F F <= v + D * D / INR N + e.
Proof.
  intros HT E N1. set (d := e / (1 + D)).
  assert (d0 : 0 < d) by (apply Rdiv_lt_0_compat; lra).
  assert (dE : d * (1 + D) = e) by (unfold d; field; lra). assert (de : d <= e) by nra.
  set (tests' := (g, v) :: tests).
  assert (HT' : forall h m, In (h, m) tests' -> T h m) by (intros h m [X|X]; [injection X as <- <-; exact TV|apply HT, X]).
  assert (ST : forall M : nat, exists F, tv F <= INR M * D /\ (forall h m, In (h, m) tests' -> Rabs (ev F h - INR M * m) <= INR M * d) /\
     bil k F F <= INR M * (D * D) + INR M * (INR M - 1) * (v + e)).
  { induction M as [|M (F & F1 & F2 & F3)].
    - exists []. unfold bil. cbn [tv ev INR]. split; [lra|]. split; [|lra]. intros h m _. replace (0 - 0 * m) with 0 by ring. rewrite Rabs_R0. lra.
    - destruct (AP (tests' ++ against g F)) with (e := d) as (f & f1 & f2); [|exact d0|].
      { intros h m I. apply in_app_or in I. destruct I as [I|I]; [apply HT', I|]. destruct (against_in _ _ _ _ I) as (p & -> & ->). apply TG. }
      pose proof (pos_INR M) as M0. exists (F ++ f). rewrite tv_app, S_INR. split; [lra|]. split.
      + intros h m I. rewrite ev_app. replace (ev F h + ev f h - (INR M + 1) * m) with ((ev F h - INR M * m) + (ev f h - m)) by ring.
        eapply Rle_trans; [apply Rabs_triang|]. specialize (F2 h m I). specialize (f2 h m (in_or_app _ _ _ (or_introl I))). lra.
      + rewrite bil_app_l, !bil_app_r, (bil_sym f F). pose proof (bil_bound f D f1) as B1.
        assert (B2 : Rabs (bil k F f - ev F g) <= INR M * D * d).
        { apply against_close; [exact F1|lra|]. intros h m I. left. apply f2. apply in_or_app. right. exact I. }
        assert (B3 := F2 g v (or_introl eq_refl)).
        pose proof (Rle_abs (bil k F f - ev F g)). pose proof (Rle_abs (ev F g - INR M * v)).
        assert (B4 : bil k F f <= INR M * (v + e)).
        { rewrite <- dE. replace (INR M * (v + d * (1 + D))) with (INR M * v + INR M * d + INR M * D * d) by ring. lra. }
        lra. }
  destruct (ST N) as (F & F1 & F2 & F3). assert (NP : 0 < INR N) by (apply lt_0_INR; lia). assert (NI : 0 < / INR N) by (apply Rinv_0_lt_compat, NP).
  assert (N1' : 1 <= INR N) by (change 1 with (INR 1); apply le_INR; exact N1).
  exists (scale (/ INR N) F). rewrite tv_scale, bil_scale_l, bil_scale_r, Rabs_pos_eq by lra. split; [|split].
  - apply (Rmult_le_reg_l (INR N)); [exact NP|]. rewrite <- Rmult_assoc, Rinv_r by lra. lra.
  - intros h m I. rewrite ev_scale. replace (/ INR N * ev F h - m) with (/ INR N * (ev F h - INR N * m)) by (field; lra).
    rewrite Rabs_mult, (Rabs_pos_eq (/ INR N)) by lra. specialize (F2 h m (or_intror I)).
    apply (Rmult_le_reg_l (INR N)); [exact NP|]. rewrite <- Rmult_assoc, Rinv_r by lra. nra.
  - apply (Rmult_le_compat_l (/ INR N)) in F3; [|lra]. apply (Rmult_le_compat_l (/ INR N)) in F3; [|lra].
    replace (/ INR N * (/ INR N * (INR N * (D * D) + INR N * (INR N - 1) * (v + e)))) with (D * D / INR N + (1 - / INR N) * (v + e)) in F3 by (field; lra).
    assert ((1 - / INR N) * (v + e) <= v + e); [|lra]. nra.
Qed.

Variable T2 : (R -> R) -> R -> Prop.
Hypothesis AP2 : approx T2 D.
Variable g2 : R -> R.
Hypothesis TG2 : forall p, T2 (k p) (g2 p).
Variables v12 v21 : R.
Hypothesis TV12 : T g2 v12.
Hypothesis TV21 : T2 g v21.

Lemma near e N : 0 < e -> (1 <= N)%nat -> exists Z h, bil k Z Z <= 2 * (D * D / INR N) + 6 * e + 2 * D * e /\ tv h <= D /\ Rabs (bil k Z h - (v12 - v21)) <= 2 * e + 2 * D * e.
Proof.
  intros E N1.
  destruct (averages [(g, v); (g2, v12)] e N) as (F & F1 & F2 & F3); [|exact E|exact N1|].
  { intros h m [X|[X|[]]]; injection X as <- <-; assumption. }
  destruct (AP2 ((g, v21) :: against g2 F)) with (e := e) as (h & h1 & h2); [|exact E|].
  { intros x m [X|X]; [injection X as <- <-; exact TV21|]. destruct (against_in _ _ _ _ X) as (p & -> & ->). apply TG2. }
  destruct (averages (against g F ++ against g h) e N) as (F' & F1' & F2' & F3'); [|exact E|exact N1|].
  { intros x m X. apply in_app_or in X. destruct X as [X|X]; destruct (against_in _ _ _ _ X) as (p & -> & ->); apply TG. }
  exists (F ++ scale (-1) F'), h.
  assert (A1 : Rabs (bil k F h - ev F g2) <= D * e) by (apply against_close; [exact F1|lra|]; intros x m I; left; apply h2; right; exact I).
  assert (A2 := F2 g2 v12 (or_intror (or_introl eq_refl))). assert (A3 := F2 g v (or_introl eq_refl)).
  assert (A4 : Rabs (bil k F F' - ev F g) <= D * e) by (apply against_close; [exact F1|lra|]; intros x m I; apply F2', in_or_app; left; exact I).
  assert (A5 : Rabs (bil k h F' - ev h g) <= D * e) by (apply against_close; [exact h1|lra|]; intros x m I; apply F2', in_or_app; right; exact I).
  assert (A6 : Rabs (ev h g - v21) < e) by (apply h2; left; reflexivity).
  split; [|split; [exact h1|]].
  - rewrite bil_app_l, !bil_app_r, !bil_scale_l, !bil_scale_r, (bil_sym F' F).
    pose proof (Rabs_le_between (bil k F F' - ev F g) (D * e)) as [Q1 _]. pose proof (Rabs_le_between (ev F g - v) e) as [Q2 _].
    specialize (Q1 A4). specialize (Q2 A3). lra.
  - rewrite bil_app_l, bil_scale_l, (bil_sym F' h). apply Rlt_le in A6.
    apply Rabs_le_between in A1. apply Rabs_le_between in A2. apply Rabs_le_between in A5. apply Rabs_le_between in A6. apply Rabs_le_between. lra.
Qed.
Lemma schwarz Z h : bil k Z h * bil k Z h <= bil k Z Z * (bil k h h + 1).
Proof.
  set (d := bil k h h + 1). assert (Dp : 0 < d) by (unfold d; pose proof (KP h); lra).
  pose proof (KP (Z ++ scale (- bil k Z h / d) h)) as P.
  rewrite bil_app_l, !bil_app_r, !bil_scale_l, !bil_scale_r, (bil_sym h Z) in P.
  set (b := bil k Z h) in *. set (a := bil k Z Z) in *. replace (bil k h h) with (d - 1) in P by (unfold d; ring).
  replace (a + - b / d * b + (- b / d * b + - b / d * (- b / d * (d - 1)))) with ((a * d - b * b) / d - (b / d) * (b / d)) in P by (field; lra).
  assert (0 <= (a * d - b * b) / d) by (pose proof (Rle_0_sqr (b / d)) as Q; unfold Rsqr in Q; lra).
  apply (Rmult_le_compat_r d) in H; [|lra]. replace ((a * d - b * b) / d * d) with (a * d - b * b) in H by (field; lra). lra.
Qed.
Lemma core_sym : v12 = v21.
Proof.
  destruct (Req_dec (v12 - v21) 0) as [Z0|NZ]; [lra|exfalso]. set (c := v12 - v21) in *.
  assert (C0 : 0 < c * c) by (apply Rsqr_pos_lt, NZ). set (d := D * D + 1). assert (Dp : 0 < d) by (unfold d; nra).
  (* small enough that the square of the difference is below c^2 / 4 *)
  set (A := Rabs c). assert (A0 : 0 < A) by (apply Rabs_pos_lt, NZ). assert (AA : A * A = c * c) by (unfold A; rewrite <- Rabs_mult; apply Rabs_pos_eq; lra).
  set (e := Rmin (A / (4 * (1 + D))) (c * c / (16 * d * (6 + 2 * D)))).
  assert (P1 : 0 < 16 * d * (6 + 2 * D)) by (apply Rmult_lt_0_compat; lra).
  assert (E0 : 0 < e) by (apply Rmin_glb_lt; apply Rdiv_lt_0_compat; lra).
  assert (E1 : e * (2 + 2 * D) <= A / 2).
  { apply Rle_trans with (A / (4 * (1 + D)) * (2 + 2 * D)); [apply Rmult_le_compat_r; [lra|apply Rmin_l]|]. right. field. lra. }
  assert (E2 : e * (6 + 2 * D) * d <= c * c / 16).
  { apply Rle_trans with (c * c / (16 * d * (6 + 2 * D)) * (6 + 2 * D) * d); [|right; field; lra].
    apply Rmult_le_compat_r; [lra|]. apply Rmult_le_compat_r; [lra|apply Rmin_r]. }
  destruct (archimed (32 * (D * D) * d / (c * c) + 1)) as [UP _]. set (N := Z.to_nat (up (32 * (D * D) * d / (c * c) + 1))).
  assert (P2 : 0 <= 32 * (D * D) * d / (c * c)) by (apply Rmult_le_pos; [nra|left; apply Rinv_0_lt_compat, C0]).
  assert (NB : 32 * (D * D) * d / (c * c) + 1 < INR N) by (unfold N; rewrite INR_IZR_INZ, Z2Nat.id; [lra|apply le_IZR; lra]).
  assert (N1 : (1 <= N)%nat) by (apply INR_le; change (INR 1) with 1; lra). assert (NP : 0 < INR N) by lra.
  destruct (near e N E0 N1) as (Z & h & B1 & B2 & B3).  fold c in B3.
  pose proof (schwarz Z h) as SC. pose proof (bil_bound h D B2) as HB. pose proof (KP Z) as ZP.
  assert (B4 : 2 * (D * D / INR N) * d <= c * c / 16).
  { apply (Rmult_le_reg_r (INR N)); [exact NP|]. replace (2 * (D * D / INR N) * d * INR N) with (2 * (D * D) * d) by (field; lra).
    assert (H : 32 * (D * D) * d / (c * c) * (c * c) <= INR N * (c * c)) by (apply Rmult_le_compat_r; lra).
    replace (32 * (D * D) * d / (c * c) * (c * c)) with (32 * (D * D) * d) in H by (field; lra). lra. }
  assert (B5 : bil k Z h * bil k Z h <= c * c / 8).
  { apply Rle_trans with (bil k Z Z * d); [apply Rle_trans with (1 := SC); apply Rmult_le_compat_l; [exact ZP|unfold d; lra]|].
    apply Rle_trans with ((2 * (D * D / INR N) + 6 * e + 2 * D * e) * d); [apply Rmult_le_compat_r; lra|lra]. }
  assert (B6 : A / 2 <= Rabs (bil k Z h)).
  { unfold A. pose proof (Rabs_triang_inv c (c - bil k Z h)) as Q. replace (c - (c - bil k Z h)) with (bil k Z h) in Q by ring.
    rewrite (Rabs_minus_sym c (bil k Z h)) in Q. fold A in Q. fold A. lra. }
  assert (B7 : A / 2 * (A / 2) <= Rabs (bil k Z h) * Rabs (bil k Z h)) by (apply Rmult_le_compat; lra).
  rewrite <- Rabs_mult, (Rabs_pos_eq (bil k Z h * bil k Z h)) in B7 by (apply Rle_0_sqr). lra.
Qed.
End Sym.

Lemma approx_mono T D D' : approx T D -> D <= D' -> approx T D'.
Proof. intros H L tests HT e E. destruct (H tests HT e E) as (F & F1 & F2). exists F. split; [lra|exact F2]. Qed.

(** points: p needs a variance of its own *)
Theorem points_sym taud p q vp v w : 0 < taud ->
  (forall f, fst p = Some f -> able taud f) -> (forall f, fst q = Some f -> able taud f) ->
  cov_of taud p p vp -> cov_of taud p q v -> cov_of taud q p w -> v = w.
Proof.
  intros T Ap Aq Cp C C'. destruct (fun_approx taud p Ap) as [D1 H1]. destruct (fun_approx taud q Aq) as [D2 H2].
  destruct (fun_ker taud p Ap) as [g G]. destruct (fun_ker taud q Aq) as [g2 G2].
  assert (D10 : 0 <= D1).
  { destruct (H1 [] ltac:(intros h m []) 1 ltac:(lra)) as (F & B & _). pose proof (tv_nonneg F). lra. }
  pose proof (fun_cov taud p p vp g Cp G) as TV.
  apply (core_sym (ker taud) (ker_sym taud) (fun a b => ker_bound taud a b T) (fun F => ker_nonneg taud F T) (fun_T p) (Rmax D1 D2)
    (approx_mono _ _ _ H1 (Rmax_l D1 D2)) g G vp TV) with (T2 := fun_T q) (g2 := g2).
  - pose proof (Rmax_l D1 D2). lra.
  - apply (core (ker taud) (fun_T p) D1 g vp (ker_sym taud) (fun a b => ker_bound taud a b T) (fun F => ker_nonneg taud F T) H1 G TV).
  - exact (approx_mono _ _ _ H2 (Rmax_r D1 D2)).
  - exact G2.
  - exact (fun_cov taud p q v g2 C G2).
  - exact (fun_cov taud q p w g C' G).
Qed.

(** ** One point and a combination of others: the covariances taken in one order are enough *)
Lemma core_joint (k : R -> R -> R) T D g v T2 g2 v2 b x :
  (forall p q, k p q = k q p) -> (forall p q, Rabs (k p q) <= 1) -> (forall F, 0 <= bil k F F) ->
  approx T D -> (forall p, T (k p) (g p)) -> T g v -> approx T2 D -> (forall p, T2 (k p) (g2 p)) -> T2 g2 v2 ->
  T g2 b -> 0 <= x * x * v + 2 * x * b + v2.
Proof.
  intros KS KB KP AP TG TV AP2 TG2 TV2 TB.
  assert (D0 : 0 <= D).
  { destruct (AP [] ltac:(intros h m []) 1 ltac:(lra)) as (F & B & _). pose proof (tv_nonneg F). lra. }
  pose proof (core k T D g v KS KB KP AP TG TV) as V0. pose proof (core k T2 D g2 v2 KS KB KP AP2 TG2 TV2) as V20.
  destruct (Rle_lt_dec 0 (x * x * v + 2 * x * b + v2)) as [|NQ]; [assumption|exfalso].
  set (c := - (x * x * v + 2 * x * b + v2)). assert (C0 : 0 < c) by (unfold c; lra).
  pose proof (Rle_0_sqr x) as X2. unfold Rsqr in X2. pose proof (Rabs_pos x) as AX.
  set (w := x * x + 2 * Rabs x * (1 + D) + 1). assert (W0 : 1 <= w) by (unfold w; nra).
  set (e := c / (4 * w)). assert (E0 : 0 < e) by (apply Rdiv_lt_0_compat; lra). assert (EW : e * w = c / 4) by (unfold e; field; lra).
  set (y := (x * x + 1) * (D * D)). assert (Y0 : 0 <= y) by (unfold y; nra).
  destruct (archimed (4 * y / c + 1)) as [UP _]. set (N := Z.to_nat (up (4 * y / c + 1))).
  assert (P2 : 0 <= 4 * y / c) by (apply Rmult_le_pos; [lra|left; apply Rinv_0_lt_compat, C0]).
  assert (NB : 4 * y / c + 1 < INR N) by (unfold N; rewrite INR_IZR_INZ, Z2Nat.id; [lra|apply le_IZR; lra]).
  assert (N1 : (1 <= N)%nat) by (apply INR_le; change (INR 1) with 1; lra). assert (NP : 0 < INR N) by lra.
  assert (YN : y / INR N <= c / 4).
  { apply (Rmult_le_reg_r (INR N)); [exact NP|]. replace (y / INR N * INR N) with y by (field; lra).
    assert (H : 4 * y / c * c <= INR N * c) by (apply Rmult_le_compat_r; lra). replace (4 * y / c * c) with (4 * y) in H by (field; lra). lra. }
  destruct (averages k KS KB T D AP g TG v TV D0 V0 [(g2, b)] e N) as (F & F1 & F2 & F3); [|exact E0|exact N1|].
  { intros h m [X|[]]. injection X as <- <-. exact TB. }
  destruct (averages k KS KB T2 D AP2 g2 TG2 v2 TV2 D0 V20 (against k g2 F) e N) as (H & H1 & H2 & H3); [|exact E0|exact N1|].
  { intros h m X. destruct (against_in _ _ _ _ _ X) as (p & -> & ->). apply TG2. }
  assert (A1 : Rabs (bil k F H - ev F g2) <= D * e) by (apply against_close; [exact F1|lra|exact H2]).
  assert (A2 := F2 g2 b (or_introl eq_refl)).
  pose proof (KP (scale x F ++ H)) as P.
  rewrite bil_app_l, !(bil_app_r k KS), !bil_scale_l, !(bil_scale_r k KS), (bil_sym k KS H F) in P.
  assert (A3 : x * bil k F H <= x * b + Rabs x * ((1 + D) * e)).
  { replace (x * bil k F H) with (x * b + x * (bil k F H - b)) by ring. apply Rplus_le_compat_l.
    eapply Rle_trans; [apply Rle_abs|]. rewrite Rabs_mult. apply Rmult_le_compat_l; [exact AX|].
    replace (bil k F H - b) with ((bil k F H - ev F g2) + (ev F g2 - b)) by ring. eapply Rle_trans; [apply Rabs_triang|]. lra. }
  assert (A4 : x * (x * bil k F F) <= x * x * v + x * x * (D * D / INR N) + x * x * e).
  { rewrite <- Rmult_assoc. apply Rle_trans with (x * x * (v + D * D / INR N + e)); [apply Rmult_le_compat_l; assumption|lra]. }
  assert (A5 : y / INR N = x * x * (D * D / INR N) + D * D / INR N) by (unfold y; field; lra).
  assert (A6 : e * w = x * x * e + 2 * (Rabs x * ((1 + D) * e)) + e) by (unfold w; ring).
  unfold c in *. lra.
Qed.

Lemma comb_ker taud n x (P : nat -> point) : (forall i psi, (i < n)%nat -> fst (P i) = Some psi -> able taud psi) ->
  exists g, (forall j s, (j < n)%nat -> fun_T (P j) (ker taud s) (g j s)) /\
  (forall s, comb_T n x (fun i => fun_T (P i)) (ker taud s) (sumn n (fun j => x j * g j s))).
Proof.
  intros AB. destruct (finite_choice (fun j g => forall s, fun_T (P j) (ker taud s) (g s)) (fun _ => 0) n) as [g G].
  { intros j J. apply fun_ker. intros psi E. apply (AB j psi J E). }
  exists g. split; [intros j s J; apply G, J|]. intros s. exists (fun j => g j s). split; [reflexivity|]. intros j J. apply G, J.
Qed.
Theorem joint_points : forall taud n (P : nat -> point) (v : nat -> nat -> R) p u A, 0 < taud ->
  (forall i psi, (i < n)%nat -> fst (P i) = Some psi -> able taud psi) -> (forall psi, fst p = Some psi -> able taud psi) ->
  (forall i j, (i < n)%nat -> (j < n)%nat -> cov_of taud (P i) (P j) (v i j)) ->
  (forall i, (i < n)%nat -> cov_of taud p (P i) (u i)) -> cov_of taud p p A ->
  forall x0 x, 0 <= x0 * x0 * A + 2 * x0 * sumn n (fun i => x i * u i) + sumn n (fun i => sumn n (fun j => x i * v i j * x j)).
Proof.
  intros taud n P v p u A T AB Ap CV CU CA x0 x.
  destruct (approx_comb n x (fun i => fun_T (P i))) as [D2 AP2].
  { intros i I. apply (fun_approx taud). intros psi E. apply (AB i psi I E). }
  destruct (fun_approx taud p Ap) as [D1 AP1]. destruct (fun_ker taud p Ap) as [g G]. destruct (comb_ker taud n x P AB) as (g2 & G2 & G2').
  apply (core_joint (ker taud) (fun_T p) (Rmax D1 D2) g A (comb_T n x (fun i => fun_T (P i))) (fun s => sumn n (fun j => x j * g2 j s)) _ (sumn n (fun i => x i * u i)) x0).
  - apply ker_sym.
  - intros a b. apply ker_bound, T.
  - intros F. apply ker_nonneg, T.
  - exact (approx_mono _ _ _ AP1 (Rmax_l D1 D2)).
  - exact G.
  - exact (fun_cov taud p p A g CA G).
  - exact (approx_mono _ _ _ AP2 (Rmax_r D1 D2)).
  - exact G2'.
  - exists (fun i => sumn n (fun j => x j * v i j)). split.
    + apply sumn_ext. intros i _. rewrite <- sumn_scal. apply sumn_ext. intros j _. ring.
    + intros i I. apply fun_linear. intros j J. apply (fun_cov taud (P i) (P j)); [apply CV; assumption|intros s; apply G2, J].
  - apply fun_linear. intros j J. apply (fun_cov taud p (P j)); [apply CU, J|intros s; apply G2, J].
Qed.
