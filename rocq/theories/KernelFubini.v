(** Exchange of the order of integration, first over rectangles for continuous
    integrands, then over the plane for dominated ones. *)
From Coq Require Import Reals Lra.
From Coquelicot Require Import Coquelicot.
From Verif Require Import KernelCalc.
Open Scope R_scope.

Lemma c2d_l (f : R -> R -> R) x y : continuity_2d_pt f x y -> continuous (fun x => f x y) x.
Proof.
  intros H P [e He]. destruct (H e) as [d Hd]. exists d. intros z Hz. apply He. apply Hd; [exact Hz|].
  rewrite Rminus_diag_eq, Rabs_R0 by reflexivity. apply cond_pos.
Qed.
Lemma c2d_r (f : R -> R -> R) x y : continuity_2d_pt f x y -> continuous (fun y => f x y) y.
Proof.
  intros H P [e He]. destruct (H e) as [d Hd]. exists d. intros z Hz. apply He. apply Hd; [|exact Hz].
  rewrite Rminus_diag_eq, Rabs_R0 by reflexivity. apply cond_pos.
Qed.
Lemma cont_ex_RInt (f : R -> R) a b : (forall x, continuous f x) -> ex_RInt f a b.
Proof. intros H. apply (ex_RInt_continuous (V := R_CompleteNormedModule)). intros; apply H. Qed.
Lemma c2d_swap (f : R -> R -> R) x y : continuity_2d_pt f x y -> continuity_2d_pt (fun y x => f x y) y x.
Proof.
  intros H e. destruct (H e) as [d Hd]. exists d. intros u v Hu Hv. apply Hd; assumption.
Qed.
Lemma RInt_minus' (f g : R -> R) a b : (forall x, continuous f x) -> (forall x, continuous g x) ->
  RInt (fun x => f x - g x) a b = RInt f a b - RInt g a b.
Proof.
  intros Hf Hg. exact (RInt_minus (V := R_CompleteNormedModule) f g a b (cont_ex_RInt f a b Hf) (cont_ex_RInt g a b Hg)).
Qed.
Lemma RInt_scal' (k : R) (f : R -> R) a b : (forall x, continuous f x) -> RInt (fun x => k * f x) a b = k * RInt f a b.
Proof. intros Hf. exact (RInt_scal (V := R_CompleteNormedModule) f a b k (cont_ex_RInt f a b Hf)). Qed.
Lemma RInt_Chasles' (f : R -> R) a b c : (forall x, continuous f x) -> RInt f a b + RInt f b c = RInt f a c.
Proof. intros Hf. exact (RInt_Chasles (V := R_CompleteNormedModule) f a b c (cont_ex_RInt f a b Hf) (cont_ex_RInt f b c Hf)). Qed.
Lemma abs_RInt_const (f : R -> R) a b M : (forall x, continuous f x) -> 0 <= M ->
  (forall t, Rmin a b <= t <= Rmax a b -> Rabs (f t) <= M) -> Rabs (RInt f a b) <= Rabs (b - a) * M.
Proof.
  intros Hf M0 H. destruct (Rle_dec a b) as [L|L].
  - rewrite (Rabs_pos_eq (b - a)) by lra. apply abs_RInt_le_const; [lra|apply cont_ex_RInt, Hf|].
    intros t Ht. apply H. rewrite Rmin_left, Rmax_right by lra. exact Ht.
  - rewrite Rabs_minus_sym, (Rabs_pos_eq (a - b)) by lra.
    replace (RInt f a b) with (- RInt f b a).
    2:{ apply (opp_RInt_swap (V := R_CompleteNormedModule) f). apply cont_ex_RInt, Hf. }
    rewrite Rabs_Ropp. apply abs_RInt_le_const; [lra|apply cont_ex_RInt, Hf|].
    intros t Ht. apply H. rewrite Rmin_right, Rmax_left by lra. exact Ht.
Qed.

Section Rectangle.
Variable f : R -> R -> R.
Hypothesis Hf : forall x y, continuity_2d_pt f x y.

Lemma param_cont u v x : continuous (fun x => RInt (fun z => f x z) u v) x.
Proof.
  intros P [e He].
  assert (K0 : 0 < e / (2 * (Rabs (v - u) + 1))).
  { apply Rdiv_lt_0_compat; [apply cond_pos|]. pose proof (Rabs_pos (v - u)). lra. }
  destruct (uniform_continuity_2d f (x - 1) (x + 1) (Rmin u v) (Rmax u v) (fun a b _ _ => Hf a b) (mkposreal _ K0)) as [d Hd].
  assert (D0 : 0 < Rmin d 1) by (apply Rmin_glb_lt; [apply cond_pos|lra]).
  exists (mkposreal _ D0). intros y Hy. apply He.
  unfold ball in Hy |- *; simpl in Hy |- *; unfold AbsRing_ball, abs, minus, plus, opp in Hy |- *; simpl in Hy |- *.
  change (y + - x) with (y - x) in Hy.
  assert (Y1 : Rabs (y - x) < d) by (eapply Rlt_le_trans; [exact Hy|apply Rmin_l]).
  assert (Y2 : Rabs (y - x) < 1) by (eapply Rlt_le_trans; [exact Hy|apply Rmin_r]).
  apply Rabs_def2 in Y2.
  change (Rabs (RInt (fun z => f y z) u v - RInt (fun z => f x z) u v) < e).
  rewrite <- RInt_minus' by (intros; apply c2d_r, Hf).
  apply Rle_lt_trans with (Rabs (v - u) * (e / (2 * (Rabs (v - u) + 1)))).
  - apply abs_RInt_const.
    + intros z. apply cont_minus; apply c2d_r, Hf.
    + lra.
    + intros t Ht. left. apply (Hd x t y t); try lra. rewrite Rminus_diag_eq, Rabs_R0 by reflexivity. apply cond_pos.
  - pose proof (Rabs_pos (v - u)). pose proof (cond_pos e).
    apply Rmult_lt_reg_r with (2 * (Rabs (v - u) + 1)); [lra|].
    replace (Rabs (v - u) * (e / (2 * (Rabs (v - u) + 1))) * (2 * (Rabs (v - u) + 1))) with (Rabs (v - u) * e) by (field; lra).
    nra.
Qed.
End Rectangle.

Lemma fubini_bounded (f : R -> R -> R) p q u v : (forall x y, continuity_2d_pt f x y) ->
  RInt (fun a => RInt (fun z => f a z) u v) p q = RInt (fun z => RInt (fun a => f a z) p q) u v.
Proof.
  intros Hf.
  assert (Hs : forall x y, continuity_2d_pt (fun y x => f x y) x y) by (intros; apply c2d_swap, Hf).
  set (K := fun x => RInt (fun z => RInt (fun a => f a z) p x) u v).
  assert (DI : forall x z, is_derive (fun x0 => RInt (fun a => f a z) p x0) x (f x z)).
  { intros x z. apply (is_derive_RInt (fun a => f a z) (fun x0 => RInt (fun a => f a z) p x0) p x).
    - apply filter_forall. intros b. apply (RInt_correct (V := R_CompleteNormedModule) (fun a => f a z)).
      apply cont_ex_RInt. intros; apply (c2d_l f x0 z), Hf.
    - apply (c2d_l f x z), Hf. }
  assert (DK : forall x, is_derive K x (RInt (fun z => f x z) u v)).
  { intros x. eapply der_eq.
    - apply (is_derive_RInt_param (fun x z => RInt (fun a => f a z) p x) u v x).
      + apply filter_forall. intros y t _. eexists. apply DI.
      + intros t _. apply continuity_2d_pt_ext with f; [|apply Hf].
        intros a b. symmetry. apply is_derive_unique, DI.
      + apply filter_forall. intros y. apply cont_ex_RInt. intros z.
        apply (param_cont (fun y x => f x y) Hs p y z).
    - apply RInt_ext. intros z _. apply is_derive_unique, DI. }
  assert (E : is_RInt (fun a => RInt (fun z => f a z) u v) p q (minus (K q) (K p))).
  { apply (is_RInt_derive (V := R_CompleteNormedModule) K).
    - intros x _. apply DK.
    - intros x _. apply (param_cont f Hf). }
  apply (is_RInt_unique (V := R_CompleteNormedModule)) in E. rewrite E.
  replace (K p) with 0; [unfold minus, plus, opp; simpl; unfold K; ring|].
  unfold K. symmetry. rewrite (RInt_ext (V := R_CompleteNormedModule) _ (fun _ => 0)).
  - rewrite (RInt_const (V := R_CompleteNormedModule)). unfold scal; simpl; unfold mult; simpl. ring.
  - intros z _. apply (RInt_point (V := R_CompleteNormedModule)).
Qed.

(** integrals over growing intervals *)
Lemma wl_cont_elim (f : R -> R) v : (forall x, continuous f x) -> whole_line f v ->
  forall e : posreal, exists M, forall a b, a < - M -> M < b -> Rabs (RInt f a b - v) < e.
Proof.
  intros Hf H e. destruct (wl_elim _ _ H e) as [M HM]. exists M. intros a b Ha Hb.
  destruct (HM a b Ha Hb) as (y & Hy & Be). rewrite (is_RInt_unique (V := R_CompleteNormedModule) _ _ _ _ Hy). exact Be.
Qed.
Lemma wl_pos_bound (f : R -> R) v a b : (forall x, continuous f x) -> (forall x, 0 <= f x) -> whole_line f v -> a <= b ->
  0 <= RInt f a b <= v.
Proof.
  intros Hf H0 H L.
  assert (Pos : forall p q, p <= q -> 0 <= RInt f p q).
  { intros p q Hpq. apply RInt_ge_0; [exact Hpq|apply cont_ex_RInt, Hf|intros; apply H0]. }
  split; [apply Pos, L|]. apply Rnot_lt_le. intros Lt.
  destruct (wl_cont_elim f v Hf H (mkposreal (RInt f a b - v) ltac:(lra))) as [M HM]. simpl in HM.
  set (p := Rmin a (- M - 1)). set (q := Rmax b (M + 1)).
  assert (p <= a) by apply Rmin_l. assert (p <= - M - 1) by apply Rmin_r. assert (b <= q) by apply Rmax_l. assert (M + 1 <= q) by apply Rmax_r.
  specialize (HM p q ltac:(lra) ltac:(lra)). apply Rabs_def2 in HM.
  rewrite <- (RInt_Chasles' f p a q), <- (RInt_Chasles' f a b q) in HM by exact Hf.
  pose proof (Pos p a ltac:(lra)). pose proof (Pos b q ltac:(lra)). lra.
Qed.

(** the integral over [u,v] is within the tail of a dominating function *)
Lemma wl_tail (f B : R -> R) k g IB u v : (forall x, continuous f x) -> (forall x, continuous B x) -> 0 <= k ->
  (forall x, 0 <= B x) -> (forall x, Rabs (f x) <= k * B x) -> whole_line B IB -> whole_line f g -> u <= v ->
  Rabs (RInt f u v - g) <= k * (IB - RInt B u v).
Proof.
  intros Hf HB K0 B0 Dom WB WF Huv. apply Rnot_lt_le. intros Lt.
  set (d := Rabs (RInt f u v - g) - k * (IB - RInt B u v)) in *.
  destruct (wl_cont_elim f g Hf WF (mkposreal d ltac:(unfold d; lra))) as [M HM]. simpl in HM.
  set (p := Rmin u (- M - 1)). set (q := Rmax v (M + 1)).
  assert (p <= u) by apply Rmin_l. assert (p <= - M - 1) by apply Rmin_r. assert (v <= q) by apply Rmax_l. assert (M + 1 <= q) by apply Rmax_r.
  specialize (HM p q ltac:(lra) ltac:(lra)).
  assert (Part : forall a b, a <= b -> Rabs (RInt f a b) <= k * RInt B a b).
  { intros a b Lab. rewrite <- RInt_scal' by exact HB. eapply Rle_trans; [apply abs_RInt_le; [exact Lab|apply cont_ex_RInt, Hf]|].
    apply RInt_le; [exact Lab| | |intros; apply Dom].
    - apply cont_ex_RInt. intros x. apply (cont_comp Rabs f x (Hf x)). apply (continuous_Rabs (f x)).
    - apply cont_ex_RInt. intros x. apply cont_scal, HB. }
  pose proof (Part p u ltac:(lra)) as P1. pose proof (Part v q ltac:(lra)) as P2.
  assert (Ef : RInt f p q = RInt f p u + (RInt f u v + RInt f v q)) by (rewrite !RInt_Chasles' by exact Hf; reflexivity).
  assert (EB : RInt B p q = RInt B p u + (RInt B u v + RInt B v q)) by (rewrite !RInt_Chasles' by exact HB; reflexivity).
  pose proof (wl_pos_bound B IB p q HB B0 WB ltac:(lra)) as [_ TB].
  assert (k * RInt B p u + k * RInt B v q <= k * (IB - RInt B u v)) by nra.
  assert (T : Rabs (RInt f u v - g) <= Rabs (RInt f p q - g) + (Rabs (RInt f p u) + Rabs (RInt f v q))).
  { replace (RInt f u v - g) with ((RInt f p q - g) + (- RInt f p u + - RInt f v q)) by (rewrite Ef; ring).
    eapply Rle_trans; [apply Rabs_triang|]. apply Rplus_le_compat_l. eapply Rle_trans; [apply Rabs_triang|].
    rewrite !Rabs_Ropp. lra. }
  unfold d in *. lra.
Qed.

Theorem fubini_plane (f : R -> R -> R) (g h A B : R -> R) (IA IB I : R) :
  (forall x y, continuity_2d_pt f x y) ->
  (forall x, continuous g x) -> (forall x, continuous h x) -> (forall x, continuous A x) -> (forall x, continuous B x) ->
  (forall x, 0 <= A x) -> (forall x, 0 <= B x) -> (forall x y, Rabs (f x y) <= A x * B y) ->
  whole_line A IA -> whole_line B IB ->
  (forall x, whole_line (fun y => f x y) (g x)) -> (forall y, whole_line (fun x => f x y) (h y)) ->
  whole_line h I -> whole_line g I.
Proof.
  intros Hf Hg Hh HA HB A0 B0 Dom WA WB Wg Wh WI.
  assert (IA0 : 0 <= IA) by (destruct (wl_pos_bound A IA 0 1 HA A0 WA ltac:(lra)); lra).
  assert (IB0 : 0 <= IB) by (destruct (wl_pos_bound B IB 0 1 HB B0 WB ltac:(lra)); lra).
  apply wl_intro. intros e. pose proof (cond_pos e) as E0.
  assert (EA : 0 < e / (3 * (IB + 1))) by (apply Rdiv_lt_0_compat; lra).
  assert (EB : 0 < e / (3 * (IA + 1))) by (apply Rdiv_lt_0_compat; lra).
  destruct (wl_cont_elim A IA HA WA (mkposreal _ EA)) as [M HM]. simpl in HM.
  destruct (wl_cont_elim B IB HB WB (mkposreal _ EB)) as [N1 HN1]. simpl in HN1.
  destruct (wl_cont_elim h I Hh WI (mkposreal (e / 3) ltac:(lra))) as [N2 HN2]. simpl in HN2.
  exists (Rmax M 0). intros p q Hp Hq.
  assert (M <= Rmax M 0) by apply Rmax_l. assert (0 <= Rmax M 0) by apply Rmax_r.
  specialize (HM p q ltac:(lra) ltac:(lra)).
  set (N := Rmax (Rmax N1 N2) 0). assert (Rmax N1 N2 <= N) by apply Rmax_l. assert (0 <= N) by apply Rmax_r.
  assert (N1 <= Rmax N1 N2) by apply Rmax_l. assert (N2 <= Rmax N1 N2) by apply Rmax_r.
  set (u := - N - 1). set (v := N + 1). assert (u <= v) by (unfold u, v; lra). assert (p <= q) by lra.
  specialize (HN1 u v ltac:(unfold u; lra) ltac:(unfold v; lra)). specialize (HN2 u v ltac:(unfold u; lra) ltac:(unfold v; lra)).
  exists (RInt g p q). split.
  { apply (RInt_correct (V := R_CompleteNormedModule)). apply cont_ex_RInt, Hg. }
  pose proof (wl_pos_bound A IA p q HA A0 WA ltac:(lra)) as [TA0 TA]. pose proof (wl_pos_bound B IB u v HB B0 WB ltac:(lra)) as [TB0 TB].
  set (tA := IA - RInt A p q) in *. set (tB := IB - RInt B u v) in *.
  assert (tA < e / (3 * (IB + 1))) by (apply Rabs_def2 in HM; unfold tA; lra).
  assert (tB < e / (3 * (IA + 1))) by (apply Rabs_def2 in HN1; unfold tB; lra).
  assert (tA0 : 0 <= tA) by (unfold tA; lra). assert (tB0 : 0 <= tB) by (unfold tB; lra).
  (* first piece *)
  assert (C1 : forall x, continuous (fun a => RInt (fun z => f a z) u v) x) by (intros; apply (param_cont f Hf)).
  assert (C2 : forall z, continuous (fun z => RInt (fun a => f a z) p q) z).
  { intros. apply (param_cont (fun y x => f x y)). intros; apply c2d_swap, Hf. }
  assert (S1 : Rabs (RInt g p q - RInt (fun a => RInt (fun z => f a z) u v) p q) <= tB * IA).
  { rewrite <- RInt_minus' by assumption.
    eapply Rle_trans; [apply abs_RInt_le; [lra|apply cont_ex_RInt; intros; apply cont_minus; auto]|].
    apply Rle_trans with (RInt (fun a => tB * A a) p q).
    - apply RInt_le; [lra| | |].
      + apply cont_ex_RInt. intros x. apply (cont_comp Rabs (fun a => g a - RInt (fun z => f a z) u v) x); [apply cont_minus; auto|]. apply (continuous_Rabs (g x - RInt (fun z => f x z) u v)).
      + apply cont_ex_RInt. intros. apply cont_scal, HA.
      + intros a _. rewrite Rabs_minus_sym, Rmult_comm. unfold tB. apply wl_tail; auto. intros; apply c2d_r, Hf.
    - rewrite RInt_scal' by exact HA. apply Rmult_le_compat_l; lra. }
  assert (S2 : Rabs (RInt (fun z => RInt (fun a => f a z) p q) u v - RInt h u v) <= tA * IB).
  { rewrite <- RInt_minus' by assumption.
    eapply Rle_trans; [apply abs_RInt_le; [lra|apply cont_ex_RInt; intros; apply cont_minus; auto]|].
    apply Rle_trans with (RInt (fun z => tA * B z) u v).
    - apply RInt_le; [lra| | |].
      + apply cont_ex_RInt. intros x. apply (cont_comp Rabs (fun z => RInt (fun a => f a z) p q - h z) x); [apply cont_minus; auto|]. apply (continuous_Rabs (RInt (fun a => f a x) p q - h x)).
      + apply cont_ex_RInt. intros. apply cont_scal, HB.
      + intros z _. rewrite Rmult_comm. unfold tA. apply (wl_tail (fun a => f a z) A (B z) (h z)); auto.
        * intros x. apply (c2d_l f x z), Hf.
        * intros x. rewrite Rmult_comm. apply Dom.
    - rewrite RInt_scal' by exact HB. apply Rmult_le_compat_l; lra. }
  rewrite <- fubini_bounded in S2 by exact Hf.
  assert (Q1 : tB * IA <= e / 3).
  { apply Rle_trans with (e / (3 * (IA + 1)) * (IA + 1)); [apply Rmult_le_compat; lra|]. right. field. lra. }
  assert (Q2 : tA * IB <= e / 3).
  { apply Rle_trans with (e / (3 * (IB + 1)) * (IB + 1)); [apply Rmult_le_compat; lra|]. right. field. lra. }
  set (mid := RInt (fun a => RInt (fun z => f a z) u v) p q) in *.
  replace (RInt g p q - I) with ((RInt g p q - mid) + ((mid - RInt h u v) + (RInt h u v - I))) by ring.
  eapply Rle_lt_trans; [apply Rabs_triang|].
  pose proof (Rabs_triang (mid - RInt h u v) (RInt h u v - I)). lra.
Qed.
