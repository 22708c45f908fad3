(** Calculus used for the covariance functions: integrals over the whole line,
    derivatives of functions given by two formulas, fundamental theorem for
    integrands that vanish on one side. *)
From Coq Require Import Reals Lra List.
From Coquelicot Require Import Coquelicot.
Open Scope R_scope.

(** the integral of f over the whole real line exists (as a limit of integrals
    over [a,b] with a -> -oo, b -> +oo independently) and is v *)
Definition whole_line (f : R -> R) (v : R) : Prop :=
  is_RInt_gen f (Rbar_locally m_infty) (Rbar_locally p_infty) v.

Lemma wl_intro f v :
  (forall e : posreal, exists M, forall a b, a < - M -> M < b -> exists y, is_RInt f a b y /\ Rabs (y - v) < e) ->
  whole_line f v.
Proof.
  intros H. unfold whole_line, is_RInt_gen. intros P [e He].
  destruct (H e) as [M HM].
  exists (fun a => a < - M) (fun b => M < b).
  - exists (- M). auto.
  - exists M. auto.
  - intros a b Ha Hb. destruct (HM a b Ha Hb) as (y & Hy & He').
    exists y. split; [exact Hy|]. apply He. exact He'.
Qed.
Lemma wl_elim f v : whole_line f v ->
  forall e : posreal, exists M, forall a b, a < - M -> M < b -> exists y, is_RInt f a b y /\ Rabs (y - v) < e.
Proof.
  intros H e. destruct (H (ball v e) (locally_ball v e)) as [Q1 Q2 [m1 H1] [m2 H2] H3].
  exists (Rmax (- m1) m2). intros a b Ha Hb.
  destruct (H3 a b) as (y & Hy & By).
  - apply H1. pose proof (Rmax_l (- m1) m2). lra.
  - apply H2. pose proof (Rmax_r (- m1) m2). lra.
  - exists y. split; [exact Hy | exact By].
Qed.
Lemma wl_ext f g v : (forall x, f x = g x) -> whole_line f v -> whole_line g v.
Proof.
  intros E H. apply wl_intro. intros e. destruct (wl_elim _ _ H e) as [M HM].
  exists M. intros a b Ha Hb. destruct (HM a b Ha Hb) as (y & Hy & Be). exists y. split; [|exact Be].
  eapply is_RInt_ext; [|exact Hy]. intros; apply E.
Qed.
Lemma wl_plus f g u v : whole_line f u -> whole_line g v -> whole_line (fun x => f x + g x) (u + v).
Proof.
  intros Hf Hg. exact (is_RInt_gen_plus f g u v Hf Hg).
Qed.
Lemma wl_scal k f u : whole_line f u -> whole_line (fun x => k * f x) (k * u).
Proof. intros H. exact (is_RInt_gen_scal f k u H). Qed.
Lemma wl_zero : whole_line (fun _ => 0) 0.
Proof.
  apply wl_intro. intros e. exists 0. intros a b _ _. exists 0. split.
  - evar_last. apply (is_RInt_const a b 0). unfold scal; simpl; unfold mult; simpl. ring.
  - rewrite Rminus_0_r, Rabs_R0. apply cond_pos.
Qed.
Lemma wl_unique f u v : whole_line f u -> whole_line f v -> u = v.
Proof.
  intros Hu Hv. apply (is_RInt_gen_unique (V := R_CompleteNormedModule)) in Hu.
  apply (is_RInt_gen_unique (V := R_CompleteNormedModule)) in Hv. congruence.
Qed.
(** x -> x + s *)
Lemma wl_shift f s v : whole_line f v -> whole_line (fun x => f (x + s)) v.
Proof.
  intros H. apply wl_intro. intros e. destruct (wl_elim _ _ H e) as [M HM].
  exists (M + Rabs s). intros a b Ha Hb.
  assert (- Rabs s <= s <= Rabs s) by (split; [pose proof (Rle_abs (- s)); rewrite Rabs_Ropp in *; lra | apply Rle_abs]).
  destruct (HM (a + s) (b + s)) as (y & Hy & Be); [lra | lra |].
  exists y. split; [|exact Be].
  replace (a + s) with (1 * a + s) in Hy by ring. replace (b + s) with (1 * b + s) in Hy by ring.
  apply is_RInt_comp_lin in Hy.
  eapply is_RInt_ext; [|exact Hy]. intros x _. unfold scal; simpl; unfold mult; simpl. rewrite Rmult_1_l. f_equal. ring.
Qed.
(** x -> - x *)
Lemma wl_flip f v : whole_line f v -> whole_line (fun x => f (- x)) v.
Proof.
  intros H. apply wl_intro. intros e. destruct (wl_elim _ _ H e) as [M HM].
  exists M. intros a b Ha Hb.
  destruct (HM (- b) (- a)) as (y & Hy & Be); [lra | lra |].
  exists y. split; [|exact Be].
  apply is_RInt_swap in Hy.
  replace (- a) with (-1 * a + 0) in Hy by ring. replace (- b) with (-1 * b + 0) in Hy by ring.
  apply is_RInt_comp_lin in Hy.
  apply is_RInt_opp in Hy. rewrite opp_opp in Hy.
  eapply is_RInt_ext; [|exact Hy]. intros x _. unfold opp, scal; simpl; unfold mult; simpl.
  replace (-1 * x + 0) with (- x) by ring. ring.
Qed.

(** an integrand that vanishes left of t0 and has antiderivative F right of it *)
Lemma wl_half (f h F : R -> R) (t0 : R) :
  (forall x, x < t0 -> f x = 0) -> (forall x, t0 < x -> f x = h x) ->
  (forall x, t0 <= x -> is_derive F x (h x)) -> (forall x, t0 <= x -> continuous h x) ->
  is_lim F p_infty 0 ->
  whole_line f (- F t0).
Proof.
  intros H0 H1 HD HC HL. apply wl_intro. intros e.
  assert (HL' : filterlim F (Rbar_locally p_infty) (locally 0)) by exact HL.
  destruct (HL' (ball 0 e) (locally_ball 0 e)) as [M HM].
  exists (Rmax M (Rabs t0)). intros a b Ha Hb.
  assert (- Rabs t0 <= t0 <= Rabs t0) by (split; [pose proof (Rle_abs (- t0)); rewrite Rabs_Ropp in *; lra | apply Rle_abs]).
  assert (M <= Rmax M (Rabs t0)) by apply Rmax_l. assert (Rabs t0 <= Rmax M (Rabs t0)) by apply Rmax_r.
  assert (a < t0) by lra. assert (t0 < b) by lra.
  exists (F b - F t0). split.
  - replace (F b - F t0) with (plus 0 (minus (F b) (F t0))) by (unfold plus, minus, opp; simpl; unfold plus; simpl; ring).
    apply (is_RInt_Chasles (V := R_NormedModule) f a t0 b).
    + evar_last.
      * eapply (is_RInt_ext (fun _ => 0)); [|apply (is_RInt_const a t0 0)].
        intros x Hx. rewrite Rmax_right in Hx by lra. symmetry. apply H0. lra.
      * unfold scal; simpl; unfold mult; simpl. ring.
    + eapply (is_RInt_ext h).
      * intros x Hx. rewrite Rmin_left in Hx by lra. symmetry. apply H1. lra.
      * apply (is_RInt_derive (V := R_CompleteNormedModule) F h).
        -- intros x Hx. rewrite Rmin_left in Hx by lra. apply HD. lra.
        -- intros x Hx. rewrite Rmin_left in Hx by lra. apply HC. lra.
  - replace (F b - F t0 - - F t0) with (F b) by ring.
    assert (B : ball 0 e (F b)) by (apply HM; lra).
    unfold ball in B; simpl in B; unfold AbsRing_ball, abs, minus, plus, opp in B; simpl in B.
    replace (F b + - 0) with (F b) in B by ring. exact B.
Qed.

(** an integrand that vanishes outside [u,v] *)
Lemma wl_window (f h F : R -> R) (u v : R) : u <= v ->
  (forall x, x < u \/ v < x -> f x = 0) -> (forall x, u < x < v -> f x = h x) ->
  (forall x, u <= x <= v -> is_derive F x (h x)) -> (forall x, u <= x <= v -> continuous h x) ->
  whole_line f (F v - F u).
Proof.
  intros Huv H0 H1 HD HC. apply wl_intro. intros e.
  exists (Rmax (Rabs u) (Rabs v)). intros a b Ha Hb.
  assert (- Rabs u <= u <= Rabs u) by (split; [pose proof (Rle_abs (- u)); rewrite Rabs_Ropp in *; lra | apply Rle_abs]).
  assert (- Rabs v <= v <= Rabs v) by (split; [pose proof (Rle_abs (- v)); rewrite Rabs_Ropp in *; lra | apply Rle_abs]).
  assert (Rabs u <= Rmax (Rabs u) (Rabs v)) by apply Rmax_l.
  assert (Rabs v <= Rmax (Rabs u) (Rabs v)) by apply Rmax_r.
  assert (a < u) by lra. assert (v < b) by lra.
  exists (F v - F u). split.
  2:{ rewrite Rminus_diag_eq by reflexivity. rewrite Rabs_R0. apply cond_pos. }
  assert (Z : forall p q, p <= q -> (forall x, p < x < q -> f x = 0) -> is_RInt f p q 0).
  { intros p q Hpq Hz. evar_last.
    - eapply (is_RInt_ext (fun _ => 0)); [|apply (is_RInt_const p q 0)].
      intros x Hx. rewrite Rmin_left, Rmax_right in Hx by lra. symmetry. apply Hz. lra.
    - unfold scal; simpl; unfold mult; simpl. ring. }
  replace (F v - F u) with (plus (plus 0 (minus (F v) (F u))) 0) by (unfold plus, minus, opp; simpl; unfold plus; simpl; ring).
  apply (is_RInt_Chasles (V := R_NormedModule) f a v b).
  - apply (is_RInt_Chasles (V := R_NormedModule) f a u v).
    + apply Z; [lra|]. intros x Hx. apply H0. lra.
    + eapply (is_RInt_ext h).
      * intros x Hx. rewrite Rmin_left, Rmax_right in Hx by lra. symmetry. apply H1. lra.
      * apply (is_RInt_derive (V := R_CompleteNormedModule) F h).
        -- intros x Hx. rewrite Rmin_left, Rmax_right in Hx by lra. apply HD. lra.
        -- intros x Hx. rewrite Rmin_left, Rmax_right in Hx by lra. apply HC. lra.
  - apply Z; [lra|]. intros x Hx. apply H0. lra.
Qed.

(** ** Two formulas glued at 0 *)
Definition glue (A B : R -> R) (x : R) : R := if Rle_dec x 0 then A x else B x.
Lemma glue_l A B x : x <= 0 -> glue A B x = A x.
Proof. intros H. unfold glue. destruct (Rle_dec x 0); [reflexivity | lra]. Qed.
Lemma glue_r A B x : 0 <= x -> A 0 = B 0 -> glue A B x = B x.
Proof. intros H E. unfold glue. destruct (Rle_dec x 0); [replace x with 0 by lra; exact E | reflexivity]. Qed.
Lemma glue_derive (A B A' B' : R -> R) (x : R) :
  (forall x, is_derive A x (A' x)) -> (forall x, is_derive B x (B' x)) -> A 0 = B 0 -> A' 0 = B' 0 ->
  is_derive (glue A B) x (glue A' B' x).
Proof.
  intros HA HB E0 E1. destruct (Rlt_dec x 0) as [Hx|Hx]; [|destruct (Rlt_dec 0 x) as [Hp|Hp]].
  - rewrite glue_l by lra. eapply is_derive_ext_loc; [|apply HA].
    exists (mkposreal (- x) ltac:(lra)). intros y Hy. rewrite glue_l; [reflexivity|].
    unfold ball in Hy; simpl in Hy; unfold AbsRing_ball, abs, minus, plus, opp in Hy; simpl in Hy.
    apply Rabs_def2 in Hy. lra.
  - rewrite glue_r by (lra || exact E1). eapply is_derive_ext_loc; [|apply HB].
    exists (mkposreal x ltac:(lra)). intros y Hy. rewrite glue_r; [reflexivity| |exact E0].
    unfold ball in Hy; simpl in Hy; unfold AbsRing_ball, abs, minus, plus, opp in Hy; simpl in Hy.
    apply Rabs_def2 in Hy. lra.
  - assert (x = 0) by lra. subst x. rewrite glue_l by lra.
    split; [apply is_linear_scal_l|].
    intros y Hy e.
    assert (y = 0). { symmetry. apply (is_filter_lim_locally_unique (V := R_NormedModule) 0 y Hy). } subst y.
    destruct (HA 0) as [_ HA0]. destruct (HB 0) as [_ HB0].
    specialize (HA0 0 Hy e). specialize (HB0 0 Hy e). rewrite <- E1 in HB0.
    pose proof (filter_and _ _ HA0 HB0) as Hab. eapply filter_imp; [|exact Hab].
    intros z [HzA HzB]. rewrite (glue_l A B 0) by lra.
    destruct (Rle_dec z 0).
    + rewrite glue_l by lra. exact HzA.
    + rewrite glue_r by (lra || exact E0). rewrite E0. exact HzB.
Qed.
Lemma glue_continuous (A B : R -> R) (x : R) : (forall x, continuous A x) -> (forall x, continuous B x) -> A 0 = B 0 ->
  continuous (glue A B) x.
Proof.
  intros HA HB E0. destruct (Rlt_dec x 0) as [Hx|Hx]; [|destruct (Rlt_dec 0 x) as [Hp|Hp]].
  - eapply continuous_ext_loc; [|apply HA].
    exists (mkposreal (- x) ltac:(lra)). intros y Hy. rewrite glue_l; [reflexivity|].
    unfold ball in Hy; simpl in Hy; unfold AbsRing_ball, abs, minus, plus, opp in Hy; simpl in Hy.
    apply Rabs_def2 in Hy. lra.
  - eapply continuous_ext_loc; [|apply HB].
    exists (mkposreal x ltac:(lra)). intros y Hy. rewrite glue_r; [reflexivity| |exact E0].
    unfold ball in Hy; simpl in Hy; unfold AbsRing_ball, abs, minus, plus, opp in Hy; simpl in Hy.
    apply Rabs_def2 in Hy. lra.
  - assert (x = 0) by lra. subst x.
    intros P HP. rewrite glue_l in HP by lra.
    specialize (HA 0 P HP). rewrite E0 in HP. specialize (HB 0 P HP).
    pose proof (filter_and (F := locally 0) (fun z => P (A z)) (fun z => P (B z)) HA HB) as Hab. unfold filtermap. eapply (filter_imp (F := locally 0)); [|exact Hab].
    intros z [Z1 Z2]. unfold glue. destruct (Rle_dec z 0); assumption.
Qed.
(** continuity from derivability *)
Lemma ex_derive_cont (f : R -> R) (x : R) : ex_derive f x -> continuous f x.
Proof. intros H. apply (ex_derive_continuous (K := R_AbsRing) (V := R_NormedModule) f x H). Qed.
Lemma der_comp (f g : R -> R) (x df dg : R) :
  is_derive f (g x) df -> is_derive g x dg -> is_derive (fun t => f (g t)) x (df * dg).
Proof.
  intros Hf Hg. pose proof (is_derive_comp f g x df dg Hf Hg) as H.
  unfold scal in H; simpl in H; unfold mult in H; simpl in H. rewrite Rmult_comm. exact H.
Qed.
Lemma der_plus (f g : R -> R) (x df dg : R) : is_derive f x df -> is_derive g x dg -> is_derive (fun t => f t + g t) x (df + dg).
Proof. intros Hf Hg. exact (is_derive_plus f g x df dg Hf Hg). Qed.
Lemma der_minus (f g : R -> R) (x df dg : R) : is_derive f x df -> is_derive g x dg -> is_derive (fun t => f t - g t) x (df - dg).
Proof. intros Hf Hg. exact (is_derive_minus f g x df dg Hf Hg). Qed.
Lemma der_opp (f : R -> R) (x df : R) : is_derive f x df -> is_derive (fun t => - f t) x (- df).
Proof. intros Hf. exact (is_derive_opp f x df Hf). Qed.
Lemma der_scal (k : R) (f : R -> R) (x df : R) : is_derive f x df -> is_derive (fun t => k * f t) x (k * df).
Proof. intros Hf. exact (is_derive_scal f x k df Hf). Qed.
Lemma der_mult (f g : R -> R) (x df dg : R) : is_derive f x df -> is_derive g x dg ->
  is_derive (fun t => f t * g t) x (df * g x + f x * dg).
Proof. intros Hf Hg. exact (is_derive_mult f g x df dg Hf Hg Rmult_comm). Qed.
Lemma der_eq (f : R -> R) (x l l' : R) : is_derive f x l -> l = l' -> is_derive f x l'.
Proof. intros H <-. exact H. Qed.
Lemma cont_comp (f g : R -> R) (x : R) : continuous g x -> continuous f (g x) -> continuous (fun t => f (g t)) x.
Proof. intros Hg Hf. exact (continuous_comp g f x Hg Hf). Qed.
Lemma cont_plus (f g : R -> R) (x : R) : continuous f x -> continuous g x -> continuous (fun t => f t + g t) x.
Proof. intros Hf Hg. exact (continuous_plus f g x Hf Hg). Qed.
Lemma cont_minus (f g : R -> R) (x : R) : continuous f x -> continuous g x -> continuous (fun t => f t - g t) x.
Proof. intros Hf Hg. exact (continuous_minus f g x Hf Hg). Qed.
Lemma cont_scal (k : R) (f : R -> R) (x : R) : continuous f x -> continuous (fun t => k * f t) x.
Proof. intros Hf. exact (continuous_scal_r k f x Hf). Qed.
Lemma cont_mult (f g : R -> R) (x : R) : continuous f x -> continuous g x -> continuous (fun t => f t * g t) x.
Proof. intros Hf Hg. exact (continuous_mult f g x Hf Hg). Qed.
