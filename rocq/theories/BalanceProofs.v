(** Moves can be undone, with the acceptance probabilities of the target density. *)
From Coq Require Import Reals ZArith List Bool Arith Lia Lra.
From Verif Require Import CPrelude ListLemmas SemisepModel SemisepProofs CovProofs LogXModel LogXProofs ParamModel ParamSpec ParamProofs ParamProofs2 ParamProofs3 ParamProofs5 BalanceModel BalanceSpec.
Import ListNotations.
Open Scope nat_scope.

Lemma wrap_back x d a b v : (a <= x < b)%R -> dnest_wrap (x + d) a b = Ok v -> (a <= v < b)%R /\ dnest_wrap (v + - d) a b = Ok x.
Proof.
  intros H E. destruct (wrap_spec (x + d) a b ltac:(lra)) as (v' & E' & Hv & k & Hk). rewrite E in E'. injection E' as <-.
  split; [exact Hv|]. destruct (wrap_spec (v + - d) a b ltac:(lra)) as (r & E' & Hr & l & Hl). rewrite E'. f_equal.
  assert (D : (x - r = IZR (k + l) * (b - a))%R) by (rewrite plus_IZR; lra).
  assert (Z0 : (k + l = 0)%Z).
  { assert (A : (IZR (k + l) < 1)%R) by (apply (Rmult_lt_reg_r (b - a)); lra).
    assert (B : (-1 < IZR (k + l))%R) by (apply (Rmult_lt_reg_r (b - a)); lra).
    apply lt_IZR in A, B. lia. }
  rewrite Z0 in D. lra.
Qed.

Lemma total_ext n f g : (forall i, i < n -> f i = g i) -> total n f = total n g.
Proof. induction n as [|n IH]; intros H; [reflexivity|]. cbn [total]. rewrite IH, (H n) by (intros; try apply H; lia). reflexivity. Qed.
Lemma total_change n f g j : j < n -> (forall i, i < n -> i <> j -> f i = g i) -> (total n f - f j = total n g - g j)%R.
Proof.
  induction n as [|n IH]; intros Hj H; [lia|]. cbn [total]. destruct (Nat.eq_dec j n) as [->|Hn].
  - rewrite (total_ext n f g) by (intros; apply H; lia). lra.
  - specialize (IH ltac:(lia) ltac:(intros; apply H; lia)). rewrite (H n) by lia. lra.
Qed.

(** ** the acceptance test *)
Definition prob (logH : R) : R := exp (Rmin 0 logH).
Lemma accepts_iff u logH : accepts u logH = true <-> (u <= prob logH)%R.
Proof.
  unfold accepts, prob, Rmin. cbv zeta. destruct (Rlt_dec 0 logH), (Rle_dec 0 logH); try lra;
    [|assert (logH = 0%R) as -> by lra|]; destruct (Rle_dec u _); split; intros; try congruence; try lra.
Qed.
Lemma prob_range logH : (0 < prob logH <= 1)%R.
Proof.
  unfold prob. split; [apply exp_pos|]. rewrite <- exp_0. pose proof (Rmin_l 0 logH) as [H|H].
  - left. apply exp_increasing. exact H.
  - rewrite H. right. reflexivity.
Qed.

Section Balance.
Variable nset : nat.
Variable nlset : nat -> nat.
Variable ng : nat.
Variable uniform : nat.
Variable uniform_var : bool.
Notation nvar := (num_params_var nset uniform_var).
Notation np := (num_params nset nlset ng uniform uniform_var).
Notation nlines := (nlines nset nlset uniform).
Notation slot_at := (slot_at nset ng uniform_var).
Notation slot := (slot nset nlset ng uniform uniform_var).
Notation tied := (tied nset nlset ng uniform uniform_var).
Notation idxs := (set_idx_line_pm nset nlset ng uniform uniform_var unset).
Variable ties : bool.
Variable rng : ranges.
Variable fx : fixed.
Variables mean sd : arr.
Variables posivity gap : bool.
Variables width_factor lag_factor year : R.
Variables gap_center gap_width : arr.
Notation pens := (penalties nset nlset ng uniform uniform_var posivity gap width_factor lag_factor year gap_center gap_width idxs).
Notation pen := (penalty posivity gap width_factor lag_factor year gap_center gap_width).
Notation lt := (log_target nset nlset ng uniform uniform_var ties mean sd posivity gap width_factor lag_factor year gap_center gap_width).
Notation untied := (untied nset nlset ng uniform uniform_var ties).
Notation counted := (counted nlset uniform ties).
Hypothesis Hfits : ties = true -> uniform = 2 -> fits nset nlset.
Hypothesis gap_lines : gap = true -> forall i, i < nset -> 0 < nlset i.
Hypothesis Hyear : gap = true -> (year <> 0)%R.
Variable own : nat -> nat.
Hypothesis Hown : owns nset nlset uniform own.
Hypothesis Htied : tied_fixed nset nlset ng uniform uniform_var ties fx.

Lemma below_ok c w : (if Rlt_dec (c - width_factor * exp w) 0 then - 100 else 0)%R = (- below_zero width_factor c w)%R.
Proof. unfold below_zero. destruct (Rlt_dec _ 0), (Rlt_dec c _); lra. Qed.
Lemma in_gap_ok i c w : gap = true -> gap_penalty lag_factor year gap_center gap_width i c w = (- in_gap lag_factor year gap_center gap_width i c w)%R.
Proof.
  intros Hg. unfold gap_penalty, in_gap, phase. cbv zeta. set (lag := (c + lag_factor * exp w)%R).
  replace (lag - floor (lag / year) * year)%R with (year * frac_part (lag / year))%R.
  2:{ unfold frac_part, floor. field. exact (Hyear Hg). }
  set (d := Rabs _). destruct (Rlt_dec d (gap_width i)) as [Hd|]; [|lra].
  assert (0 <= d)%R by apply Rabs_pos. assert (Gw : (0 < gap_width i)%R) by lra.
  assert (E : (w < ln (gap_width i) <-> exp w < gap_width i)%R).
  { split; intros H1.
    - rewrite <- (exp_ln (gap_width i)) by exact Gw. apply exp_increasing. exact H1.
    - rewrite <- (ln_exp w). apply ln_increasing; [apply exp_pos|exact H1]. }
  destruct (Rlt_dec w _), (Rlt_dec (exp w) _); try tauto; unfold Rsqr; lra.
Qed.
Lemma pen_nonneg i c w : (0 <= pen i c w)%R.
Proof.
  unfold penalty. apply Rplus_le_le_0_compat.
  - destruct posivity; [|lra]. unfold below_zero. destruct (Rlt_dec _ _); lra.
  - destruct gap; [|lra]. unfold in_gap. cbv zeta. set (d := Rabs _). destruct (Rlt_dec d _) as [Hd|]; [|lra]. destruct (Rlt_dec (exp w) _); [|lra].
    assert (0 <= d)%R by apply Rabs_pos. assert (Gw : (0 < gap_width i)%R) by lra.
    assert (Q : (0 <= d / gap_width i <= 1)%R).
    { split; [apply Rle_mult_inv_pos; assumption|]. apply (Rmult_le_reg_r (gap_width i)); [exact Gw|]. unfold Rdiv. rewrite Rmult_assoc, Rinv_l; lra. }
    assert (Rsqr (d / gap_width i) <= 1)%R by (replace 1%R with (Rsqr 1) by (unfold Rsqr; lra); apply Rsqr_incr_1; lra). lra.
Qed.

Lemma own_set m r : gap = true -> m < nlines -> role_ok ng r -> get_idx_set nset idxs (slot_at m r) = Ok (own m).
Proof.
  intros Hg Hm Hr. destruct (line_no_cover nset nlset uniform m Hm) as (i & j & Hi & Hj & ->).
  rewrite (Hown i j (conj Hi Hj)). destruct (Nat.eqb_spec uniform 1) as [Hu|Hu].
  - apply idx_set_last; auto; [lia|apply gap_lines; [exact Hg|lia]|]. apply (slot_at_lt nset nlset ng uniform uniform_var); [exact Hm|exact Hr].
  - apply (idx_set_own nset nlset ng uniform uniform_var i j r); auto. split; assumption.
Qed.
Definition role_penalty (m : nat) (r : role) (pm : arr) : R :=
  match r with Centre k | Width k => pen (own m) (pm (slot_at m (Centre k))) (pm (slot_at m (Width k))) | _ => 0%R end.
Lemma pens_eq pm m r : m < nlines -> role_ok ng r -> pens pm (slot_at m r) = Ok (- role_penalty m r pm)%R.
Proof.
  intros Hm Hr. assert (W1 : forall k, slot_at m (Centre k) + 1 = slot_at m (Width k)) by (intros; unfold ParamSpec.slot_at; cbn [offset]; lia).
  assert (W2 : forall k, slot_at m (Width k) - 1 = slot_at m (Centre k)) by (intros; unfold ParamSpec.slot_at; cbn [offset]; lia).
  assert (Rd : forall r', role_ok ng r' -> rd np pm (slot_at m r') = Ok (pm (slot_at m r'))).
  { intros r' Hr'. apply rd_ok. apply slot_at_lt; assumption. }
  assert (A : check_positivity nset nlset ng uniform uniform_var width_factor pm (slot_at m r)
    = Ok (match r with Centre k | Width k => - below_zero width_factor (pm (slot_at m (Centre k))) (pm (slot_at m (Width k))) | _ => 0 end)%R).
  { unfold check_positivity. rewrite (idx_param nset ng uniform_var m r Hr). destruct r as [|k|k|k]; cbn [Z.eqb Pos.eqb]; try reflexivity.
    - rewrite W1, !Rd by assumption. cbn [bind]. rewrite below_ok. reflexivity.
    - rewrite W2, !Rd by assumption. cbn [bind]. rewrite below_ok. reflexivity. }
  assert (B : gap = true -> check_gap nset nlset ng uniform uniform_var lag_factor year gap_center gap_width idxs pm (slot_at m r)
    = Ok (match r with Centre k | Width k => - in_gap lag_factor year gap_center gap_width (own m) (pm (slot_at m (Centre k))) (pm (slot_at m (Width k))) | _ => 0 end)%R).
  { intros Hg. unfold check_gap. rewrite (own_set m r Hg Hm Hr). cbn [bind]. rewrite (idx_param nset ng uniform_var m r Hr). destruct r as [|k|k|k]; cbn [Z.eqb Pos.eqb]; try reflexivity.
    - rewrite W1, !Rd by assumption. cbn [bind]. rewrite in_gap_ok by exact Hg. reflexivity.
    - rewrite W2, !Rd by assumption. cbn [bind]. rewrite in_gap_ok by exact Hg. reflexivity. }
  unfold penalties. destruct posivity eqn:Ep; [rewrite A|]; cbn [bind]; destruct gap eqn:Eg; try rewrite (B eq_refl); cbn [bind]; f_equal;
    unfold role_penalty, penalty; rewrite ?Ep, ?Eg; destruct r; lra.
Qed.

(** ** what a change of one parameter does to the target *)
Lemma counted_untied m r : counted m = true -> m < nlines -> role_ok ng r -> untied (slot_at m r).
Proof.
  unfold BalanceSpec.counted. intros Hc Hm Hr (b & -> & Hu & i & j & r' & Hi & Hl & Hr' & Ht & Es & _).
  rewrite Hu in Hc. cbn [andb Nat.eqb] in Hc. apply Nat.ltb_lt in Hc.
  apply slot_at_inj in Es; auto. destruct Es as [-> ->]. unfold line_no in Hc. rewrite Hu in Hc. cbn [Nat.eqb] in Hc.
  destruct i as [|i]; [lia|]. assert (nlset 0 <= before nlset (S i)); [|lia].
  clear. induction i as [|i IH]; cbn [before] in *; lia.
Qed.
Lemma untied_counted m r : m < nlines -> role_ok ng r -> ties_role r -> untied (slot_at m r) -> counted m = true.
Proof.
  intros Hm Hr Ht Hu. unfold BalanceSpec.counted. destruct ties eqn:Et; [|reflexivity]. destruct (Nat.eqb_spec uniform 2) as [E|]; [|reflexivity]. cbn [andb].
  apply Nat.ltb_lt. destruct (line_no_cover nset nlset uniform m Hm) as (i & j & Hi & Hj & ->). destruct i as [|i].
  - unfold line_no. rewrite E. cbn [Nat.eqb before]. lia.
  - exfalso. apply Hu. exists (slot 0 j r). split; [reflexivity|]. split; [exact E|]. exists (S i), j, r. split; [lia|]. split; [split; assumption|]. auto.
Qed.

Lemma change pm pm' w v : w < np -> is_fixed fx w = false ->
  (forall s, s < np -> untied s -> pm' s = upd pm w v s) ->
  (w < nvar -> (lt own pm' - lt own pm = gaussian mean sd w v - gaussian mean sd w (pm w))%R) /\
  (forall m r, m < nlines -> role_ok ng r -> w = slot_at m r -> (lt own pm' - lt own pm = role_penalty m r pm - role_penalty m r pm')%R).
Proof.
  intros Hw Hf Hs. assert (Hu : untied w) by (apply (free_untied nset nlset ng uniform uniform_var ties fx); assumption).
  assert (var_untied : forall s, s < nvar -> untied s).
  { intros s Hv (b & _ & _ & i & j & r & Hi & [Hl1 Hl2] & Hr & _ & -> & _).
    pose proof (slot_at_lt nset nlset ng uniform uniform_var _ r (line_no_lt nset nlset uniform i j Hl1 Hl2) Hr). unfold ParamSpec.slot in Hv. lia. }
  assert (same : forall m, m < nlines -> counted m = true -> forall k, k < ng -> (forall r, role_ok ng r -> ties_role r -> w = slot_at m r -> r <> Centre k /\ r <> Width k) ->
    pen (own m) (pm' (slot_at m (Centre k))) (pm' (slot_at m (Width k))) = pen (own m) (pm (slot_at m (Centre k))) (pm (slot_at m (Width k)))).
  { intros m Hm Hc k Hk Hno. rewrite !Hs by (try apply (counted_untied m); try apply slot_at_lt; auto).
    rewrite !upd_other; [reflexivity| |]; intros E; symmetry in E; [destruct (Hno (Width k) Hk Logic.I E) as [_ G]|destruct (Hno (Centre k) Hk Logic.I E) as [G _]]; apply G; reflexivity. }
  unfold log_target. split.
  - intros Hv.
    assert (Q : total nlines (fun m => if counted m then total ng (fun k => pen (own m) (pm' (slot_at m (Centre k))) (pm' (slot_at m (Width k)))) else 0%R)
      = total nlines (fun m => if counted m then total ng (fun k => pen (own m) (pm (slot_at m (Centre k))) (pm (slot_at m (Width k)))) else 0%R)).
    { apply total_ext. intros m Hm. destruct (counted m) eqn:Hc; [|reflexivity]. apply total_ext. intros k Hk. apply same; auto.
      intros r Hr _ E. pose proof (slot_at_lt nset nlset ng uniform uniform_var m r Hm Hr). lia. }
    rewrite Q. pose proof (total_change nvar (fun s => gaussian mean sd s (pm' s)) (fun s => gaussian mean sd s (pm s)) w Hv) as G. cbv beta in G.
    rewrite (Hs w Hw Hu), upd_same in G. rewrite <- (Rplus_0_r (gaussian mean sd w v)).
    assert (G' := G ltac:(intros s H1 H2; rewrite (Hs s) by (try apply var_untied; auto; unfold num_params; lia); rewrite upd_other by exact H2; reflexivity)). lra.
  - intros m r Hm Hr Ew.
    assert (G : total nvar (fun s => gaussian mean sd s (pm' s)) = total nvar (fun s => gaussian mean sd s (pm s))).
    { apply total_ext. intros s H1. rewrite (Hs s) by (try apply var_untied; auto; unfold num_params; lia). rewrite upd_other; [reflexivity|].
      pose proof (slot_at_lt nset nlset ng uniform uniform_var m r Hm Hr). lia. }
    rewrite G.
    assert (lines : (forall k, r <> Centre k /\ r <> Width k) ->
      total nlines (fun m => if counted m then total ng (fun k => pen (own m) (pm' (slot_at m (Centre k))) (pm' (slot_at m (Width k)))) else 0%R)
      = total nlines (fun m => if counted m then total ng (fun k => pen (own m) (pm (slot_at m (Centre k))) (pm (slot_at m (Width k)))) else 0%R)).
    { intros Hno. apply total_ext. intros m' Hm'. destruct (counted m') eqn:Hc; [|reflexivity]. apply total_ext. intros k Hk. apply same; auto.
      intros r' Hr' _ E. rewrite Ew in E. apply slot_at_inj in E; auto. destruct E as [_ <-]. apply Hno. }
    destruct r as [|k|k|k]; cbn [role_penalty].
    1,2: rewrite lines by (intros k'; split; discriminate); lra.
    all: assert (Hc : counted m = true) by (eapply (untied_counted m); [exact Hm|exact Hr|exact Logic.I|rewrite <- Ew; exact Hu]).
    all: set (f := fun m => if counted m then total ng (fun k => pen (own m) (pm' (slot_at m (Centre k))) (pm' (slot_at m (Width k)))) else 0%R).
    all: set (g := fun m => if counted m then total ng (fun k => pen (own m) (pm (slot_at m (Centre k))) (pm (slot_at m (Width k)))) else 0%R).
    all: assert (L : (total nlines f - f m = total nlines g - g m)%R) by
      (apply total_change; [exact Hm|]; intros m' Hm' Hne; unfold f, g; destruct (counted m') eqn:Hc'; [|reflexivity]; apply total_ext; intros k' Hk'; apply same; auto;
       intros r' Hr' _ E; rewrite Ew in E; apply slot_at_inj in E; auto; destruct E as [E _]; congruence).
    all: assert (M : (f m - pen (own m) (pm' (slot_at m (Centre k))) (pm' (slot_at m (Width k))) = g m - pen (own m) (pm (slot_at m (Centre k))) (pm (slot_at m (Width k))))%R) by
      (unfold f, g; rewrite Hc; cbn [role_ok] in Hr;
       apply (total_change ng (fun k => pen (own m) (pm' (slot_at m (Centre k))) (pm' (slot_at m (Width k)))) (fun k => pen (own m) (pm (slot_at m (Centre k))) (pm (slot_at m (Width k)))) k Hr);
       intros k' Hk' Hne; apply same; auto; intros r' Hr' _ E; rewrite Ew in E; apply slot_at_inj in E; auto; destruct E as [_ <-]; split; congruence).
    all: lra.
Qed.

(** ** the closing copy *)
Lemma closing pm : exists pm', (if ties && (uniform =? 2) then set_center_width nset nlset ng idxs pm else Ok pm) = Ok pm' /\
  (forall s, untied s -> pm' s = pm s) /\ (forall s b, tied ties s b -> pm' s = pm b).
Proof.
  destruct (ties && (uniform =? 2)) eqn:E.
  - apply andb_true_iff in E. destruct E as [Et Eu]. apply Nat.eqb_eq in Eu.
    destruct (center_width_spec nset nlset ng uniform uniform_var pm Eu (Hfits Et Eu)) as (pm' & E' & A & B). rewrite <- Et in A, B.
    exists pm'. split; [exact E'|]. split; [exact B|exact A].
  - exists pm. split; [reflexivity|]. split; [reflexivity|]. intros s b (H1 & H2 & _). rewrite H1, H2 in E. discriminate.
Qed.

(** both moves change one parameter to a wrapped value between bounds that the move
    leaves alone *)
Definition undone (logH logH' : R) (pm pm' pm2 : arr) : Prop :=
  (forall s, s < np -> pm2 s = pm s) /\ (lt own pm + Rmin 0 logH = lt own pm' + Rmin 0 logH')%R.
Lemma finish pm w v pm1 pm2 logH logH' : inside nset nlset ng uniform uniform_var ties rng fx pm -> w < np -> is_fixed fx w = false ->
  (forall s, untied s -> pm1 s = upd pm w v s) -> (forall s b, tied ties s b -> pm1 s = upd pm w v b) ->
  (forall s, untied s -> pm2 s = upd pm1 w (pm w) s) -> (forall s b, tied ties s b -> pm2 s = upd pm1 w (pm w) b) ->
  (w < nvar -> (logH = gaussian mean sd w v - gaussian mean sd w (pm w))%R /\ (logH' = gaussian mean sd w (pm w) - gaussian mean sd w v)%R) ->
  (forall m r, m < nlines -> role_ok ng r -> w = slot_at m r -> logH = (- role_penalty m r (upd pm w v))%R /\ logH' = (- role_penalty m r (upd pm1 w (pm w)))%R) ->
  undone logH logH' pm pm1 pm2.
Proof.
  intros [In1 In2] Hw Hf A1 A2 B1 B2 Hv Hl. assert (Hu : untied w) by (apply (free_untied nset nlset ng uniform uniform_var ties fx); assumption).
  assert (back : forall s, s < np -> untied s -> upd pm1 w (pm w) s = pm s).
  { intros s Hs Hus. destruct (Nat.eq_dec s w) as [->|Hn]; [apply upd_same|]. rewrite upd_other by exact Hn. rewrite A1 by exact Hus. apply upd_other. exact Hn. }
  split.
  - intros s Hs. destruct (tied_dec nset nlset ng uniform uniform_var ties s) as [(b & Hb)|Hn].
    + rewrite (B2 s b Hb), (In2 s b Hb).
      assert (Hub : untied b).
      { intros (b' & Hb'). revert Hb'. apply tied_not_source with s; [|exact Hb]. destruct Hb as (H1 & H2 & _). exact (Hfits H1 H2). }
      apply back; [|exact Hub]. assert (F : fits nset nlset) by (destruct Hb as (H1 & H2 & _); exact (Hfits H1 H2)).
      destruct Hb as (_ & _ & i & j & r & Hi & [Hl1 Hl2] & Hr & _ & _ & ->). specialize (F i Hl1).
      apply (slot_at_lt nset nlset ng uniform uniform_var); [|exact Hr]. apply line_no_lt; lia.
    + rewrite (B1 s Hn). apply back; assumption.
  - destruct (change pm pm1 w v Hw Hf ltac:(intros s _ Hs; apply A1; exact Hs)) as [C1 C2].
    destruct (slot_cases nset nlset ng uniform uniform_var w Hw) as [H|(m & r & Hm & Hr & E)].
    + destruct (Hv H) as [-> ->]. specialize (C1 H). unfold Rmin. destruct (Rle_dec 0 _), (Rle_dec 0 _); lra.
    + destruct (Hl m r Hm Hr E) as [-> ->]. specialize (C2 m r Hm Hr E).
      assert (P0 : forall q, (0 <= role_penalty m r q)%R) by (intros q; destruct r; cbn [role_penalty]; try lra; apply pen_nonneg).
      assert (E1 : role_penalty m r (upd pm1 w (pm w)) = role_penalty m r pm).
      { destruct r as [|k|k|k]; cbn [role_penalty]; try reflexivity;
        rewrite !back; auto; try (apply slot_at_lt; assumption);
        (eapply (untied_line nset nlset ng uniform uniform_var ties m); [| | | |rewrite <- E; exact Hu]; cbn; auto). }
      assert (E2 : role_penalty m r (upd pm w v) = role_penalty m r pm1).
      { destruct r as [|k|k|k]; cbn [role_penalty]; try reflexivity;
        rewrite !A1; auto; (eapply (untied_line nset nlset ng uniform uniform_var ties m); [| | | |rewrite <- E; exact Hu]; cbn; auto). }
      rewrite E1, E2. pose proof (P0 pm). pose proof (P0 pm1). unfold Rmin. destruct (Rle_dec 0 _), (Rle_dec 0 _); lra.
Qed.
Lemma gauss_eq s x : gauss_log mean sd s x = gaussian mean sd s x.
Proof. unfold gauss_log, gaussian, Rsqr. cbn [pow]. lra. Qed.

Theorem perturb1_undone W h limits lev size pm pm' logH : (forall w, In w W -> w < np) ->
  inside nset nlset ng uniform uniform_var ties rng fx pm ->
  perturb_prior1 nset nlset ng uniform uniform_var rng fx mean sd posivity gap width_factor lag_factor year gap_center gap_width idxs ties W h limits lev size pm = Ok (pm', logH) ->
  exists pm2 logH', perturb_prior1 nset nlset ng uniform uniform_var rng fx mean sd posivity gap width_factor lag_factor year gap_center gap_width idxs ties W (- h) limits lev size pm' = Ok (pm2, logH') /\
    undone logH logH' pm pm' pm2.
Proof.
  intros HW Hin E. unfold perturb_prior1 in *. pose proof (choose_spec nset nlset ng uniform uniform_var fx W HW) as C.
  destruct (choose_which fx W) as [w| | |]; try contradiction; [|discriminate E]. destruct C as [Hw Hf]. cbn [bind] in *. cbv zeta in *.
  set (d := step_width _ _ _ _ _) in *. rewrite rd_ok in E |- * by exact Hw. cbn [bind] in *.
  destruct (dnest_wrap (pm w + h * d) (lo rng w) (hi rng w)) as [v| | |] eqn:Ev; try discriminate E. cbn [bind] in E.
  destruct (wrap_back (pm w) (h * d) (lo rng w) (hi rng w) v (proj1 Hin w Hw Hf) Ev) as [Hv Eb].
  assert (Hu : untied w) by (apply (free_untied nset nlset ng uniform uniform_var ties fx); assumption).
  destruct (closing (upd pm w v)) as (q & Eq & A1 & A2).
  assert (Q : pm' = q).
  { destruct (if w <? nvar then _ else _) as [l| | |]; try discriminate E. cbn [bind] in E. rewrite Eq in E. cbn [bind] in E. congruence. }
  subst q. assert (Ew : pm' w = v) by (rewrite (A1 w Hu); apply upd_same).
  destruct (closing (upd pm' w (pm w))) as (pm2 & E2 & B1 & B2).
  rewrite Ew. replace (v + - h * d)%R with (v + - (h * d))%R by lra. rewrite Eb. cbn [bind].
  destruct (Nat.ltb_spec w nvar) as [L|L].
  - cbn [bind] in *. rewrite Eq in E. cbn [bind] in E. injection E as <-. rewrite E2. cbn [bind]. eexists pm2, _. split; [reflexivity|].
    apply finish with w v; auto.
    + intros _. rewrite !gauss_eq. auto.
    + intros m r Hm Hr Es. pose proof (slot_at_lt nset nlset ng uniform uniform_var m r Hm Hr). lia.
  - destruct (slot_cases nset nlset ng uniform uniform_var w Hw) as [H|(m & r & Hm & Hr & Es)]; [lia|].
    rewrite Es, (pens_eq _ m r Hm Hr), <- Es in E. rewrite Es, (pens_eq _ m r Hm Hr), <- Es. cbn [bind] in *. rewrite Eq in E. cbn [bind] in E. injection E as <-.
    rewrite E2. cbn [bind]. eexists pm2, _. split; [reflexivity|]. apply finish with w v; auto.
    + lia.
    + intros m' r' Hm' Hr' Es'. rewrite Es in Es'. apply slot_at_inj in Es'; auto. destruct Es' as [<- <-]. auto.
Qed.

Theorem perturb0_undone early W h limits lev size pm pm' logH : 2 <= ng -> (forall w, In w W -> w < np) ->
  inside nset nlset ng uniform uniform_var ties rng fx pm -> strictly_ordered nset nlset ng uniform uniform_var pm ->
  perturb_prior0 nset nlset ng uniform uniform_var rng fx mean sd posivity gap width_factor lag_factor year gap_center gap_width idxs ties early W h limits lev size pm = Ok (pm', logH) ->
  exists pm2 logH', perturb_prior0 nset nlset ng uniform uniform_var rng fx mean sd posivity gap width_factor lag_factor year gap_center gap_width idxs ties early W (- h) limits lev size pm' = Ok (pm2, logH') /\
    undone logH logH' pm pm' pm2.
Proof.
  intros Hng HW Hin Ho E. unfold perturb_prior0 in *. pose proof (choose_spec nset nlset ng uniform uniform_var fx W HW) as C.
  destruct (choose_which fx W) as [w| | |]; try contradiction; [|discriminate E]. destruct C as [Hw Hf]. cbn [bind] in *. cbv zeta in *.
  set (d := step_width _ _ _ _ _) in *. rewrite rd_ok in E |- * by exact Hw. cbn [bind] in *.
  assert (Hu : untied w) by (apply (free_untied nset nlset ng uniform uniform_var ties fx); assumption).
  assert (Hr0 := proj1 Hin w Hw Hf).
  destruct (Nat.ltb_spec w nvar) as [L|L].
  - destruct (dnest_wrap (pm w + h * d) (lo rng w) (hi rng w)) as [v| | |] eqn:Ev; try discriminate E. cbn [bind] in E.
    destruct (wrap_back (pm w) (h * d) (lo rng w) (hi rng w) v Hr0 Ev) as [Hv Eb].
    destruct (closing (upd pm w v)) as (q & Eq & A1 & A2). rewrite Eq in E. cbn [bind] in E. injection E as <- <-.
    assert (Ew : q w = v) by (rewrite (A1 w Hu); apply upd_same).
    destruct (closing (upd q w (pm w))) as (pm2 & E2 & B1 & B2).
    rewrite Ew. replace (v + - h * d)%R with (v + - (h * d))%R by lra. rewrite Eb. cbn [bind]. rewrite E2. cbn [bind].
    eexists pm2, _. split; [reflexivity|]. apply finish with w v; auto.
    + intros _. rewrite !gauss_eq. auto.
    + intros m r Hm Hr Es. pose proof (slot_at_lt nset nlset ng uniform uniform_var m r Hm Hr). lia.
  - destruct (slot_cases nset nlset ng uniform uniform_var w Hw) as [H|(m & r & Hm & Hr & Es)]; [lia|].
    destruct (check_centre nset ng uniform_var m r Hr) as [C1 C2]. rewrite <- Es in C1, C2.
    destruct (check_gauss_center nset ng uniform_var w) as [ic igau]. cbn [fst snd] in C1, C2. subst ic.
    (* the bounds, read from a vector that agrees with pm on the other centres of the line *)
    assert (bounds : exists a b, (a <= pm w < b)%R /\ forall q x, (forall k, k < ng -> slot_at m (Centre k) <> w -> (exists k0, r = Centre k0) -> q (slot_at m (Centre k)) = pm (slot_at m (Centre k))) ->
      (if is_centre r then
         if (igau =? 0)%Z then
           b <- rd np q (w + 3) ;; dnest_wrap x (lo rng w) b
         else if (igau <? Z.of_nat ng - 1)%Z then
           a <- rd np q (w - 3) ;; b <- rd np q (w + 3) ;; dnest_wrap x a b
         else a <- rd np q (w - 3) ;; dnest_wrap x a (hi rng w)
       else dnest_wrap x (lo rng w) (hi rng w)) = dnest_wrap x a b).
    { destruct r as [|k|k|k]; cbn [is_centre].
      1,2,4: exists (lo rng w), (hi rng w); split; [exact Hr0|reflexivity].
      specialize (C2 k eq_refl). subst igau. cbn [role_ok] in Hr.
      assert (nx : w + 3 = slot_at m (Centre (k + 1))) by (rewrite Es; unfold ParamSpec.slot_at; cbn [offset]; lia).
      destruct (Z.eqb_spec (Z.of_nat k) 0) as [K0|K0].
      - assert (k = 0) by lia. subst k. exists (lo rng w), (pm (slot_at m (Centre 1))). cbn [Nat.add] in nx. split.
        + split; [apply Hr0|]. rewrite Es. apply (Ho m 0); [exact Hm|lia].
        + intros q x Hq. rewrite nx, rd_ok by (apply slot_at_lt; [exact Hm|cbn; lia]). cbn [bind]. rewrite Hq; [reflexivity|lia|rewrite <- nx; lia|eauto].
      - assert (pv : w - 3 = slot_at m (Centre (k - 1))) by (rewrite Es; unfold ParamSpec.slot_at; cbn [offset]; lia).
        assert (pv' : slot_at m (Centre (k - 1)) <> w) by (rewrite Es; unfold ParamSpec.slot_at; cbn [offset]; lia).
        assert (Ha : (pm (slot_at m (Centre (k - 1))) < pm w)%R).
        { pose proof (Ho m (k - 1) Hm ltac:(lia)) as G. replace (k - 1 + 1) with k in G by lia. rewrite Es. exact G. }
        destruct (Z.ltb_spec (Z.of_nat k) (Z.of_nat ng - 1)) as [K1|K1].
        + exists (pm (slot_at m (Centre (k - 1)))), (pm (slot_at m (Centre (k + 1)))). split.
          * split; [lra|]. rewrite Es. apply Ho; [exact Hm|lia].
          * intros q x Hq. rewrite pv, rd_ok by (apply slot_at_lt; [exact Hm|cbn; lia]). cbn [bind].
            rewrite nx, rd_ok by (apply slot_at_lt; [exact Hm|cbn; lia]). cbn [bind].
            rewrite !Hq; try reflexivity; try lia; eauto.
        + exists (pm (slot_at m (Centre (k - 1)))), (hi rng w). split; [lra|].
          intros q x Hq. rewrite pv, rd_ok by (apply slot_at_lt; [exact Hm|cbn; lia]). cbn [bind]. rewrite Hq; try reflexivity; try lia; eauto. }
    destruct bounds as (a & b & Hab & Bd). rewrite Bd in E by reflexivity.
    destruct (dnest_wrap (pm w + h * d) a b) as [v| | |] eqn:Ev; try discriminate E. cbn [bind] in E.
    destruct (wrap_back (pm w) (h * d) a b v Hab Ev) as [Hv Eb].
    destruct (closing (upd pm w v)) as (q & Eq & A1 & A2).
    assert (PE : forall q, pens q w = Ok (- role_penalty m r q)%R) by (intros q'; rewrite Es; apply pens_eq; assumption).
    rewrite PE in E. cbn [bind] in E. rewrite Eq in E. cbn [bind] in E. injection E as <- <-.
    assert (Ew : q w = v) by (rewrite (A1 w Hu); apply upd_same).
    destruct (closing (upd q w (pm w))) as (pm2 & E2 & B1 & B2).
    rewrite Bd.
    2:{ intros k Hk Hne (k0 & ->). rewrite A1; [apply upd_other; exact Hne|].
        apply (untied_line nset nlset ng uniform uniform_var ties m (Centre k0)); cbn; auto. rewrite <- Es. exact Hu. }
    rewrite Ew. replace (v + - h * d)%R with (v + - (h * d))%R by lra. rewrite Eb. cbn [bind].
    rewrite PE. cbn [bind]. rewrite E2. cbn [bind].
    eexists pm2, _. split; [reflexivity|]. apply finish with w v; auto.
    + lia.
    + intros m' r' Hm' Hr' Es'. rewrite Es in Es'. apply slot_at_inj in Es'; auto. destruct Es' as [<- <-]. auto.
Qed.
End Balance.
