(** C76 and C77: the moves of the sampler, in the parameters and between levels, are
    in detailed balance with the densities of BalanceSpec. *)
From Coq Require Import Reals ZArith List Bool Arith Lia Lra.
From Verif Require Import CPrelude ListLemmas SemisepModel SemisepProofs CovProofs DnestModel DnestProofs LogXModel LogXProofs ParamModel ParamSpec ParamProofs ParamProofs2 ParamProofs3 BalanceModel BalanceSpec BalanceProofs PropParam.
Import ListNotations.
Open Scope nat_scope.

(** ** C76 *)
(** A kind of move on vectors of n parameters, of one from number [first] on: whatever move the draws produce, the
    same draws with the heavy-tailed number negated lead back.  The uniform numbers u
    that accept it are those up to some a, for the way back those up to some a' (the
    threshold on the likelihood apart), and target * a is the same both ways. *)
Definition in_balance (perturb : list nat -> R -> arr -> Z -> Z -> arr -> outcome (arr * R)) (first n : nat) (ok : arr -> Prop) (density : arr -> R) : Prop :=
  forall W h limits lev size pm pm' logH, (forall w, In w W -> first <= w < n) -> ok pm ->
  perturb W h limits lev size pm = Ok (pm', logH) ->
  exists back logH' a a',
    perturb W (- h)%R limits lev size pm' = Ok (back, logH') /\ (forall s, s < n -> back s = pm s) /\
    (0 < a <= 1)%R /\ (0 < a' <= 1)%R /\
    (forall u threshold logl, taken u logH threshold logl = true <-> (u <= a)%R /\ (threshold < logl)%R) /\
    (forall u threshold logl, taken u logH' threshold logl = true <-> (u <= a')%R /\ (threshold < logl)%R) /\
    (density pm * a = density pm' * a')%R.

Lemma taken_iff u logH threshold logl : taken u logH threshold logl = true <-> (u <= prob logH)%R /\ (threshold < logl)%R.
Proof. unfold taken. rewrite andb_true_iff, accepts_iff. destruct (Rlt_dec threshold logl); intuition congruence. Qed.
Lemma flow x y l l' : (x + Rmin 0 l = y + Rmin 0 l')%R -> (exp x * prob l = exp y * prob l')%R.
Proof. intros H. unfold prob. rewrite <- !exp_plus, H. reflexivity. Qed.

Section Modes.
Variable nset : nat.
Variable nlset : nat -> nat.
Variable ng : nat.
Variable uniform : nat.
Variable uniform_var : bool.
Notation nvar := (num_params_var nset uniform_var).
Notation np := (num_params nset nlset ng uniform uniform_var).
Notation idxs := (set_idx_line_pm nset nlset ng uniform uniform_var unset).
Variable rng : ranges.
Variable fx : fixed.
Variables mean sd : arr.
Variables posivity gap : bool.
Variables width_factor lag_factor year : R.
Variables gap_center gap_width : arr.
Notation inside ties := (inside nset nlset ng uniform uniform_var ties rng fx).
Notation strictly_ordered := (strictly_ordered nset nlset ng uniform uniform_var).
Notation target ties := (target nset nlset ng uniform uniform_var ties mean sd posivity gap width_factor lag_factor year gap_center gap_width).
Notation ties_ok := (ties_ok nset nlset ng uniform uniform_var fx).
Notation owns := (owns nset nlset uniform).

(** free variability parameters have a spread; the gap test needs a line in every
    set and a year *)
Definition usable : Prop :=
  (forall s, s < nvar -> is_fixed fx s = false -> (0 < sd s)%R) /\
  (gap = true -> (0 < year)%R /\ forall i, i < nset -> 0 < nlset i).
Lemma gap_year : usable -> gap = true -> (year <> 0)%R.
Proof. intros [_ H] Hg. destruct (H Hg). lra. Qed.
Lemma gap_sets : usable -> gap = true -> forall i, i < nset -> 0 < nlset i.
Proof. intros [_ H] Hg. apply (H Hg). Qed.

(** general mode and mixed mode; pr = 0 is the prior with ordered centres *)
Theorem C76_line : forall own pr, usable -> owns own -> ties_ok -> (pr = 0 -> 2 <= ng) ->
  in_balance (perturb_line nset nlset ng uniform uniform_var rng fx mean sd posivity gap width_factor lag_factor year gap_center gap_width idxs pr) 0 np
    (fun pm => inside true pm /\ (pr = 0 -> strictly_ordered pm)) (target true own).
Proof.
  intros own pr Us Ho [T1 T2] Hpr W h limits lev size pm pm' logH HW' [Hin Hor] E. assert (HW : forall w, In w W -> w < np) by (intros w Hw; apply HW'; exact Hw).
  assert (HF : true = true -> uniform = 2 -> fits nset nlset) by (intros _; exact T1).
  unfold perturb_line in *. destruct (Nat.eqb_spec pr 0) as [->|Hn].
  - destruct (perturb0_undone nset nlset ng uniform uniform_var true rng fx mean sd posivity gap width_factor lag_factor year gap_center gap_width HF
      (gap_sets Us) (gap_year Us) own Ho T2 0 W h limits lev size pm pm' logH (Hpr eq_refl) HW Hin (Hor eq_refl) E) as (back & logH' & E' & B & F).
    exists back, logH', (prob logH), (prob logH'). repeat split; auto using prob_range; try (apply taken_iff; assumption); try apply prob_range; try (eapply taken_iff; eauto); try (apply taken_iff in H; tauto).
    apply flow. exact F.
  - destruct (perturb1_undone nset nlset ng uniform uniform_var true rng fx mean sd posivity gap width_factor lag_factor year gap_center gap_width HF
      (gap_sets Us) (gap_year Us) own Ho T2 W h limits lev size pm pm' logH HW Hin E) as (back & logH' & E' & B & F).
    exists back, logH', (prob logH), (prob logH'). repeat split; auto using prob_range; try (apply taken_iff; assumption); try apply prob_range; try (eapply taken_iff; eauto); try (apply taken_iff in H; tauto).
    apply flow. exact F.
Qed.
Theorem C76_mmap : forall own pr, usable -> owns own -> ties_ok -> (pr = 0 -> 2 <= ng) ->
  in_balance (perturb_mmap nset nlset ng uniform uniform_var rng fx mean sd posivity gap width_factor lag_factor year gap_center gap_width idxs pr) 0 np
    (fun pm => inside true pm /\ (pr = 0 -> strictly_ordered pm)) (target true own).
Proof. exact C76_line. Qed.
(** photometric mode *)
Theorem C76_pmap : forall own, usable -> owns own ->
  in_balance (perturb_pmap nset nlset ng uniform uniform_var rng fx mean sd posivity gap width_factor lag_factor year gap_center gap_width idxs) 0 np
    (inside false) (target false own).
Proof.
  intros own Us Ho W h limits lev size pm pm' logH HW' Hin E. assert (HW : forall w, In w W -> w < np) by (intros w Hw; apply HW'; exact Hw).
  assert (HF : false = true -> uniform = 2 -> fits nset nlset) by discriminate.
  assert (T2 : tied_fixed nset nlset ng uniform uniform_var false fx) by (intros s b H; destruct (no_ties nset nlset ng uniform uniform_var s b H)).
  destruct (perturb1_undone nset nlset ng uniform uniform_var false rng fx mean sd posivity gap width_factor lag_factor year gap_center gap_width HF
    (gap_sets Us) (gap_year Us) own Ho T2 W h limits lev size pm pm' logH HW Hin E) as (back & logH' & E' & B & F).
  exists back, logH', (prob logH), (prob logH'). repeat split; auto using prob_range; try (apply taken_iff; assumption); try apply prob_range; try (eapply taken_iff; eauto); try (apply taken_iff in H; tauto).
  apply flow. exact F.
Qed.
(** virtual mode: moves of the parameters of the lines (for the variability
    parameters see C78) *)
Theorem C76_vmap : forall own pr, (gap = true -> (0 < year)%R /\ forall i, i < nset -> 0 < nlset i) -> owns own -> (pr = 0 -> 2 <= ng) ->
  in_balance (perturb_vmap nset nlset ng uniform uniform_var rng fx mean sd posivity gap width_factor lag_factor year gap_center gap_width idxs pr) nvar np
    (fun pm => inside false pm /\ (pr = 0 -> strictly_ordered pm)) (target false own).
Proof.
  intros own pr Us Ho Hpr W h limits lev size pm pm' logH HW' [Hin Hor] E.
  assert (HW : forall w, In w W -> w < np) by (intros w Hw; apply HW'; exact Hw).
  assert (HF : false = true -> uniform = 2 -> fits nset nlset) by discriminate.
  assert (T2 : tied_fixed nset nlset ng uniform uniform_var false fx) by (intros s b H; destruct (no_ties nset nlset ng uniform uniform_var s b H)).
  assert (G1 : gap = true -> forall i, i < nset -> 0 < nlset i) by (intros G; apply (Us G)).
  assert (G2 : gap = true -> (year <> 0)%R) by (intros G; destruct (Us G); lra).
  unfold perturb_vmap in *. destruct (Nat.eqb_spec pr 0) as [->|Hn].
  - destruct (perturb0_undone nset nlset ng uniform uniform_var false rng fx mean sd posivity gap width_factor lag_factor year gap_center gap_width HF
      G1 G2 own Ho T2 5 W h limits lev size pm pm' logH (Hpr eq_refl) HW Hin (Hor eq_refl) E) as (back & logH' & E' & B & F).
    exists back, logH', (prob logH), (prob logH'). repeat split; auto using prob_range; try (apply taken_iff; assumption); try apply prob_range; try (eapply taken_iff; eauto); try (apply taken_iff in H; tauto).
    apply flow. exact F.
  - destruct (perturb1_undone nset nlset ng uniform uniform_var false rng fx mean sd posivity gap width_factor lag_factor year gap_center gap_width HF
      G1 G2 own Ho T2 W h limits lev size pm pm' logH HW Hin E) as (back & logH' & E' & B & F).
    exists back, logH', (prob logH), (prob logH'). repeat split; auto using prob_range; try (apply taken_iff; assumption); try apply prob_range; try (eapply taken_iff; eauto); try (apply taken_iff in H; tauto).
    apply flow. exact F.
Qed.
(** the continuum fit: the target is flat *)
Theorem C76_con :
  in_balance (perturb_con nset uniform_var rng fx) 0 nvar
    (fun pm => forall s, s < nvar -> is_fixed fx s = false -> (lo rng s <= pm s < hi rng s)%R) (fun _ => 1%R).
Proof.
  intros W h limits lev size pm pm' logH HW' Hin E. assert (HW : forall w, In w W -> w < nvar) by (intros w Hw; apply HW'; exact Hw).
  unfold perturb_con in *.
  assert (C : match choose_which fx W with Ok w => w < nvar /\ is_fixed fx w = false | _ => True end).
  { clear E HW'. induction W as [|w W IH]; cbn [choose_which]; [exact Logic.I|]. destruct (is_fixed fx w) eqn:F.
    - apply IH. intros v Hv. apply HW. right. exact Hv.
    - split; [apply HW; left; reflexivity|exact F]. }
  destruct (choose_which fx W) as [w| | |]; try discriminate E. destruct C as [Hw Hf]. cbn [bind] in *. cbv zeta in *.
  unfold rd in *. assert (Hb := Hw). apply Nat.ltb_lt in Hb. rewrite Hb in *. cbn [bind] in *.
  set (d := step_width _ _ _ _ _) in *.
  destruct (dnest_wrap (pm w + h * d) (lo rng w) (hi rng w)) as [v| | |] eqn:Ev; try discriminate E. cbn [bind] in E. injection E as <- <-.
  destruct (wrap_back (pm w) (h * d) (lo rng w) (hi rng w) v (Hin w Hw Hf) Ev) as [Hv Eb].
  rewrite upd_same. replace (v + - h * d)%R with (v + - (h * d))%R by lra. rewrite Eb. cbn [bind].
  exists (upd (upd pm w v) w (pm w)), 0%R, (prob 0), (prob 0).
  repeat split; auto using prob_range; try (apply taken_iff; assumption); try apply prob_range; try (eapply taken_iff; eauto); try (apply taken_iff in H; tauto).
  intros s Hs. destruct (Nat.eq_dec s w) as [->|Hn]; [apply upd_same|]. rewrite !upd_other by exact Hn. reflexivity.
Qed.
End Modes.
Print Assumptions C76_line.
Print Assumptions C76_mmap.
Print Assumptions C76_pmap.
Print Assumptions C76_vmap.
Print Assumptions C76_con.

(** ** C77 *)
Open Scope Z_scope.
(** The weight a level has in the walk over levels: the inverse of its prior mass;
    while levels are still made, larger by e for each lam levels further up; later,
    smaller the more often the level has been tried. *)
Definition level_weight (log_X : Z -> R) (tries : Z -> Z) (enough : bool) (lam beta : R) (j : Z) : R :=
  (exp (- log_X j) * if enough then Rpower (IZR (tries j + 1)) (- beta) else exp (IZR j / lam))%R.

Lemma Int_part_IZR_bounds x : (IZR (Int_part x) <= x < IZR (Int_part x) + 1)%R.
Proof. destruct (base_Int_part x). lra. Qed.
Lemma trunc_opp x : trunc (- x) = - trunc x.
Proof.
  unfold trunc. destruct (Rle_dec 0 (- x)), (Rle_dec 0 x).
  - assert (x = 0%R) as -> by lra. rewrite Ropp_0.
    assert (Int_part 0 = 0) as ->; [|reflexivity]. pose proof (Int_part_IZR_bounds 0) as [A B].
    assert (IZR (Int_part 0) < 1)%R by lra. assert (-1 < IZR (Int_part 0))%R by lra. apply lt_IZR in H, H0. lia.
  - lia.
  - rewrite Ropp_involutive. reflexivity.
  - lra.
Qed.
Lemma mod_back n cur d p : 0 <= cur < n -> mod_int (cur + d) n = Ok p -> 0 <= p < n /\ mod_int (p - d) n = Ok cur.
Proof.
  intros Hc E. destruct (mod_int_range (cur + d) n ltac:(lia)) as (p' & E' & Hp & q & Hq). rewrite E in E'. injection E' as <-.
  split; [exact Hp|]. destruct (mod_int_range (p - d) n ltac:(lia)) as (c & Ec & Hc' & q' & Hq'). rewrite Ec. f_equal.
  assert (cur - c = (q + q') * n) by lia. assert (q + q' = 0) by nia. nia.
Qed.

Theorem C77_level_moves : forall log_X tries size enough lam beta cur u g side p, 0 <= cur < size -> (lam <> 0)%R ->
  (forall j, 0 <= j < size -> 0 <= tries j) ->
  level_proposal size cur u g side = Ok p ->
  0 <= p < size /\
  (forall side', ((side < 1 / 2)%R <-> (1 / 2 <= side')%R) -> level_proposal size p u (- g) side' = Ok cur) /\
  exists A A' a a', level_log_A log_X tries size enough lam beta cur p = Ok A /\ level_log_A log_X tries size enough lam beta p cur = Ok A' /\
    (0 < a <= 1)%R /\ (0 < a' <= 1)%R /\
    (forall v threshold logl, taken v A threshold logl = true <-> (v <= a)%R /\ (threshold < logl)%R) /\
    (forall v threshold logl, taken v A' threshold logl = true <-> (v <= a')%R /\ (threshold < logl)%R) /\
    (level_weight log_X tries enough lam beta cur * a = level_weight log_X tries enough lam beta p * a')%R.
Proof.
  intros log_X tries size enough lam beta cur u g side p Hc Hlam Ht E. unfold level_proposal in *. cbv zeta in *.
  set (y := (Rpower 10 (2 * u) * g)%R) in *. replace (Rpower 10 (2 * u) * - g)%R with (- y)%R by (unfold y; lra).
  rewrite trunc_opp. set (d := trunc y) in *. clearbody d.
  assert (G : 0 <= p < size /\ forall side', ((side < 1 / 2)%R <-> (1 / 2 <= side')%R) ->
    mod_int (if p + - d =? p then if Rlt_dec side' (1 / 2) then p + - d - 1 else p + - d + 1 else p + - d) size = Ok cur).
  { destruct (Z.eqb_spec (cur + d) cur) as [D|D].
    - assert (d = 0) by lia. subst d. rewrite Z.add_0_r in E. destruct (Rlt_dec side (1 / 2)) as [S|S].
      + destruct (mod_back size cur (-1) p Hc E) as [P B]. split; [exact P|]. intros side' H.
        change (- 0) with 0. rewrite Z.add_0_r, Z.eqb_refl. destruct (Rlt_dec side' (1 / 2)) as [S'|S']; [apply H in S; lra|].
        replace (p + 1) with (p - -1) by lia. exact B.
      + destruct (mod_back size cur 1 p Hc E) as [P B]. split; [exact P|]. intros side' H.
        change (- 0) with 0. rewrite Z.add_0_r, Z.eqb_refl. destruct (Rlt_dec side' (1 / 2)) as [S'|S']; [|exfalso; apply S, H; lra].
        exact B.
    - destruct (mod_back size cur d p Hc E) as [P B]. split; [exact P|]. intros side' H.
      destruct (Z.eqb_spec (p + - d) p); [lia|]. exact B. }
  destruct G as [P B]. split; [exact P|]. split; [exact B|].
  unfold level_log_A, log_push. cbv zeta.
  assert (L : forall j, 0 <= j < size -> (size <? j) = false) by (intros j Hj; apply Z.ltb_ge; lia). rewrite !L by assumption.
  assert (T : forall j, 0 <= j < size -> (0 < IZR (tries j + 1))%R) by (intros j Hj; apply IZR_lt; specialize (Ht j Hj); lia).
  assert (Tc := T cur Hc). assert (Tp := T p P).
  destruct enough; cbn [bind].
  - eexists _, _, (prob _), (prob _). split; [reflexivity|]. split; [reflexivity|]. split; [apply prob_range|]. split; [apply prob_range|].
    split; [intros; apply taken_iff|]. split; [intros; apply taken_iff|].
    unfold level_weight, Rpower. rewrite <- !exp_plus. apply flow. unfold Rdiv. rewrite !ln_mult, !ln_Rinv by (auto using Rinv_0_lt_compat).
    set (a := ln (IZR (tries cur + 1))). set (b := ln (IZR (tries p + 1))).
    unfold Rmin. repeat destruct (Rle_dec _ _); lra.
  - eexists _, _, (prob _), (prob _). split; [reflexivity|]. split; [reflexivity|]. split; [apply prob_range|]. split; [apply prob_range|].
    split; [intros; apply taken_iff|]. split; [intros; apply taken_iff|].
    unfold level_weight. rewrite <- !exp_plus. apply flow.
    assert (D : (IZR (p - (size - 1)) / lam - IZR (cur - (size - 1)) / lam = IZR p / lam - IZR cur / lam)%R) by (rewrite !minus_IZR; field; exact Hlam).
    set (a := (IZR (p - (size - 1)) / lam)%R) in *. set (b := (IZR (cur - (size - 1)) / lam)%R) in *. set (a' := (IZR p / lam)%R) in *. set (b' := (IZR cur / lam)%R) in *.
    unfold Rmin. repeat destruct (Rle_dec _ _); lra.
Qed.
Print Assumptions C77_level_moves.
(** three levels of prior mass 1, 1/e and 1/e^2; with g = 1/4 and u = 1/2 the step is
    2, with g = 0 it is one up *)
Example C77_case : let log_X := (fun j => - IZR j)%R in
  level_proposal 3 0 (1 / 2) (1 / 4) 0 = Ok 2 /\ level_proposal 3 2 (1 / 2) (1 / 4) 0 = Ok 1 /\ level_proposal 3 2 (1 / 2) 0 1 = Ok 0 /\
  level_log_A log_X (fun _ => 7) 3 true 10 100 2 0 = Ok (-2)%R.
Proof.
  assert (T2 : trunc (Rpower 10 (2 * (1 / 2)) * (1 / 4)) = 2).
  { replace (2 * (1 / 2))%R with 1%R by lra. rewrite Rpower_1 by lra. unfold trunc. destruct (Rle_dec 0 (10 * (1 / 4))); [|lra].
    pose proof (Int_part_IZR_bounds (10 * (1 / 4))) as [A B]. set (n := Int_part _) in *.
    assert (H1 : (IZR n < 3)%R) by lra. assert (H2 : (1 < IZR n)%R) by lra. apply lt_IZR in H1, H2. lia. }
  assert (T0 : trunc (Rpower 10 (2 * (1 / 2)) * 0) = 0).
  { rewrite Rmult_0_r. unfold trunc. destruct (Rle_dec 0 0); [|lra].
    pose proof (Int_part_IZR_bounds 0) as [A B]. set (n := Int_part _) in *.
    assert (H1 : (IZR n < 1)%R) by lra. assert (H2 : (-1 < IZR n)%R) by lra. apply lt_IZR in H1, H2. lia. }
  cbv zeta. unfold level_proposal. rewrite T2, T0. cbn [Z.add Z.eqb Pos.eqb Pos.add Pos.succ]. destruct (Rlt_dec 1 (1 / 2)); [lra|].
  repeat split. unfold level_log_A, log_push. cbv zeta. cbn [Z.ltb Z.compare Pos.compare Pos.compare_cont bind]. f_equal.
  change (7 + 1) with 8. unfold Rdiv. rewrite Rinv_r by lra. rewrite ln_1. lra.
Qed.

(** One line of two components with ordered centres, both penalties on.  The move
    takes the first centre from 1 past the second (at 5) to 12, which wraps to 0;
    there the component reaches below lag zero, so the move is accepted with
    probability e^-100. *)
Open Scope nat_scope.
Lemma wrap_val x a b v k : (a <= v < b)%R -> (x = v + IZR k * (b - a))%R -> dnest_wrap x a b = Ok v.
Proof.
  intros Hv Hx. pose proof (wrap_id v a b Hv) as E. destruct (wrap_back v (IZR (- k) * (b - a)) a b v Hv) as [_ B].
  - destruct (wrap_spec (v + IZR (- k) * (b - a)) a b ltac:(lra)) as (r & Er & Hr & l & Hl). rewrite Er. f_equal.
    assert (D : (v - r = IZR (k + l) * (b - a))%R) by (rewrite opp_IZR in Hl; rewrite plus_IZR; lra).
    assert (Z0 : (k + l = 0)%Z).
    { assert (A : (IZR (k + l) < 1)%R) by (apply (Rmult_lt_reg_r (b - a)); lra).
      assert (B : (-1 < IZR (k + l))%R) by (apply (Rmult_lt_reg_r (b - a)); lra). apply lt_IZR in A, B. lia. }
    rewrite Z0 in D. lra.
  - rewrite opp_IZR in B. replace (v + - (- IZR k * (b - a)))%R with x in B by lra. exact B.
Qed.
Definition pm_case : arr := fun s => if s =? 5 then 1%R else if s =? 8 then 5%R else 0%R.
Example C76_case : exists pm',
  perturb_line 1 one 2 0 true rng_case free (fun _ => 0%R) (fun _ => 1%R) true true 1 0 365 (fun _ => 200%R) (fun _ => 50%R) (idxs1 2) 0
    [5] 1 (fun _ => 0%R) 0 1 pm_case = Ok (pm', (-100)%R) /\ pm' 5 = 0%R /\
  usable 1 one true free (fun _ => 1%R) true 365 /\ owns 1 one 0 (fun _ => 0) /\ ties_ok 1 one 2 0 true free /\
  inside 1 one 2 0 true true rng_case free pm_case /\ strictly_ordered 1 one 2 0 true pm_case.
Proof.
  exists (upd pm_case 5 0%R). split; [|split; [apply upd_same|]].
  - unfold perturb_line, perturb_line_prior0, perturb_prior0. cbn [Nat.eqb choose_which free none_fixed is_fixed bind]. cbv zeta.
    change (rd (num_params 1 one 2 0 true) pm_case 5) with (Ok (pm_case 5)). cbn [bind]. unfold pm_case at 1. cbn [Nat.eqb].
    change (5 <? num_params_var 1 true) with false. cbn iota. change (check_gauss_center 1 2 true 5) with (true, 0%Z). cbn iota. cbn [Z.eqb].
    change (rd (num_params 1 one 2 0 true) pm_case (5 + 3)) with (Ok (pm_case 8)). cbn [bind].
    unfold step_width. cbn [Z.ltb Z.sub Z.add Z.opp Z.compare Pos.compare Pos.compare_cont Z.pos_sub Pos.pred_double].
    change (lo rng_case 5) with (-1)%R. change (hi rng_case 5) with 10%R. change (pm_case 8) with 5%R.
    assert (Wv : forall x, x = (1 + 1 * (10 - -1))%R -> dnest_wrap x (-1) 5 = Ok 0%R) by (intros x ->; apply (wrap_val _ _ _ _ 2%Z); lra).
    rewrite Wv by (cbn; lra). cbn [bind].
    change 5 with (ParamSpec.slot_at 1 2 true 0 (Centre 0)) at 2.
    rewrite (pens_eq 1 one 2 0 true false true true 1 0 365 (fun _ => 200%R) (fun _ => 50%R)) with (own := fun _ => 0).
    + cbn [bind andb]. f_equal. f_equal. unfold role_penalty, penalty, below_zero, in_gap, phase. cbv zeta.
      change (ParamSpec.slot_at 1 2 true 0 (Centre 0)) with 5. change (ParamSpec.slot_at 1 2 true 0 (Width 0)) with 6. rewrite upd_same.
      change (upd pm_case 5 0%R 6) with 0%R. rewrite exp_0. destruct (Rlt_dec 0 (1 * 1)); [|lra].
      replace ((0 + 0 * 1) / 365)%R with 0%R by lra. rewrite fp_R0. rewrite Rabs_left by lra. destruct (Rlt_dec _ 50); lra.
    + discriminate.
    + intros _ i Hi. cbn. lia.
    + intros _. lra.
    + intros i j [Hi Hj]. cbn. lia.
    + unfold nlines. cbn. lia.
    + cbn. lia.
  - split; [|split; [|split; [|split]]].
    + split; [intros; lra|]. intros _. split; [lra|]. intros i _. cbn. lia.
    + intros i j [Hi Hj]. cbn. lia.
    + split; [discriminate|]. intros s b (_ & H & _). discriminate.
    + split; [|intros s b (_ & H & _); discriminate]. intros s Hs _. unfold rng_case, pm_case. cbn [lo hi]. destruct (s =? 5), (s =? 8); lra.
    + intros m k Hm Hk. assert (m = 0) by (unfold nlines in Hm; cbn in Hm; lia). assert (k = 0) by lia. subst m k. unfold pm_case. cbn. lra.
Qed.
(** and a tied one: with option 2 the second set's centre 25 copies 11 (C39_case_tied),
    and the second set's lines do not count in the target *)
Example C76_case_tied : counted shape 2 true 1 = true /\ counted shape 2 true 2 = false.
Proof. split; reflexivity. Qed.
