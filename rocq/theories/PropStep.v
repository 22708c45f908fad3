(** C99: the width of a proposed step. *)
From Coq Require Import Reals ZArith List Bool Arith Lia Lra Sorted.
From Flocq Require Import Core BinarySingleNaN.
From Verif Require Import CPrelude SortModel ListLemmas DnestModel DnestProofs DnestRound DnestRuns SamplerSpec SamplerFacts SamplerFacts2 LimitsFacts DampModel StepModel StepProofs StepFloat.
Import ListNotations.
Open Scope Z_scope.

(** Between two numbers of a range: codes of doubles, in ascending order. *)
Definition inside_range (range ends : dbl * dbl) : Prop :=
  exists a b x y, range = (Val a, Val b) /\ ends = (Val x, Val y) /\ a <= x /\ x <= y /\ y <= b.

Section Step.
Variable ptol_ok : list dbl -> bool.
Variable o : opts.
Variable box : list (dbl * dbl).

(** A round [r] starts in state [st], a state of a run whose particles start in the
    ranges [box] and whose proposals stay in them or have NaN or -DBL_MAX as
    likelihood.
    Task number [i], in state [t] at the start of the round, makes the steps [ds1] and
    then, in step [d], a proposal for particle [p] when its state is [t0]. *)
Record proposal (st : gstate) (r : rdraw) (i : nat) (t t0 : task) (d : sdraw) (p : particle) : Prop := mkproposal
  { pr_lim : o_lim o = true;
    pr_opts : valid_opts o;
    pr_box : ranges o box;
    pr_reach : reachable_in ptol_ok o box st;
    pr_round : valid_round o r;
    pr_rok : round_ok box r;
    pr_task : nth_error (g_tasks st) i = Some t;
    pr_run : exists ds1 ds2 t1, nth_error (r_steps r) i = Some (ds1 ++ d :: ds2) /\
      mcmc_run ptol_ok o (if Nat.eqb i 0 then g_rmax st else o_maxl o) t ds1 = Ok t1 /\
      proposing ptol_ok o (if Nat.eqb i 0 then g_rmax st else o_maxl o) t1 d t0 p }.

(** the two numbers whose difference is the width *)
Definition ends_of (f : perturb_fn) (t0 : task) (p : particle) (which : nat) : outcome (dbl * dbl) :=
  step_ends f (Z.of_nat (plev p)) (Z.of_nat (length (levels t0))) (limits t0) box which.

Lemma proposal_facts st r i t t0 d p : proposal st r i t t0 d p ->
  tgood o box t0 /\ rows_ge (limits t0) (limits t) /\ length (levels t0) = length (g_comb st) /\
  length (limits t0) = alloc o /\ (length (g_comb st) <= alloc o)%nat /\ exists lims, linv o st lims /\ limits t = lims.
Proof.
  intros [Hl Hv Hb Hre Hr Hro Ht (ds1 & ds2 & t1 & Hds & E1 & Hp)].
  pose proof (reachable_in_reachable _ _ _ _ Hre) as Hre'.
  pose proof (reachable_ginv ptol_ok o st Hv Hre') as Hg.
  destruct (linv_reachable ptol_ok o Hl st Hv Hre') as [lims HL].
  destruct (proposing_state ptol_ok o box Hl Hv Hb st r i t _ ds1 d ds2 t1 t0 p Hre Hr Hro Ht Hds E1 Hp) as (T & G & L).
  pose proof (Forall_nth_error _ _ _ _ _ (gi_tasks _ _ _ _ Hg) Ht) as T0.
  assert (Ell : length (levels t) = length (g_comb st)).
  { rewrite <- (vals_length (levels t)), (t0_vals o _ _ T0). apply vals_length. }
  pose proof (Forall_nth_error _ _ _ _ _ (li_same _ _ _ HL) Ht) as Elim. cbv beta in Elim.
  split; [exact T|]. split; [exact G|]. split; [congruence|]. split; [|split].
  - unfold rows_ge in G. rewrite <- (li_len _ _ _ HL), <- Elim. clear -G. induction G; simpl; congruence.
  - apply Hg.
  - exists lims. auto.
Qed.

Lemma wl_bounds f u size : 0 <= u -> which_level f u size <= u /\ which_level f u size <= size - 10.
Proof.
  intros H. unfold which_level.
  destruct f; match goal with |- context [?a <? ?b] => destruct (Z.ltb_spec a b) end; lia.
Qed.

Lemma proper_nth row which : proper box row -> ranges o box -> (which < o_dim o)%nat ->
  exists ends range, nth_error row which = Some ends /\ nth_error box which = Some range /\ inside_range range ends.
Proof.
  intros Hp [L _] Hw. rewrite <- L in Hw. clear L. revert which Hw. unfold proper in Hp.
  induction Hp as [|iv b row bs (H1 & H2 & H3) Hp IH]; intros which Hw; [simpl in Hw; lia|].
  destruct which as [|w]; [|apply IH; simpl in Hw; lia]. exists iv, b. split; [reflexivity|]. split; [reflexivity|].
  destruct iv as [[|x] [|y]]; destruct b as [[|a] [|c]]; simpl in *; try discriminate. rewrite Z.leb_le in *.
  exists a, c, x, y. auto.
Qed.
Lemma range_nth which : ranges o box -> (which < o_dim o)%nat ->
  exists range, nth_error box which = Some range /\ inside_range range range.
Proof.
  intros [L B] Hw. rewrite <- L in Hw. destruct (nth_error box which) as [b|] eqn:E.
  2:{ apply nth_error_None in E. lia. }
  exists b. split; [reflexivity|]. destruct (Forall_nth_error _ _ _ _ _ B E) as (x & y & -> & H1 & H2 & H3).
  exists x, y, x, y. repeat split; lia.
Qed.

(** The rule.  In the continuum fit and for Gaussians with ordered centres outside the
    virtual mode the limits are those of the level below the one of the particle, but
    always at least eleven below the top; in all other fits five levels lower.  Where
    there is no such level the range of the prior is used. *)
Definition behind (f : perturb_fn) : Z :=
  match f with perturb_con | perturb_line_prior0 | perturb_mmap_prior0 => 0 | _ => 5 end.
Theorem C99_rule : forall f u size lims range which, 0 <= u ->
  let k := Z.min u (size - 10) - behind f - 1 in
  step_ends f u size lims range which =
    if k <? 0 then match nth_error range which with Some e => Ok e | None => UB end
    else match nth_error lims (Z.to_nat k) with
         | Some row => match nth_error row which with Some e => Ok e | None => UB end
         | None => UB
         end.
Proof.
  intros f u size lims range which Hu k. unfold step_ends. cbv zeta.
  assert (E : which_level f u size = k + 1).
  { unfold k, which_level, behind. destruct f; match goal with |- context [?a <? ?b] => destruct (Z.ltb_spec a b) end; lia. }
  rewrite E. replace (k + 1 - 1) with k by lia. unfold get, bind.
  destruct (Z.ltb_spec 0 (k + 1)); destruct (Z.ltb_spec k 0); try lia; try reflexivity.
  destruct (nth_error lims (Z.to_nat k)); reflexivity.
Qed.

(** Every time a proposal is made, in every mode and for every parameter, the reading
    of the two ends stays inside the table of limits, and the ends are those of an interval inside the range of
    the parameter, or the numbers DBL_MAX and -DBL_MAX with which setup fills the
    table. *)
Theorem C99_ends : forall st r i t t0 d p, proposal st r i t t0 d p ->
  forall f which, (which < o_dim o)%nat -> exists ends range, ends_of f t0 p which = Ok ends /\
    nth_error box which = Some range /\
    (inside_range range ends \/
     ends = (Val DBL_MAX, Val (- DBL_MAX)) /\
     exists k row, (k < plev p)%nat /\ (k + 10 < length (levels t0))%nat /\
       nth_error (limits t0) k = Some row /\ untouched row /\ nth_error row which = Some ends).
Proof.
  intros st r i t t0 d p Hpr f which Hw. destruct (proposal_facts _ _ _ _ _ _ _ Hpr) as ((_ & T) & _ & L1 & L2 & L3 & _).
  pose proof (pr_box _ _ _ _ _ _ _ Hpr) as Hb.
  destruct (range_nth which Hb Hw) as (range & Hran & Hin).
  unfold ends_of, step_ends. cbv zeta.
  pose proof (wl_bounds f (Z.of_nat (plev p)) (Z.of_nat (length (levels t0))) ltac:(lia)) as [W1 W2].
  set (wl := which_level _ _ _) in *. destruct (0 <? wl) eqn:Ew.
  2:{ exists range, range. unfold get. rewrite Hran. auto. }
  apply Z.ltb_lt in Ew. rewrite (proj2 (Z.ltb_ge _ _)) by lia.
  assert (Hk : (Z.to_nat (wl - 1) < length (limits t0))%nat) by lia.
  unfold get. destruct (nth_error (limits t0) (Z.to_nat (wl - 1))) as [row|] eqn:Er.
  2:{ apply nth_error_None in Er. lia. }
  cbn [bind]. pose proof (Forall_nth_error _ _ _ _ _ T Er) as [G|G]; cbv beta in G.
  - assert (En : nth_error row which = Some empty_iv) by (rewrite G; apply nth_error_repeat; exact Hw). rewrite En.
    exists empty_iv, range. split; [reflexivity|]. split; [exact Hran|]. right. split; [reflexivity|].
    exists (Z.to_nat (wl - 1)), row. repeat split; auto; try lia.
    rewrite G. apply Forall_forall. intros x Hx. apply repeat_spec in Hx. exact Hx.
  - destruct (proper_nth row which G Hb Hw) as (ends & range' & E1 & E2 & Hi). rewrite E1. rewrite E2 in Hran. injection Hran as <-.
    exists ends, range'. auto.
Qed.

(** They are those of an interval inside the range if at the start of the round some
    particle of some task stood on a level not below the one whose limits are used,
    other than the bottom one. *)
Theorem C99_set : forall st r i t t0 d p, proposal st r i t t0 d p ->
  forall f which, (which < o_dim o)%nat ->
  (exists t2 p2, In t2 (g_tasks st) /\ In p2 (parts t2) /\ (0 < plev p2)%nat /\
     which_level f (Z.of_nat (plev p)) (Z.of_nat (length (levels t0))) <= Z.of_nat (plev p2) + 1) ->
  exists ends range, ends_of f t0 p which = Ok ends /\ nth_error box which = Some range /\ inside_range range ends.
Proof.
  intros st r i t t0 d p Hpr f which Hw (t2 & p2 & Ht2 & Hp2 & Hl2 & Hwl).
  destruct (proposal_facts _ _ _ _ _ _ _ Hpr) as ((_ & T) & Gr & L1 & L2 & L3 & lims & HL & Elim).
  pose proof (pr_box _ _ _ _ _ _ _ Hpr) as Hb. pose proof Hpr as [Hl Hv _ Hre _ _ Ht _].
  destruct (range_nth which Hb Hw) as (range & Hran & Hin).
  unfold ends_of, step_ends. cbv zeta.
  pose proof (wl_bounds f (Z.of_nat (plev p)) (Z.of_nat (length (levels t0))) ltac:(lia)) as [W1 W2].
  set (wl := which_level _ _ _) in *. destruct (0 <? wl) eqn:Ew.
  2:{ exists range, range. unfold get. rewrite Hran. auto. }
  apply Z.ltb_lt in Ew. rewrite (proj2 (Z.ltb_ge _ _)) by lia.
  destruct (reachable_tgood ptol_ok o box Hl Hv Hb st Hre) as [TG _]. rewrite Forall_forall in TG.
  destruct (TG t2 Ht2) as [P2 G2]. rewrite Forall_forall in P2. destruct (P2 p2 Hp2) as [_ Q]. destruct (Q Hl2) as (row2 & E2 & Pr2).
  pose proof (li_same _ _ _ HL) as Sm. rewrite Forall_forall in Sm. rewrite (Sm t2 Ht2) in E2, G2.
  assert (S1 : exists row1, nth_error lims (Z.to_nat (wl - 1)) = Some row1 /\ proper box row1).
  { destruct (Nat.eq_dec (Z.to_nat (wl - 1)) (plev p2)) as [->|N]; [eauto|].
    destruct (nth_error lims (Z.to_nat (wl - 1))) as [row1|] eqn:E1.
    2:{ apply nth_error_None in E1. apply nth_error_lt in E2. lia. }
    exists row1. split; [reflexivity|]. eapply (contains_proper o box Hb); [exact (Forall_nth_error _ _ _ _ _ G2 E1)| |exact Pr2].
    eapply StronglySorted_nth; [exact (li_nested _ _ _ HL)| |exact E1|exact E2]. lia. }
  destruct S1 as (row1 & E1 & P1). rewrite Elim in Gr.
  destruct (rows_ge_proper o box Hb _ _ _ _ T Gr E1 P1) as (row & Er & Pr).
  unfold get. rewrite Er. cbn [bind]. destruct (proper_nth row which Pr Hb Hw) as (ends & range' & F1 & F2 & Hi).
  rewrite F1. rewrite F2 in Hran. injection Hran as <-. exists ends, range'. auto.
Qed.

(** So also for a particle that has been on its level since the start of the round. *)
Theorem C99_settled : forall st r i t t0 d p, proposal st r i t t0 d p ->
  forall p0, nth_error (parts t) (d_which d) = Some p0 -> plev p0 = plev p ->
  forall f which, (which < o_dim o)%nat ->
  exists ends range, ends_of f t0 p which = Ok ends /\ nth_error box which = Some range /\ inside_range range ends.
Proof.
  intros st r i t t0 d p Hpr p0 Hp0 Hlev f which Hw.
  pose proof (wl_bounds f (Z.of_nat (plev p)) (Z.of_nat (length (levels t0))) ltac:(lia)) as [W1 W2].
  destruct (Nat.eq_dec (plev p) 0) as [Z0|NZ].
  - destruct (range_nth which (pr_box _ _ _ _ _ _ _ Hpr) Hw) as (range & Hran & Hin). exists range, range.
    split; [|auto]. unfold ends_of, step_ends. cbv zeta. rewrite (proj2 (Z.ltb_ge _ _)) by lia. unfold get. rewrite Hran. reflexivity.
  - apply (C99_set _ _ _ _ _ _ _ Hpr f which Hw). exists t, p0. split; [eapply nth_error_In; exact (pr_task _ _ _ _ _ _ _ Hpr)|].
    split; [eapply nth_error_In; eauto|]. lia.
Qed.
End Step.
Print Assumptions C99_rule.
Print Assumptions C99_ends.
Print Assumptions C99_set.
Print Assumptions C99_settled.

(** The codes by which the model compares doubles are in the order of the doubles. *)
Theorem C99_codes : forall a b, - DBL_MAX <= a <= DBL_MAX -> - DBL_MAX <= b <= DBL_MAX ->
  dlt (Val a) (Val b) = Bltb (decode (Val a)) (decode (Val b)) /\
  dle (Val a) (Val b) = Bleb (decode (Val a)) (decode (Val b)).
Proof.
  intros a b Ha Hb. destruct (decode_ok a Ha) as [A1 A2]. destruct (decode_ok b Hb) as [B1 B2].
  rewrite (Bltb_correct 53 1024 _ _ A2 B2), (Bleb_correct 53 1024 _ _ A2 B2), A1, B1. cbn [dlt dle]. split.
  - destruct (Z.ltb_spec a b) as [H|H]; symmetry; [apply Rlt_bool_true, dv_mono; exact H|apply Rlt_bool_false, dv_le; exact H].
  - destruct (Z.leb_spec a b) as [H|H]; symmetry; [apply Rle_bool_true, dv_le; exact H|apply Rle_bool_false, dv_mono; exact H].
Qed.
Print Assumptions C99_codes.

(** With ends inside the range the width, computed with doubles, is finite, not
    negative and at most the width of the range (if that is finite). *)
Theorem C99_width : forall range ends, inside_range range ends ->
  - DBL_MAX <= match fst range with Val a => a | NaN => 0 end ->
  match snd range with Val b => b | NaN => 0 end <= DBL_MAX ->
  let w := width64 (decode (fst ends), decode (snd ends)) in
  let v := width64 (decode (fst range), decode (snd range)) in
  is_finite v = true -> is_finite w = true /\ (0 <= B2R w <= B2R v)%R.
Proof.
  intros range ends (a & b & x & y & -> & -> & H1 & H2 & H3) Ha Hb. cbn [fst snd] in *. cbv zeta. intros Fv.
  assert (Bd : (Rabs (Generic_fmt.round radix2 (FLT_exp (-1074) 53) ZnearestE (dv b - dv a)) < bpow radix2 1024)%R).
  { destruct (decode_ok a) as [A1 A2]; [lia|]. destruct (decode_ok b) as [B1 B2]; [lia|].
    pose proof (Bminus_correct 53 1024 prec64 emax64 mode_NE _ _ B2 A2) as C. rewrite A1, B1 in C.
    change (SpecFloat.fexp 53 1024) with (FLT_exp (-1074) 53) in C. change (round_mode mode_NE) with ZnearestE in C.
    destruct (Rlt_bool_spec (Rabs (Generic_fmt.round radix2 (FLT_exp (-1074) 53) ZnearestE (dv b - dv a))) (bpow radix2 1024)) as [L|L]; [exact L|].
    exfalso. destruct C as [C _]. unfold width64 in Fv. cbn [fst snd] in Fv. unfold fsub in Fv.
    apply (f_equal is_finite_SF) in C. rewrite is_finite_SF_B2SF in C.
    assert (O : is_finite_SF (binary_overflow 53 1024 mode_NE (Bsign (decode (Val b)))) = false) by (destruct (Bsign (decode (Val b))); reflexivity).
    rewrite O in C. congruence. }
  destruct (width_ok a b ltac:(lia) ltac:(lia) Bd) as [V1 V2].
  assert (M : (0 <= dv y - dv x <= dv b - dv a)%R).
  { pose proof (dv_le x y H2). pose proof (dv_le a x H1). pose proof (dv_le y b H3). lra. }
  assert (M' : (0 <= Generic_fmt.round radix2 (FLT_exp (-1074) 53) ZnearestE (dv y - dv x) <= Generic_fmt.round radix2 (FLT_exp (-1074) 53) ZnearestE (dv b - dv a))%R).
  { split; [|apply (@round_le radix2 (FLT_exp (-1074) 53) (@FLT_exp_valid (-1074) 53 prec64) ZnearestE (valid_rnd_N _)); lra].
    rewrite <- (@round_0 radix2 (FLT_exp (-1074) 53) ZnearestE (valid_rnd_N _)). apply (@round_le radix2 (FLT_exp (-1074) 53) (@FLT_exp_valid (-1074) 53 prec64) ZnearestE (valid_rnd_N _)); lra. }
  assert (Bw : (Rabs (Generic_fmt.round radix2 (FLT_exp (-1074) 53) ZnearestE (dv y - dv x)) < bpow radix2 1024)%R).
  { rewrite Rabs_pos_eq by lra. rewrite Rabs_pos_eq in Bd by lra. lra. }
  destruct (width_ok x y ltac:(lia) ltac:(lia) Bw) as [W1 W2].
  split; [exact W2|]. rewrite W1, V1. exact M'.
Qed.
Print Assumptions C99_width.

(** With DBL_MAX and -DBL_MAX the width is minus infinity and the parameter becomes
    NaN, whatever it was and whatever number is drawn, unless its range is empty. *)
Theorem C99_nan : forall x h min max, Bltb zero (fsub max min) = true ->
  let width := width64 (decode (Val DBL_MAX), decode (Val (- DBL_MAX))) in
  width = B754_infinity true /\ move64 x h width min max = Ok B754_nan.
Proof. intros x h min max H width. split; [exact untouched_width|]. unfold width. rewrite untouched_width. apply untouched_move. exact H. Qed.
Print Assumptions C99_nan.

(** A proposal with NaN or -DBL_MAX (the value given when the matrix could not be
    inverted) as likelihood is never accepted. *)
Theorem C99_rejected : forall ptol_ok o box st r i t t0 d p, proposal ptol_ok o box st r i t t0 d p ->
  lv (d_lik d) = NaN \/ lv (d_lik d) = Val (- DBL_MAX) -> forall t', update_particle t0 d = Ok t' -> parts t' = parts t0.
Proof.
  intros ptol_ok o box st r i t t0 d p Hpr Hn t' E.
  assert (Hlow : low (levels t0)).
  { pose proof Hpr as [Hl Hv Hb Hre Hr Hro Ht (ds1 & ds2 & t1 & Hds & E1 & Hp & Hp')].
    destruct (reachable_tgood ptol_ok o box Hl Hv Hb st Hre) as [TG Hbot].
    assert (L : low (levels t)).
    { apply (bottomed_low ptol_ok o st); auto; [|eapply nth_error_In; eauto]. apply reachable_ginv; auto. eapply reachable_in_reachable; eauto. }
    assert (L1 : low (levels t1)).
    { exact (mcmc_run_low ptol_ok o Hl _ ds1 t t1 E1 L). }
    destruct (d_order d); [subst t0; exact L1|]. rewrite (level_lk ptol_ok o Hl _ _ _ _ Hp). exact L1. }
  unfold update_particle, get, put in E.
  destruct (nth_error (parts t0) (d_which d)) as [q|] eqn:Ep; try discriminate. cbn [bind] in E.
  destruct (nth_error (levels t0) (plev q)) as [l|] eqn:El; try discriminate. cbn [bind] in E.
  destruct (set_nth (plev q) _ (levels t0)) as [ls|]; try discriminate. cbn [bind] in E.
  rewrite (low_rejects _ _ _ _ Hlow El Hn), andb_false_r in E.
  destruct (set_nth (d_which d) q (parts t0)) as [ps|] eqn:S; try discriminate. cbn [bind] in E. injection E as <-. cbn [parts].
  clear -Ep S. revert ps Ep S. generalize (d_which d). induction (parts t0) as [|q' l IH]; intros n ps Ep S; [destruct n; discriminate|].
  destruct n as [|n]; simpl in *; [congruence|]. destruct (set_nth n q l) as [l'|] eqn:E'; [|discriminate]. injection S as <-. f_equal. eapply IH; eauto.
Qed.
Print Assumptions C99_rejected.

(** ** The table can still be unset where it is read *)
Definition so : opts := mkopts 1 1 1 1 1 20 100 100 2 1 true 1.
Definition sbox : list (dbl * dbl) := [(Val 0, Val 1000)].
Definition climb (k : Z) : rdraw :=
  mkrd [[mkdraw 0 true [Val k] (mklik (Val k) 0) true 0 false]] (mkkill [false] [[]]) 0 0.
(** the likelihood grows, a level is added in every round, the particle stays at the
    bottom *)
Definition srounds : list rdraw := map climb [11; 12; 13; 14; 15; 16; 17; 18; 19; 20; 21; 22; 23; 24; 25].
Definition jump : sdraw := mkdraw 0 false [Val 30] (mklik (Val 30) 0) true 14 true.
Definition sround : rdraw := mkrd [[jump]] (mkkill [false] [[]]) 0 0.

Lemma so_opts : valid_opts so.
Proof. constructor; cbn; lia. Qed.
Lemma sbox_ok : ranges so sbox.
Proof. split; [reflexivity|]. constructor; [|constructor]. exists 0, 1000. unfold DBL_MAX. repeat split; lia. Qed.
Lemma climb_ok k : 0 <= k <= 1000 -> valid_round so (climb k) /\ round_ok sbox (climb k).
Proof.
  intros H. split.
  - constructor; cbn; try lia; try reflexivity.
    + constructor; [|constructor]. split; [reflexivity|]. constructor; [|constructor]. unfold valid_draw. cbn. lia.
    + split; [reflexivity|]. constructor; constructor.
  - constructor; [|constructor]. constructor; [|constructor]. left. constructor; [|constructor]. cbn. rewrite !Z.leb_le. lia.
Qed.
Lemma srounds_ok : Forall (fun r => valid_round so r /\ round_ok sbox r) srounds.
Proof. unfold srounds. repeat (constructor; [apply climb_ok; lia|]). constructor. Qed.
Lemma sround_ok : valid_round so sround /\ round_ok sbox sround.
Proof.
  split.
  - constructor; cbn; try lia; try reflexivity.
    + constructor; [|constructor]. split; [reflexivity|]. constructor; [|constructor]. unfold valid_draw. cbn. lia.
    + split; [reflexivity|]. constructor; constructor.
  - constructor; [|constructor]. constructor; [|constructor]. left. constructor; [|constructor]. split; reflexivity.
Qed.
Definition never_ok (_ : list dbl) : bool := false.
Definition sinit : list (Z * list (list dbl * lik)) := [(0, [([Val 10], mklik (Val 10) 0)])].
Lemma s_reach : forall st, run never_ok so srounds (init_state so sinit) = Ok st -> reachable_in never_ok so sbox st.
Proof.
  intros st E. exists sinit, srounds. split; [split; [reflexivity|constructor; [reflexivity|constructor]]|]. split.
  - constructor; [|constructor]. constructor; [|constructor]. constructor; [|constructor]. split; reflexivity.
  - pose proof srounds_ok as H. split; [|split; [|exact E]]; (eapply Forall_impl; [|exact H]; intros a [A B]; assumption).
Qed.

(** Not true: "the width is taken from an interval inside the range of the
    parameter".  A particle may move up from the bottom level, past levels on which
    no particle has been yet, and be moved in the same step. *)
Theorem C99_unset_refuted : exists o box st r i t t0 d p,
  proposal never_ok o box st r i t t0 d p /\ (0 < o_dim o)%nat /\
  forall f, ends_of box f t0 p 0 = Ok (Val DBL_MAX, Val (- DBL_MAX)).
Proof.
  destruct (run never_ok so srounds (init_state so sinit)) as [st| | |] eqn:E.
  2-4: exfalso; vm_compute in E; discriminate.
  pose proof (s_reach st E) as Hre.
  assert (X : exists t t0 p, nth_error (g_tasks st) 0 = Some t /\ update_level_assignment never_ok so (g_rmax st) t jump = Ok t0 /\
    nth_error (parts t0) 0 = Some p /\ forall f, ends_of sbox f t0 p 0 = Ok (Val DBL_MAX, Val (- DBL_MAX))).
  { vm_compute in E. injection E as <-. eexists. eexists. eexists.
    split; [cbn; reflexivity|]. split; [vm_compute; reflexivity|]. split; [cbn; reflexivity|]. intros []; vm_compute; reflexivity. }
  destruct X as (t & t0 & p & X1 & X2 & X3 & X4).
  exists so, sbox, st, sround, O, t, t0, jump, p. split; [|split; [cbn; lia|exact X4]].
  destruct sround_ok as [R1 R2]. constructor; auto; [exact so_opts|exact sbox_ok|].
  exists [], [], t. split; [reflexivity|]. split; [reflexivity|]. split; [exact X2|exact X3].
Qed.
Print Assumptions C99_unset_refuted.

(** Not true: "the width is positive".  When one particle only has been above a level
    the two ends agree, and the proposal of the next round is made with width 0. *)
Definition again : sdraw := mkdraw 0 true [Val 40] (mklik (Val 40) 0) true 14 true.
Definition around : rdraw := mkrd [[again]] (mkkill [false] [[]]) 0 0.
Lemma around_ok : valid_round so around /\ round_ok sbox around.
Proof.
  split.
  - constructor; cbn; try lia; try reflexivity.
    + constructor; [|constructor]. split; [reflexivity|]. constructor; [|constructor]. unfold valid_draw. cbn. lia.
    + split; [reflexivity|]. constructor; constructor.
  - constructor; [|constructor]. constructor; [|constructor]. left. constructor; [|constructor]. split; reflexivity.
Qed.
Theorem C99_zero_refuted : exists o box st r i t t0 d p p0,
  proposal never_ok o box st r i t t0 d p /\ (0 < o_dim o)%nat /\
  nth_error (parts t) (d_which d) = Some p0 /\ plev p0 = plev p /\ (0 < plev p)%nat /\
  forall f, exists x, ends_of box f t0 p 0 = Ok (Val x, Val x).
Proof.
  destruct (run never_ok so (srounds ++ [sround]) (init_state so sinit)) as [st| | |] eqn:E.
  2-4: exfalso; vm_compute in E; discriminate.
  assert (Hre : reachable_in never_ok so sbox st).
  { exists sinit, (srounds ++ [sround]). split; [split; [reflexivity|constructor; [reflexivity|constructor]]|]. split.
    - constructor; [|constructor]. constructor; [|constructor]. constructor; [|constructor]. split; reflexivity.
    - assert (H : Forall (fun r => valid_round so r /\ round_ok sbox r) (srounds ++ [sround])).
      { apply Forall_app. split; [exact srounds_ok|]. constructor; [exact sround_ok|constructor]. }
      split; [|split; [|exact E]]; (eapply Forall_impl; [|exact H]; intros a [A B]; assumption). }
  assert (X : exists t p, nth_error (g_tasks st) 0 = Some t /\ nth_error (parts t) 0 = Some p /\ plev p = 14%nat /\
    forall f, ends_of sbox f t p 0 = Ok (Val 25, Val 25)).
  { vm_compute in E. injection E as <-. eexists. eexists.
    split; [cbn; reflexivity|]. split; [cbn; reflexivity|]. split; [reflexivity|]. intros []; vm_compute; reflexivity. }
  destruct X as (t & p & X1 & X2 & X3 & X4). destruct around_ok as [R1 R2].
  exists so, sbox, st, around, O, t, t, again, p, p. split.
  - constructor; auto; [exact so_opts|exact sbox_ok|]. exists [], [], t. split; [reflexivity|]. split; [reflexivity|]. split; [reflexivity|exact X2].
  - split; [cbn; lia|]. split; [exact X2|]. split; [reflexivity|]. split; [lia|]. intros f. exists 25. apply X4.
Qed.
Print Assumptions C99_zero_refuted.

(** Hypotheses of the theorems above met: in the two runs above, the second of which is
    a case of [C99_settled] on a level above the bottom; and numbers for the rest. *)
Example C99_example :
  which_level perturb_con 12 16 = 6 /\ which_level perturb_pmap 12 16 = 1 /\ which_level perturb_pmap 3 16 = -2 /\
  step_ends perturb_pmap 12 16 [[(Val 2, Val 9)]] [(Val 0, Val 1000)] 0 = Ok (Val 2, Val 9) /\
  step_ends perturb_pmap 3 16 [[(Val 2, Val 9)]] [(Val 0, Val 1000)] 0 = Ok (Val 0, Val 1000) /\
  inside_range (Val 0, Val 1000) (Val 3, Val 7) /\
  is_finite (width64 (decode (Val 0), decode (Val DBL_MAX))) = true /\
  Bltb zero (fsub one zero) = true /\ Beqb (decode (Val 4607182418800017408)) one = true.
Proof.
  repeat split; try reflexivity; try (vm_compute; reflexivity). exists 0, 1000, 3, 7. repeat split; lia.
Qed.
